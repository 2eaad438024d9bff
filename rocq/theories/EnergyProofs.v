(** The energy theorems of the linear study. *)
From Coq Require Import Ascii String.
From Verif Require Export ElemTop CliStudy HeldProofs.
From Verif Require Import Cli CliMesh.
Local Close Scope string_scope.
Local Open Scope nat_scope.

(** *** spec *)
Section spec.
Context {A : arith}.
(** [disp] was computed from the loads in these orders, by a method that applies *)
Definition computed (h : hashes A) (name : option text) (a : elas A) oc ol (disp : list (point A)) : Prop :=
  hashes_ok h /\ ea_built a /\ applies h name a /\
  exists solver, solver_of h name = Some solver /\ calc_displacements (h_k h) oc ol solver a = Ret disp.
(** the work of the forces [f] on the displacement [u] *)
Definition work (n : nat) (f u : nat -> A) : A := bigsum n (fun i => smul (f i) (u i)).
(** twice the potential energy: what is stored, less twice what the load does *)
Definition potential (n : nat) (K : nat -> nat -> A) (r u : nat -> A) : A :=
  ssub (work n (mv n K u) u) (smul (sadd s1 s1) (work n r u)).
(** the same body, perhaps with other loads and supports *)
Definition same_body (a b : elas A) : Prop :=
  ea_nodes a = ea_nodes b /\ ea_elems a = ea_elems b /\ ea_cond a = ea_cond b /\ ea_mat a = ea_mat b.
(** whatever is allowed by the supports [c'] is allowed by [c] *)
Definition at_least_held (c c' : list (constr A)) : Prop := forall v, respects c' v -> respects c v.
End spec.

Section energy.
Context {A : arith} (OL : ord_laws A) (Trig : forall th : A, sadd (smul (scos th) (scos th)) (smul (ssin th) (ssin th)) = s1).
Let FL : field_laws A := ol_field A OL.
Add Field Afield67 : (fl_field A FL).
Local Infix "+" := sadd. Local Infix "*" := smul. Local Infix "-" := ssub.
Local Notation "0" := s0. Local Notation "1" := s1.

Lemma computed_solution (h : hashes A) name (a : elas A) oc ol disp : computed h name a oc ol disp -> the_solution (A := A) a oc ol disp.
Proof.
  intros (Hh & Hb & Hap & solver & Hs & E). exact (study_solution OL Trig h name a oc ol solver disp Hh (ea_built_ok a Hb) Hs Hap E).
Qed.
Lemma respects_comb cons (u v : nat -> A) c d : respects cons u -> respects cons v -> respects cons (fun i => c * u i + d * v i).
Proof.
  intros Hu Hv n k Hk. specialize (Hu n k Hk). specialize (Hv n k Hk). destruct k as [ | | | |th]; [exact I|rewrite Hu, Hv; ring|rewrite Hu, Hv; ring| |].
  - destruct Hu as [-> ->], Hv as [-> ->]. split; ring.
  - transitivity (c * (scos th * u (n * 2)%nat + ssin th * u (n * 2 + 1)%nat) + d * (scos th * v (n * 2)%nat + ssin th * v (n * 2 + 1)%nat)); [ring|].
    rewrite Hu, Hv. ring.
Qed.
Lemma respects_sub cons (u v : nat -> A) : respects cons u -> respects cons v -> respects cons (fun i => u i - v i).
Proof.
  intros Hu Hv n k Hk. pose proof (respects_comb cons u v 1 (0 - 1) Hu Hv n k Hk) as H.
  destruct k; [exact I| | | |]; cbn beta in *.
  - rewrite <- H. ring.
  - rewrite <- H. ring.
  - destruct H as [H1 H2]. split; [rewrite <- H1|rewrite <- H2]; ring.
  - rewrite <- H. ring.
Qed.
Lemma mv_lin n (K : nat -> nat -> A) u v c d i : mv n K (fun j => c * u j + d * v j) i = c * mv n K u i + d * mv n K v i.
Proof.
  unfold mv. rewrite <- !(bigsum_scale_l FL), <- (bigsum_add FL). apply bigsum_ext. intros j _. ring.
Qed.
Lemma work_comm n (f u : nat -> A) : work n f u = work n u f.
Proof. apply bigsum_ext. intros i _. ring. Qed.
Lemma work_lin n (f u v : nat -> A) c d : work n f (fun i => c * u i + d * v i) = c * work n f u + d * work n f v.
Proof. unfold work. rewrite <- !(bigsum_scale_l FL), <- (bigsum_add FL). apply bigsum_ext. intros i _. ring. Qed.
Lemma work_ext n (f g u v : nat -> A) : (forall i, i < n -> f i = g i) -> (forall i, i < n -> u i = v i) -> work n f u = work n g v.
Proof. intros H1 H2. apply bigsum_ext. intros i Hi. now rewrite H1, H2. Qed.
Lemma work_mv_ext n (K : nat -> nat -> A) u v w x : (forall i, i < n -> u i = v i) -> (forall i, i < n -> w i = x i) ->
  work n (mv n K u) w = work n (mv n K v) x.
Proof. intros H1 H2. apply work_ext; [|exact H2]. intros i _. apply bigsum_ext. intros j Hj. now rewrite H1. Qed.
Lemma work_sym n (K : nat -> nat -> A) u v : (forall i j, K i j = K j i) -> work n (mv n K u) v = work n (mv n K v) u.
Proof.
  intros Hs. unfold work, mv.
  transitivity (bigsum n (fun i => bigsum n (fun j => K i j * u j * v i))).
  { apply bigsum_ext. intros i _. rewrite <- (bigsum_scale_r FL). reflexivity. }
  rewrite (bigsum_swap FL). apply bigsum_ext. intros j _. rewrite <- (bigsum_scale_r FL). apply bigsum_ext. intros i _. rewrite Hs. ring.
Qed.
Lemma eq_work n K (r : nat -> A) cons u v : in_equilibrium n K r cons u -> respects cons v -> work n (mv n K u) v = work n r v.
Proof.
  intros He Hv. specialize (He v Hv).
  assert (E : work n (mv n K u) v - work n r v = 0).
  { rewrite <- He. unfold work. rewrite <- (bigsum_sub FL). apply bigsum_ext. intros i _. ring. }
  transitivity (work n (mv n K u) v - work n r v + work n r v); [ring|]. rewrite E. ring.
Qed.
Lemma pot_gap n K (r : nat -> A) cons u v : (forall i j, K i j = K j i) -> in_equilibrium n K r cons u -> respects cons u -> respects cons v ->
  potential n K r v - potential n K r u = work n (mv n K (fun i => v i - u i)) (fun i => v i - u i).
Proof.
  intros Hs He Hu Hv. unfold potential.
  pose proof (eq_work n K r cons u v He Hv) as E1. pose proof (eq_work n K r cons u u He Hu) as E2. pose proof (work_sym n K v u Hs) as E3.
  rewrite (work_mv_ext n K (fun i => v i - u i) (fun i => 1 * v i + (0 - 1) * u i) (fun i => v i - u i) (fun i => 1 * v i + (0 - 1) * u i)) by (intros; ring).
  rewrite work_lin. rewrite !(work_comm n (mv n K (fun i => 1 * v i + (0 - 1) * u i))).
  rewrite !(work_ext n _ _ (mv n K (fun i => 1 * v i + (0 - 1) * u i)) (fun i => 1 * mv n K v i + (0 - 1) * mv n K u i) (fun _ _ => eq_refl))
    by (intros; apply mv_lin).
  rewrite !work_lin, !(work_comm n v), !(work_comm n u), E3, E1, E2. ring.
Qed.
(** the square form *)
Lemma form_work n (K : nat -> nat -> A) u : bigsum n (fun i => bigsum n (fun j => u i * K i j * u j)) = work n (mv n K u) u.
Proof.
  unfold work, mv. apply bigsum_ext. intros i _. rewrite <- (bigsum_scale_r FL). apply bigsum_ext. intros j _. ring.
Qed.
Definition fine (a : elas A) : Prop := (forall e, e ∈ ea_elems a -> ccw e /\ thick e) /\ admissible (ea_cond a) (ea_mat a).
Lemma body_k (a : elas A) : ea_built a -> exists K, ea_calc_k a = Ret K /\ (forall i j, el K i j = el K j i) /\
  (fine a -> forall u, les 0 (work (node_count a * 2) (mv (node_count a * 2) (el K) u) u)).
Proof.
  intros Hb. pose proof (ea_built_ok a Hb) as Hok. destruct (assembled_k FL a Hok) as (K & E & _ & _ & V). exists K. split; [exact E|]. split.
  - intros i j. rewrite !V. apply (contrib_sym FL), (K_sym FL).
  - intros [H1 H2] u. destruct (assembled_nonneg OL a u Hok H1 H2) as (K' & E' & _ & P). assert (K' = K) as -> by congruence. rewrite <- form_work. exact P.
Qed.
Lemma same_k (a b : elas A) : same_body a b -> ea_calc_k a = ea_calc_k b /\ node_count a = node_count b.
Proof. intros (H1 & H2 & _). unfold ea_calc_k, node_count. rewrite H1, H2. auto. Qed.

Section sol.
Context (h : hashes A) (name : option text) (a : elas A) (oc : list (nat * point A)) (ol : list (nat * nat * point A)) (disp : list (point A)).
Context (Hc : computed h name a oc ol disp).
Lemma sol_facts : exists K r, ea_calc_k a = Ret K /\ calc_load a oc ol = Ret r /\ (forall i j, el K i j = el K j i) /\
  respects (ea_cons a) (flat_disp disp) /\ in_equilibrium (node_count a * 2) (el K) (vel r) (ea_cons a) (flat_disp disp) /\
  (forall u, respects (ea_cons a) u -> in_equilibrium (node_count a * 2) (el K) (vel r) (ea_cons a) u ->
     forall i, i < node_count a * 2 -> u i = flat_disp disp i) /\
  (fine a -> forall u, les 0 (work (node_count a * 2) (mv (node_count a * 2) (el K) u) u)).
Proof.
  destruct (computed_solution _ _ _ _ _ _ Hc) as (K & r & EK & Er & L & R & U). destruct Hc as (_ & Hb & _).
  destruct (body_k a Hb) as (K' & EK' & S & P). assert (K' = K) as -> by congruence. exists K, r. repeat (split; [assumption|]).
  split; [apply (U _ R); reflexivity|]. split; [|exact P]. intros u Hu He. now apply (U u Hu).
Qed.
End sol.

Lemma least_potential (h : hashes A) name (a : elas A) oc ol disp : computed h name a oc ol disp -> fine a ->
  exists K r, ea_calc_k a = Ret K /\ calc_load a oc ol = Ret r /\ respects (ea_cons a) (flat_disp disp) /\
    forall u, respects (ea_cons a) u ->
      les (potential (node_count a * 2) (el K) (vel r) (flat_disp disp)) (potential (node_count a * 2) (el K) (vel r) u) /\
      (held a -> (exists i, i < node_count a * 2 /\ u i <> flat_disp disp i) ->
         lts (potential (node_count a * 2) (el K) (vel r) (flat_disp disp)) (potential (node_count a * 2) (el K) (vel r) u)).
Proof.
  intros Hc Hf. destruct (sol_facts _ _ _ _ _ _ Hc) as (K & r & EK & Er & Sy & R & E & U & P). exists K, r.
  split; [exact EK|]. split; [exact Er|]. split; [exact R|]. intros u Hu. pose proof (pot_gap _ _ _ _ _ _ Sy E R Hu) as G. split.
  - apply (les_sub0 OL). rewrite G. apply P, Hf.
  - intros Hh (i & Hi & Hne). apply (lts_sub0 OL). rewrite G, work_comm. apply (Hh K EK); [now apply respects_sub|]. exists i. split; [exact Hi|].
    intros Hz. apply Hne. transitivity (u i - flat_disp disp i + flat_disp disp i); [ring|]. rewrite Hz. ring.
Qed.
Lemma work_stored (h : hashes A) name (a : elas A) oc ol disp : computed h name a oc ol disp ->
  exists K r, ea_calc_k a = Ret K /\ calc_load a oc ol = Ret r /\
    work (node_count a * 2) (mv (node_count a * 2) (el K) (flat_disp disp)) (flat_disp disp) = work (node_count a * 2) (vel r) (flat_disp disp) /\
    (fine a -> les 0 (work (node_count a * 2) (vel r) (flat_disp disp))).
Proof.
  intros Hc. destruct (sol_facts _ _ _ _ _ _ Hc) as (K & r & EK & Er & Sy & R & E & U & P). exists K, r.
  split; [exact EK|]. split; [exact Er|]. pose proof (eq_work _ _ _ _ _ _ E R) as W. split; [exact W|]. intros Hf. rewrite <- W. now apply P.
Qed.
Lemma reciprocal (h : hashes A) name (a : elas A) oc ol disp (h' : hashes A) name' (b : elas A) oc' ol' disp' : computed h name a oc ol disp -> computed h' name' b oc' ol' disp' ->
  same_body a b -> ea_cons a = ea_cons b ->
  exists r r', calc_load a oc ol = Ret r /\ calc_load b oc' ol' = Ret r' /\
    work (node_count a * 2) (vel r) (flat_disp disp') = work (node_count a * 2) (vel r') (flat_disp disp).
Proof.
  intros Hc Hc' Hs Hk. destruct (sol_facts _ _ _ _ _ _ Hc) as (K & r & EK & Er & Sy & R & E & _).
  destruct (sol_facts _ _ _ _ _ _ Hc') as (K' & r' & EK' & Er' & _ & R' & E' & _). destruct (same_k a b Hs) as [Ek En].
  assert (K' = K) as -> by congruence. rewrite <- Hk, <- En in *. exists r, r'. split; [exact Er|]. split; [exact Er'|].
  rewrite <- (eq_work _ _ _ _ _ _ E R'), <- (eq_work _ _ _ _ _ _ E' R). apply work_sym, Sy.
Qed.
Lemma superposed (h : hashes A) name (a : elas A) oc ol disp (h1 : hashes A) name1 (a1 : elas A) oc1 ol1 disp1 (h2 : hashes A) name2 (a2 : elas A) oc2 ol2 disp2 c1 c2 r r1 r2 :
  computed h name a oc ol disp -> computed h1 name1 a1 oc1 ol1 disp1 -> computed h2 name2 a2 oc2 ol2 disp2 ->
  same_body a a1 -> same_body a a2 -> ea_cons a = ea_cons a1 -> ea_cons a = ea_cons a2 ->
  calc_load a oc ol = Ret r -> calc_load a1 oc1 ol1 = Ret r1 -> calc_load a2 oc2 ol2 = Ret r2 ->
  (forall i, i < node_count a * 2 -> vel r i = c1 * vel r1 i + c2 * vel r2 i) ->
  forall i, i < node_count a * 2 -> flat_disp disp i = c1 * flat_disp disp1 i + c2 * flat_disp disp2 i.
Proof.
  intros Hc Hc1 Hc2 Hs1 Hs2 Hk1 Hk2 Lr Lr1 Lr2 Hr.
  destruct (sol_facts _ _ _ _ _ _ Hc) as (K & r' & EK & Er & Sy & R & E & U & _). assert (r' = r) as -> by congruence.
  destruct (sol_facts _ _ _ _ _ _ Hc1) as (K1 & r' & EK1 & Er1 & _ & R1 & E1 & _). assert (r' = r1) as -> by congruence.
  destruct (sol_facts _ _ _ _ _ _ Hc2) as (K2 & r' & EK2 & Er2 & _ & R2 & E2 & _). assert (r' = r2) as -> by congruence.
  destruct (same_k a a1 Hs1) as [Ek1 En1]. destruct (same_k a a2 Hs2) as [Ek2 En2].
  assert (K1 = K) as -> by congruence. assert (K2 = K) as -> by congruence. rewrite <- Hk1, <- En1 in *. rewrite <- Hk2, <- En2 in *.
  intros i Hi. symmetry. revert i Hi. apply (U (fun i => c1 * flat_disp disp1 i + c2 * flat_disp disp2 i)).
  - now apply respects_comb.
  - intros v Hv. specialize (E1 v Hv). specialize (E2 v Hv). cbv beta in E1, E2.
    transitivity (c1 * bigsum (node_count a * 2) (fun i => v i * (mv (node_count a * 2) (el K) (flat_disp disp1) i - vel r1 i)) +
                  c2 * bigsum (node_count a * 2) (fun i => v i * (mv (node_count a * 2) (el K) (flat_disp disp2) i - vel r2 i))); [|rewrite E1, E2; ring].
    rewrite <- !(bigsum_scale_l FL), <- (bigsum_add FL). apply bigsum_ext. intros i Hi. rewrite mv_lin, Hr by exact Hi. ring.
Qed.
(** more supports never make the body more compliant *)
Lemma more_supports (h : hashes A) name (a : elas A) oc ol disp (h' : hashes A) name' (b : elas A) oc' ol' disp' r : computed h name a oc ol disp -> computed h' name' b oc' ol' disp' ->
  same_body a b -> at_least_held (ea_cons a) (ea_cons b) -> calc_load a oc ol = Ret r -> calc_load b oc' ol' = Ret r -> fine a ->
  les (work (node_count a * 2) (vel r) (flat_disp disp')) (work (node_count a * 2) (vel r) (flat_disp disp)).
Proof.
  intros Hc Hc' Hs Hk Lr Lr' Hf. destruct (sol_facts _ _ _ _ _ _ Hc) as (K & r' & EK & Er & Sy & R & E & _ & P). assert (r' = r) as -> by congruence.
  destruct (sol_facts _ _ _ _ _ _ Hc') as (K' & r' & EK' & Er' & _ & R' & E' & _). assert (r' = r) as -> by congruence.
  destruct (same_k a b Hs) as [Ek En]. assert (K' = K) as -> by congruence. rewrite <- En in *.
  pose proof (pot_gap _ _ _ _ _ _ Sy E R (Hk _ R')) as G. pose proof (P Hf (fun i => flat_disp disp' i - flat_disp disp i)) as N. rewrite <- G in N.
  unfold potential in N. rewrite (eq_work _ _ _ _ _ _ E R), (eq_work _ _ _ _ _ _ E' R') in N.
  apply (les_sub0 OL). match type of N with les 0 ?x => match goal with |- les 0 ?y => replace y with x by ring; exact N end end.
Qed.
End energy.
