(** The mean stress of a body is fixed by the forces on it (C138). *)
From Coq Require Import Ascii String.
From Verif Require Export BalanceProofs ReactProofs.
From Verif Require Import CliProofs CliMesh CliStudy.
From Verif Require Import Cli.
Local Close Scope string_scope.
Local Open Scope nat_scope.
Local Open Scope list_scope.

(** *** spec *)
Section spec.
Context {A : arith}.
Local Open Scope arith_scope.
(** component [k] of the forces [f] at the nodes, weighted by a coordinate *)
Definition lever (nodes : list (point A)) (co : point A -> A) (k : nat) (f : nat -> A) : A :=
  bigsum (length nodes) (fun n => match nodes !! n with Some p => co p * f (n * 2 + k)%nat | None => 0 end).
(** a stress component summed over the volume *)
Definition over_body (a : elas A) (s : element A -> A) : A :=
  ssum (map (fun e => twice_area e / (1 + 1) * thickness_of (ea_cond a) * s e) (ea_elems a)).
End spec.

Section mean.
Context {A : arith} (OL : ord_laws A) (Trig : forall th : A, sadd (smul (scos th) (scos th)) (smul (ssin th) (ssin th)) = s1).
Let FL : field_laws A := ol_field A OL.
Add Field Afield87 : (fl_field A FL).
Local Open Scope arith_scope.
Lemma work_pairs N (f v : nat -> A) : work (N * 2) f v = bigsum N (fun n => f (n * 2 + 0)%nat * v (n * 2)%nat + f (n * 2 + 1)%nat * v (n * 2 + 1)%nat).
Proof.
  unfold work. induction N as [|N IH]; [reflexivity|]. change (S N * 2)%nat with (S (S (N * 2))). cbn [bigsum]. rewrite IH, Nat.add_0_r.
  replace (N * 2 + 1)%nat with (S (N * 2)) by lia. ring.
Qed.
Lemma flat_at (d : list (point A)) n p : d !! n = Some p -> flat_disp d (n * 2)%nat = p_x p /\ flat_disp d (n * 2 + 1)%nat = p_y p.
Proof.
  intros E. unfold flat_disp. rewrite Nat.div_mul, Nat.mod_mul by lia. replace (n * 2 + 1)%nat with (1 + n * 2)%nat by lia. rewrite Nat.div_add, Nat.mod_add by lia.
  change (1 / 2)%nat with 0%nat. change (1 mod 2)%nat with 1%nat. cbn [Nat.add]. rewrite E. split; reflexivity.
Qed.
Lemma lin_linear (a : elas A) e u w : el_of a e -> linear_on e (flat_disp (map (lin_disp u w) (ea_nodes a))) (u, w).
Proof.
  intros (_ & _ & _ & H0 & H1 & H2) n p Hn.
  assert (Hp : ea_nodes a !! n = Some p).
  { repeat (apply elem_of_cons in Hn as [Hn|Hn]; [injection Hn as -> ->; assumption|]). now apply elem_of_nil in Hn. }
  destruct (flat_at (map (lin_disp u w) (ea_nodes a)) n (lin_disp u w p)) as [-> ->]; [rewrite list_lookup_fmap, Hp; reflexivity|]. split; reflexivity.
Qed.
Lemma work_lin_disp (nodes : list (point A)) f u w : work (length nodes * 2) f (flat_disp (map (lin_disp u w) nodes)) =
  bigsum (length nodes) (fun n => match nodes !! n with Some p => f (n * 2 + 0)%nat * p_x (lin_disp u w p) + f (n * 2 + 1)%nat * p_y (lin_disp u w p) | None => 0 end).
Proof.
  rewrite work_pairs. apply bigsum_ext. intros n Hn. destruct (lookup_lt_is_Some_2 nodes n Hn) as [p Hp]. rewrite Hp.
  destruct (flat_at (map (lin_disp u w) nodes) n (lin_disp u w p)) as [-> ->]; [rewrite list_lookup_fmap, Hp|]; reflexivity.
Qed.
Lemma mean_stress (h : hashes A) name (a : elas A) oc ol disp : computed h name a oc ol disp -> TensorProofs.plane (ea_cond a) ->
  (forall e, e ∈ ea_elems a -> twice_area e <> 0) ->
  exists sg K r, ea_calc_k a = Ret K /\ calc_load a oc ol = Ret r /\
    (forall e, e ∈ ea_elems a -> e_stresses e (idx disp) = Ret (map (fun n => (n, as_stress (sg e))) (e_id_list e))) /\
    let f i := vel r i + reaction (node_count a * 2) (el K) (vel r) (flat_disp disp) i in
    over_body a (fun e => (sg e).1.1) = lever (ea_nodes a) p_x 0 f /\
    over_body a (fun e => (sg e).1.2) = lever (ea_nodes a) p_y 1 f /\
    over_body a (fun e => (sg e).2) = lever (ea_nodes a) p_y 0 f /\
    over_body a (fun e => (sg e).2) = lever (ea_nodes a) p_x 1 f.
Proof.
  intros Hc Hp Hd. pose proof (ea_built_ok a (proj1 (proj2 Hc))) as Ha.
  destruct (sol_facts OL Trig _ _ _ _ _ _ Hc) as (K & r & EK & Er & _).
  destruct Hc as (_ & _ & _ & so & _ & Ed). destruct (calc_disp_planar _ _ _ _ _ _ Ha Ed) as (q & ->).
  exists (fun e => sig_el e q), K, r. split; [exact EK|]. split; [exact Er|]. split; [intros e He; exact (el_stress OL a Ha Hp Hd e q He)|].
  cbv zeta. set (f := fun i => vel r i + reaction _ _ _ _ i).
  assert (G : forall u w, ssum (map (fun e => virtual (thickness_of (ea_cond a)) e (sig_el e q) (u, w)) (ea_elems a)) =
    bigsum (length (ea_nodes a)) (fun n => match ea_nodes a !! n with Some p => f (n * 2 + 0)%nat * p_x (lin_disp u w p) + f (n * 2 + 1)%nat * p_y (lin_disp u w p) | None => 0 end)).
  { intros u w. rewrite <- work_lin_disp.
    rewrite <- (virtual_sum OL a Ha Hp Hd K q (flat_disp (map (lin_disp u w) (ea_nodes a))) (fun _ => (u, w)) EK) by (intros e He; apply lin_linear, (proj2 Ha e He)).
    change (length (ea_nodes a)) with (node_count a). unfold work. apply bigsum_ext. intros i Hi. f_equal. unfold f, reaction.
    transitivity (mv (node_count a * 2) (el K) (flat_disp (map (disp_of q) (seq 0 (node_count a)))) i); [|ring].
    unfold mv. apply bigsum_ext. intros j Hj. now rewrite flat_disp_of by exact Hj. }
  assert (L : forall co k (g : nat -> A) (F : nat -> point A -> A), (forall n p, F n p = co p * f (n * 2 + k)%nat) ->
    bigsum (length (ea_nodes a)) (fun n => match ea_nodes a !! n with Some p => F n p | None => 0 end) = lever (ea_nodes a) co k f).
  { intros co k _ F HF. apply bigsum_ext. intros n _. destruct (ea_nodes a !! n); [apply HF|reflexivity]. }
  assert (O : forall u w (s : element A -> A), (forall e, virtual (thickness_of (ea_cond a)) e (sig_el e q) (u, w) = twice_area e / (1 + 1) * thickness_of (ea_cond a) * s e) ->
    ssum (map (fun e => virtual (thickness_of (ea_cond a)) e (sig_el e q) (u, w)) (ea_elems a)) = over_body a s).
  { intros u w s Hs. unfold over_body. f_equal. apply map_ext. exact Hs. }
  repeat split.
  - rewrite <- (O (0, 1, 0) (0, 0, 0)) by (intros e; unfold virtual; cbn [fst snd]; ring). rewrite G. apply (L p_x 0%nat f). intros n p. cbn [lin_disp pt2 p_x p_y fst snd]. ring.
  - rewrite <- (O (0, 0, 0) (0, 0, 1)) by (intros e; unfold virtual; cbn [fst snd]; ring). rewrite G. apply (L p_y 1%nat f). intros n p. cbn [lin_disp pt2 p_x p_y fst snd]. ring.
  - rewrite <- (O (0, 0, 1) (0, 0, 0)) by (intros e; unfold virtual; cbn [fst snd]; ring). rewrite G. apply (L p_y 0%nat f). intros n p. cbn [lin_disp pt2 p_x p_y fst snd]. ring.
  - rewrite <- (O (0, 0, 0) (0, 1, 0)) by (intros e; unfold virtual; cbn [fst snd]; ring). rewrite G. apply (L p_x 1%nat f). intros n p. cbn [lin_disp pt2 p_x p_y fst snd]. ring.
Qed.
End mean.
