(** What the supports of a linear study answer to the load. *)
From Verif Require Export EnergyProofs.
From Verif Require Import Cli CliMesh.
Local Open Scope nat_scope.

(** *** spec *)
Section spec.
Context {A : arith}.
(** the force by which the supports must act for [u] to be an equilibrium under [r] *)
Definition reaction (n : nat) (K : nat -> nat -> A) (r u : nat -> A) (i : nat) : A := ssub (mv n K u i) (r i).
(** a support acts only in the directions it holds *)
Definition acts_along (c : constr A) (x y : A) : Prop :=
  match c with
  | Free => x = s0 /\ y = s0
  | XFixed => y = s0
  | YFixed => x = s0
  | XYFixed => True
  | AngleFixed th => smul (scos th) y = smul (ssin th) x
  end.
(** resultant of nodal forces and their moment about the origin *)
Definition force_x (N : nat) (f : nat -> A) : A := bigsum N (fun n => f (n * 2)).
Definition force_y (N : nat) (f : nat -> A) : A := bigsum N (fun n => f (n * 2 + 1)).
Definition moment (nodes : list (point A)) (f : nat -> A) : A :=
  bigsum (length nodes) (fun n => match nodes !! n with Some p => ssub (smul (p_x p) (f (n * 2 + 1))) (smul (p_y p) (f (n * 2))) | None => s0 end).
End spec.

Section react.
Context {A : arith} (OL : ord_laws A) (Trig : forall th : A, sadd (smul (scos th) (scos th)) (smul (ssin th) (ssin th)) = s1).
Let FL : field_laws A := ol_field A OL.
Add Field Afield76 : (fl_field A FL).
Local Open Scope arith_scope.

Definition at_node (n : nat) (x y : A) (i : nat) : A := if decide (i = n * 2)%nat then x else if decide (i = n * 2 + 1)%nat then y else 0.
Lemma work_at_node N n (f : nat -> A) x y : (n < N)%nat -> work (N * 2) f (at_node n x y) = f (n * 2)%nat * x + f (n * 2 + 1)%nat * y.
Proof.
  intros Hn. unfold work. rewrite (bigsum_nodes FL), (bigsum_single FL N n _ Hn).
  - unfold at_node. rewrite decide_True by reflexivity. rewrite decide_False by lia. now rewrite decide_True by reflexivity.
  - intros m _ Hm. unfold at_node. rewrite !decide_False by lia. ring.
Qed.
Lemma at_node_respects cons n (x y : A) : (forall c, cons !! n = Some c -> match c with
    | Free => True | XFixed => x = 0 | YFixed => y = 0 | XYFixed => x = 0 /\ y = 0 | AngleFixed th => scos th * x + ssin th * y = 0 end) ->
  respects cons (at_node n x y).
Proof.
  intros H m c Hc. unfold at_node. destruct (decide (m = n)) as [->|Hne].
  - specialize (H c Hc). destruct c; repeat ((rewrite decide_True by reflexivity) || (rewrite decide_False by lia)); exact H.
  - destruct c; rewrite ?decide_False by lia; try tauto. ring.
Qed.
Lemma react_work n K (r : nat -> A) cons u v : in_equilibrium n K r cons u -> respects cons v -> work n (reaction n K r u) v = 0.
Proof. intros He Hv. rewrite <- (He v Hv). unfold work, reaction. apply bigsum_ext. intros i _. ring. Qed.

Lemma react_local N K (r : nat -> A) cons u n c : in_equilibrium (N * 2) K r cons u -> (n < N)%nat -> cons !! n = Some c ->
  acts_along c (reaction (N * 2) K r u (n * 2)) (reaction (N * 2) K r u (n * 2 + 1)).
Proof.
  intros He Hn Hc.
  assert (H : forall x y, match c with
    | Free => True | XFixed => x = 0 | YFixed => y = 0 | XYFixed => x = 0 /\ y = 0 | AngleFixed th => scos th * x + ssin th * y = 0 end ->
    reaction (N * 2) K r u (n * 2) * x + reaction (N * 2) K r u (n * 2 + 1) * y = 0).
  { intros x y Hxy. rewrite <- (work_at_node N n _ x y Hn). apply (react_work _ _ _ cons); [exact He|]. apply at_node_respects.
    intros c' Hc'. assert (c' = c) as -> by congruence. exact Hxy. }
  generalize dependent (reaction (N * 2) K r u (n * 2)). generalize dependent (reaction (N * 2) K r u (n * 2 + 1)). intros Y X H.
  assert (HX : forall z : A, z * 1 + 0 = z) by (intros; ring).
  destruct c; cbn [acts_along].
  - split; [rewrite <- (H 1 0 I)|rewrite <- (H 0 1 I)]; ring.
  - rewrite <- (H 0 1 eq_refl). ring.
  - rewrite <- (H 1 0 eq_refl). ring.
  - exact I.
  - assert (E : X * (0 - ssin theta) + Y * scos theta = 0) by (apply H; ring).
    transitivity (X * (0 - ssin theta) + Y * scos theta + ssin theta * X); [ring|]. rewrite E. ring.
Qed.

Lemma rigid_force (a : elas A) K t i : ea_ok a -> ea_calc_k a = Ret K -> rigid_for (ea_cond a) t ->
  mv (node_count a * 2) (el K) (motion (ea_nodes a) (rigid t)) i = 0.
Proof.
  intros Hok EK Ht. unfold mv. destruct (motion_force FL a (rigid t) i Hok) as (K' & EK' & _ & V).
  - intros e r s k He Hk. destruct (proj2 Hok e He) as (_ & _ & Hc & _). rewrite Hc in Hk. unfold rigid_for in Ht.
    destruct (ea_cond a); cbn [vec_len] in Hk; [exact (strain_rigid FL _ _ _ _ _ _ _ _ _ Hk)..|].
    destruct Ht as [T1 T2]. replace (strain _ _ k) with (strain (b_c (ElemProofs.xy (e_pts e).1.1) (ElemProofs.xy (e_pts e).1.2) (ElemProofs.xy (e_pts e).2) r s)
      (nodal (fun x y => (0, t.1.2)) (ElemProofs.xy (e_pts e).1.1) (ElemProofs.xy (e_pts e).1.2) (ElemProofs.xy (e_pts e).2)) k);
      [exact (strain_axial FL _ _ _ _ _ _ _ Hk)|].
    unfold strain. apply bigsum_ext. intros j Hj. f_equal. unfold nodal, rigid. cbn [fst snd]. rewrite T1, T2.
    do 6 (destruct j as [|j]; [ring|]). reflexivity.
  - assert (K' = K) as -> by congruence. exact V.
Qed.
Lemma work_0_l n (f u : nat -> A) : (forall i, (i < n)%nat -> f i = 0) -> work n f u = 0.
Proof. intros H. unfold work. apply (bigsum_0 FL). intros i Hi. rewrite H by exact Hi. ring. Qed.
Lemma react_rigid (a : elas A) K t r u : ea_ok a -> ea_calc_k a = Ret K -> (forall i j, el K i j = el K j i) -> rigid_for (ea_cond a) t ->
  work (node_count a * 2) (reaction (node_count a * 2) (el K) r u) (motion (ea_nodes a) (rigid t)) = 0 - work (node_count a * 2) r (motion (ea_nodes a) (rigid t)).
Proof.
  intros Hok EK Hs Ht. set (w := motion (ea_nodes a) (rigid t)). set (n := (node_count a * 2)%nat).
  transitivity (work n (mv n (el K) u) w - work n r w).
  - unfold work, reaction. rewrite <- (bigsum_sub FL). apply bigsum_ext. intros i _. ring.
  - rewrite (work_sym OL n (el K) u w Hs). rewrite (work_0_l n (mv n (el K) w)); [reflexivity|]. intros i _. now apply rigid_force.
Qed.

Lemma work_rigid (nodes : list (point A)) f tx ty om :
  work (length nodes * 2) f (motion nodes (rigid (tx, ty, om))) = tx * force_x (length nodes) f + ty * force_y (length nodes) f + om * moment nodes f.
Proof.
  unfold work, force_x, force_y, moment. rewrite (bigsum_nodes FL), <- !(bigsum_scale_l FL), <- !(bigsum_add FL). apply bigsum_ext. intros n Hn.
  unfold motion. rewrite Nat.div_mul by lia. replace ((n * 2 + 1) / 2)%nat with n by (rewrite Nat.div_add_l by lia; cbn; lia).
  destruct (lookup_lt_is_Some_2 nodes n Hn) as [p ->]. replace (Nat.even (n * 2)) with true by (symmetry; apply Nat.even_spec; exists n; lia).
  replace (Nat.even (n * 2 + 1)) with false; [unfold rigid; cbn [fst snd]; ring|]. symmetry. rewrite <- Nat.negb_odd. apply negb_false_iff, Nat.odd_spec. exists n; lia.
Qed.

Lemma reactions (h : hashes A) name (a : elas A) oc ol disp : computed h name a oc ol disp ->
  exists K r, ea_calc_k a = Ret K /\ calc_load a oc ol = Ret r /\
    (forall n c, ea_cons a !! n = Some c ->
       acts_along c (reaction (node_count a * 2) (el K) (vel r) (flat_disp disp) (n * 2)) (reaction (node_count a * 2) (el K) (vel r) (flat_disp disp) (n * 2 + 1))) /\
    force_y (node_count a) (reaction (node_count a * 2) (el K) (vel r) (flat_disp disp)) = 0 - force_y (node_count a) (vel r) /\
    (ea_cond a <> Axisymmetric ->
      force_x (node_count a) (reaction (node_count a * 2) (el K) (vel r) (flat_disp disp)) = 0 - force_x (node_count a) (vel r) /\
      moment (ea_nodes a) (reaction (node_count a * 2) (el K) (vel r) (flat_disp disp)) = 0 - moment (ea_nodes a) (vel r)).
Proof.
  intros Hc. destruct (sol_facts OL Trig h name a oc ol disp Hc) as (K & r & EK & Er & Hs & _ & He & _).
  destruct Hc as (_ & Hb & _). pose proof (ea_built_ok a Hb) as Hok. exists K, r. split; [exact EK|]. split; [exact Er|].
  assert (HN : length (ea_cons a) = node_count a) by (exact (proj1 Hok)).
  split.
  { intros n c Hn. apply (react_local (node_count a) (el K) (vel r) (ea_cons a)); [exact He| |exact Hn]. rewrite <- HN. now apply lookup_lt_Some in Hn. }
  set (R := reaction _ _ _ _).
  assert (W : forall tx ty om, rigid_for (ea_cond a) (tx, ty, om) ->
    tx * force_x (node_count a) R + ty * force_y (node_count a) R + om * moment (ea_nodes a) R =
    0 - (tx * force_x (node_count a) (vel r) + ty * force_y (node_count a) (vel r) + om * moment (ea_nodes a) (vel r))).
  { intros tx ty om Ht. pose proof (react_rigid a K (tx, ty, om) (vel r) (flat_disp disp) Hok EK Hs Ht) as H. unfold node_count in *. rewrite !work_rigid in H. exact H. }
  split.
  - assert (Ht : rigid_for (ea_cond a) (0, 1, 0)) by (unfold rigid_for; destruct (ea_cond a); cbn; auto).
    pose proof (W _ _ _ Ht) as H. transitivity (0 * force_x (node_count a) R + 1 * force_y (node_count a) R + 0 * moment (ea_nodes a) R); [ring|]. rewrite H. ring.
  - intros Hx. assert (Ht : forall t, rigid_for (ea_cond a) t) by (intros; unfold rigid_for; destruct (ea_cond a); cbn; auto; congruence). split.
    + pose proof (W 1 0 0 (Ht _)) as H. transitivity (1 * force_x (node_count a) R + 0 * force_y (node_count a) R + 0 * moment (ea_nodes a) R); [ring|]. rewrite H. ring.
    + pose proof (W 0 0 1 (Ht _)) as H. transitivity (0 * force_x (node_count a) R + 0 * force_y (node_count a) R + 1 * moment (ea_nodes a) R); [ring|]. rewrite H. ring.
Qed.
End react.
