(** The circle property of the triangulation: what inserting a vertex leaves around it. *)
From Verif Require Export DelaunayProofs.
From Coq Require Import Ring.

Section fair.
Context {A : arith} (OL : ord_laws A) (g : geo A).
Implicit Types st : plane A.
Let FL : field_laws A := ol_field A OL.
Add Field Afield65 : (fl_field A FL).
Local Open Scope arith_scope.

Definition here st (v : vertex) : point A := xy_pt (tget st v).
(** across the edge (a, b) with [y] on its left and [x] on its right, [x] is not strictly inside the
    circle of (y, a, b), or the test degenerates *)
Definition apart st (a b y x : vertex) : Prop :=
  les (circle_det (here st x) (here st y) (here st a) (here st b)) 0 \/
  near_circle (here st y) (here st a) (here st b) (here st x) \/ near_circle (here st x) (here st b) (here st a) (here st y).
Definition walled st (a b : vertex) : bool := is_segment (t_bound st) (a, b) || is_segment (t_bound st) (b, a).
(** every inner edge at which [P] holds *)
Definition fair st (P : vertex -> vertex -> Prop) : Prop := forall a b y x, P a b -> t_tris st !! (a, b) = Some y -> t_tris st !! (b, a) = Some x ->
  walled st a b = false -> apart st a b y x.

Lemma apart_eq st a b y x : y = x \/ y = a \/ y = b \/ x = a \/ x = b \/ a = b -> apart st a b y x.
Proof.
  intros H. left. assert (Z : circle_det (here st x) (here st y) (here st a) (here st b) = 0); [|rewrite Z; apply (les_refl OL)].
  unfold circle_det, tab, det4, det3, vel, ssq. cbn [concat app lookup list_lookup nth Nat.add Nat.mul default from_option id].
  destruct H as [->|[->|[->|[->|[->| ->]]]]]; ring.
Qed.
Lemma apart_sym st a b y x : apart st a b y x -> apart st b a x y.
Proof.
  intros [H|[H|H]]; [left|right; right; exact H|right; left; exact H].
  assert (Z : circle_det (here st y) (here st x) (here st b) (here st a) = circle_det (here st x) (here st y) (here st a) (here st b)).
  { unfold circle_det, tab, det4, det3, vel, ssq. cbn [concat app lookup list_lookup nth Nat.add Nat.mul default from_option id]. ring. }
  rewrite Z. exact H.
Qed.

Lemma apart_same st st' a b y x : same_verts st st' -> apart st a b y x -> apart st' a b y x.
Proof. intros [Hb Hv] H. unfold apart, here, tget in *. rewrite Hb. exact H. Qed.
Lemma walled_same st st' a b : same_verts st st' -> walled st' a b = walled st a b.
Proof. intros [Hb Hv]. unfold walled. now rewrite Hb. Qed.

(** the edges away from [u] *)
Definition off (u : vertex) (a b : vertex) : Prop := a <> u /\ b <> u.

Lemma fair_add st u v w st' : fair st (off u) -> add_triangle g st (u, v, w) = Some st' ->
  (forall x, t_tris st !! (w, v) = Some x -> walled st v w = false -> apart st v w u x) -> fair st' (off u).
Proof.
  intros H Ha Hx. apply add_ret in Ha as (_ & _ & Hs & Ht & _). intros a b y x [Oa Ob] Hy Hz Hw.
  apply (apart_same st st' _ _ _ _ Hs). rewrite (walled_same _ _ _ _ Hs) in Hw. rewrite Ht in Hy, Hz.
  apply tris_add_lookup in Hy, Hz. cbn [fst snd] in *.
  destruct Hy as [[Ey ->]|[[Ey ->]|[[Ey ->]|[_ Hy]]]]; try (injection Ey; intros; congruence).
  - injection Ey as -> ->. destruct Hz as [[Ez ->]|[[Ez ->]|[[Ez ->]|[_ Hz]]]]; try (injection Ez; intros; subst; congruence).
    + apply apart_eq; auto.
    + now apply Hx.
  - destruct Hz as [[Ez ->]|[[Ez ->]|[[Ez ->]|[_ Hz]]]]; try (injection Ez; intros; congruence).
    + injection Ez as -> ->. apply apart_sym. apply Hx; [exact Hy|]. unfold walled in *. now rewrite orb_comm.
    + apply (H a b y x); [split; auto|auto..].
Qed.
Lemma del_sub st t st' : delete_triangle st t = Some st' -> same_verts st st' /\ forall e y, t_tris st' !! e = Some y -> t_tris st !! e = Some y.
Proof.
  unfold delete_triangle. case_bool_decide; [|discriminate]. intros [= <-]. split; [split; reflexivity|]. cbn.
  intros e y He. repeat (apply lookup_delete_Some in He as [_ He]). exact He.
Qed.
Lemma fair_del st t st' P : fair st P -> delete_triangle st t = Some st' -> fair st' P.
Proof.
  intros H Hd. apply del_sub in Hd as [Hs Hd]. intros a b y x HP Hy Hx Hw. apply (apart_same _ _ _ _ _ _ Hs).
  apply H; [exact HP|now apply Hd|now apply Hd|]. now rewrite <- (walled_same _ _ _ _ Hs).
Qed.

Lemma test_here st u v w x : pl_in_circle g st (u, v, w) x false = Ret false -> apart st v w u x.
Proof.
  unfold pl_in_circle. cbn [fst snd]. change (xy_pt (tget st ?z)) with (here st z). intros E.
  destruct (in_circle_ret OL (here st x) (here st u) (here st v) (here st w)) as [H|[H1 H2]]; try (unfold planar_pt; cbn; lia).
  - left. fold (here st u) (here st v) (here st w) (here st x) in E. rewrite E in H. injection H as H. symmetry in H. exact H.
  - right. left. exact H2.
Qed.

Lemma dig_fair : forall fuel u v w st st', fair st (off u) -> dig g fuel u v w st = Ret st' -> same_verts st st' /\ fair st' (off u).
Proof.
  induction fuel as [|fuel IH]; intros u v w st st' H E; [discriminate|]. cbn [dig] in E.
  assert (Hadd : (forall x, t_tris st !! (w, v) = Some x -> walled st v w = false -> apart st v w u x) -> unwrap (add_triangle g st (u, v, w)) = Ret st' ->
    same_verts st st' /\ fair st' (off u)).
  { intros Hx Ha. apply unwrap_inv in Ha. split; [apply add_ret in Ha; tauto|]. exact (fair_add _ _ _ _ _ H Ha Hx). }
  assert (Hdeep : forall x, (s ← unwrap (delete_triangle st (w, v, x)); s ← dig g fuel u v x s; dig g fuel u x w s) = Ret st' ->
    same_verts st st' /\ fair st' (off u)).
  { intros x Ed. apply bind_ret_inv in Ed as (s1 & E1 & Ed). apply unwrap_inv in E1. apply bind_ret_inv in Ed as (s2 & E2 & Ed).
    pose proof (fair_del _ _ _ _ H E1) as H1. apply del_sub in E1 as [S1 _].
    apply IH in E2 as [S2 H2]; [|exact H1]. apply IH in Ed as [S3 H3]; [|exact H2]. split; [|exact H3].
    exact (same_trans _ _ _ S1 (same_trans _ _ _ S2 S3)). }
  destruct (is_segment (t_bound st) (w, v) || is_segment (t_bound st) (v, w)) eqn:Ew.
  { apply Hadd; [|exact E]. intros x _ Hw. unfold walled in Hw. rewrite orb_comm in Hw. congruence. }
  unfold pl_adjacent in E. destruct (t_tris st !! (w, v)) as [x|] eqn:Ex.
  2: { apply Hadd; [|exact E]. intros x Hx. discriminate. }
  destruct (is_negative (triangle_dir g st (u, v, w))); [exact (Hdeep x E)|].
  apply bind_ret_inv in E as (ins & Ei & E). destruct ins; [exact (Hdeep x E)|].
  apply Hadd; [|exact E]. intros x' [= <-] _. exact (test_here _ _ _ _ _ Ei).
Qed.
Lemma insert_fair fuel u t st st' : fair st (off u) -> insert_vertex g fuel u t st = Ret st' -> same_verts st st' /\ fair st' (off u).
Proof.
  intros H E. unfold insert_vertex in E. apply bind_ret_inv in E as (s0 & E0 & E). apply unwrap_inv in E0.
  pose proof (fair_del _ _ _ _ H E0) as H0. apply del_sub in E0 as [S0 _].
  apply bind_ret_inv in E as (s1 & E1 & E). apply bind_ret_inv in E as (s2 & E2 & E).
  apply dig_fair in E1 as [S1 H1]; [|exact H0]. apply dig_fair in E2 as [S2 H2]; [|exact H1]. apply dig_fair in E as [S3 H3]; [|exact H2].
  split; [|exact H3]. exact (same_trans _ _ _ S0 (same_trans _ _ _ S1 (same_trans _ _ _ S2 S3))).
Qed.

Lemma wall_iff st a b : walled st a b = false <-> (a, b) ∉ b_set (t_bound st) /\ (b, a) ∉ b_set (t_bound st).
Proof. unfold walled, is_segment. rewrite orb_false_iff, !bool_decide_eq_false. reflexivity. Qed.
Lemma insert_fair_plain fuel u t st st' :
  let P v : point A := xy_pt (vget (t_bound st) v) in
  let apart (T : gmap (nat * nat) nat) := forall a b y x, a <> u -> b <> u -> T !! (a, b) = Some y -> T !! (b, a) = Some x ->
    (a, b) ∉ b_set (t_bound st) -> (b, a) ∉ b_set (t_bound st) ->
    les (circle_det (P x) (P y) (P a) (P b)) s0 \/ near_circle (P y) (P a) (P b) (P x) \/ near_circle (P x) (P b) (P a) (P y) in
  insert_vertex g fuel u t st = Ret st' -> apart (t_tris st) -> t_bound st' = t_bound st /\ apart (t_tris st').
Proof.
  intros P ap E H. destruct (insert_fair fuel u t st st') as [[Hb Hv] HF]; [|exact E|].
  - intros a b y x [Oa Ob] Hy Hx Hw. apply wall_iff in Hw as [W1 W2]. exact (H a b y x Oa Ob Hy Hx W1 W2).
  - split; [exact Hb|]. intros a b y x Oa Ob Hy Hx W1 W2.
    assert (Hw : walled st' a b = false) by (apply wall_iff; rewrite Hb; auto).
    specialize (HF a b y x (conj Oa Ob) Hy Hx Hw). unfold apart, here, tget in HF. rewrite Hb in HF. exact HF.
Qed.
End fair.
