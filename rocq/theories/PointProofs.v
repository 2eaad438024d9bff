(** Points as vectors. *)
From Coq Require Import Reals Lra Psatz.
From Verif Require Import Spatial Sums Ord InstR.
Local Close Scope R_scope.
Local Open Scope nat_scope.
Local Open Scope list_scope.

(** coordinates beyond the dimension are zero *)
Definition tidy {A : arith} (p : point A) : Prop :=
  p_n p <= 3 /\ (p_n p <= 2 -> p_z p = s0) /\ (p_n p <= 1 -> p_y p = s0) /\ (p_n p <= 0 -> p_x p = s0).

(** points made by the constructors and operations, midpoints only of equal dimensions *)
Inductive pt_built {A : arith} : point A -> Prop :=
| built_new l p : pt_new l = Ret p -> pt_built p
| built_zero n : n <= 3 -> pt_built (pt_zero n)
| built_mid p q : pt_built p -> pt_built q -> p_n p = p_n q -> pt_built (pt_mid p q)
| built_add p q r : pt_built p -> pt_built q -> pt_add p q = Ret r -> pt_built r
| built_sub p q r : pt_built p -> pt_built q -> pt_sub p q = Ret r -> pt_built r
| built_scale p k : pt_built p -> pt_built (pt_scale p k)
| built_unit p : pt_built p -> pt_built (pt_unit p)
| built_set p i v q : pt_built p -> pt_set p i v = Ret q -> pt_built q.

Section point.
Context {A : arith}.
Implicit Types p q : point A.

(** the coordinates of a point of dimension at most 3 *)
Definition coords p : list A := take (p_n p) [p_x p; p_y p; p_z p].

Lemma dim_cases n : n <= 3 -> n = 0 \/ n = 1 \/ n = 2 \/ n = 3.
Proof. lia. Qed.
Ltac dims H := apply dim_cases in H; destruct H as [-> | [-> | [-> | ->]]].

Lemma to_vec_coords p : p_n p <= 3 -> pt_to_vec p = Ret (coords p).
Proof. destruct p as [n x y z]. cbn [p_n]. intros H. dims H; reflexivity. Qed.

Lemma new_ret (l : list A) : length l <= 3 -> exists p, pt_new l = Ret p /\ p_n p = length l /\ pt_to_vec p = Ret l.
Proof. intros H. destruct l as [|x [|y [|z [|? l]]]]; cbn in H; try lia; eexists; (split; [reflexivity|]); split; reflexivity. Qed.
Lemma new_panic (l : list A) : 3 < length l -> pt_new l = Panic.
Proof. intros H. destruct l as [|x [|y [|z [|? l]]]]; cbn in H; try lia. reflexivity. Qed.

Lemma ops_coords p q k : p_n p <= 3 -> p_n p = p_n q ->
  (exists r, pt_add p q = Ret r /\ p_n r = p_n p /\ coords r = zip_with sadd (coords p) (coords q)) /\
  (exists r, pt_sub p q = Ret r /\ p_n r = p_n p /\ coords r = zip_with ssub (coords p) (coords q)) /\
  coords (pt_mid p q) = zip_with (fun x y => sdiv (sadd x y) s2) (coords p) (coords q) /\
  coords (pt_scale p k) = map (fun x => smul x k) (coords p) /\
  coords (pt_unit p) = map (fun x => sdiv x (pt_norm p)) (coords p).
Proof.
  intros Hp E. unfold pt_add, pt_sub. rewrite E, Nat.eqb_refl. cbn [negb].
  destruct p as [n x y z], q as [m x' y' z']. cbn [p_n] in *. subst m.
  split; [|split; [|split; [|split]]].
  1,2: eexists; split; [reflexivity|]; split; [reflexivity|]; dims Hp; reflexivity.
  - unfold pt_mid, coords. cbn [p_n]. rewrite Nat.min_id. dims Hp; reflexivity.
  - dims Hp; reflexivity.
  - unfold pt_unit, coords. cbn [p_n]. generalize (pt_norm (Pt n x y z)). intros nn. dims Hp; reflexivity.
Qed.
Lemma ops_panic p q : p_n p <> p_n q -> pt_add p q = Panic /\ pt_sub p q = Panic /\ pt_dist p q = Panic.
Proof. intros H. unfold pt_dist, pt_add, pt_sub. rewrite (proj2 (Nat.eqb_neq _ _) H). auto. Qed.

Lemma dot_coords p q : p_n p <= 3 -> p_n q <= 3 -> pt_dot p q = Ret (ssum (zip_with smul (coords p) (coords q))).
Proof. destruct p as [n x y z], q as [m x' y' z']. cbn [p_n]. intros H H'. dims H; dims H'; reflexivity. Qed.

Lemma set_coords p i v : p_n p <= 3 -> i < p_n p ->
  exists q, pt_set p i v = Ret q /\ p_n q = p_n p /\ coords q = <[i := v]> (coords p).
Proof.
  destruct p as [n x y z]. cbn [p_n]. intros H Hi. dims H;
  destruct i as [|[|[|i]]]; try lia; eexists; (split; [reflexivity|]); split; reflexivity.
Qed.

Context (FL : field_laws A).
Add Field Afield56 : (fl_field A FL).
Local Open Scope arith_scope.

Lemma div_0 (k : A) : 0 / k = 0.
Proof. rewrite (Fdiv_def (fl_field A FL)). ring. Qed.

Lemma built_tidy p : pt_built p -> tidy p.
Proof.
  induction 1 as [l p E|n Hn|p q _ (H1 & H2 & H3 & H4) _ (K1 & K2 & K3 & K4) E|p q r _ (H1 & H2 & H3 & H4) _ (K1 & K2 & K3 & K4) E
    |p q r _ (H1 & H2 & H3 & H4) _ (K1 & K2 & K3 & K4) E|p k _ (H1 & H2 & H3 & H4)|p _ (H1 & H2 & H3 & H4)|p i v q _ (H1 & H2 & H3 & H4) E].
  - destruct l as [|x [|y [|z [|? l]]]]; cbn in E; try discriminate; injection E as <-; unfold tidy; cbn; repeat split; intros; auto; lia.
  - unfold tidy. cbn. repeat split; auto.
  - unfold tidy, pt_mid. cbn [p_n p_x p_y p_z]. rewrite <- E, Nat.min_id. rewrite <- E in *. split; [exact H1|].
    split; [|split]; intros Hd; [rewrite H2, K2 by exact Hd|rewrite H3, K3 by exact Hd|rewrite H4, K4 by exact Hd];
      replace (0 + 0) with (0 : A) by ring; apply div_0.
  - unfold pt_add in E. destruct (Nat.eqb_spec (p_n p) (p_n q)) as [En|]; [|discriminate]. cbn [negb] in E. injection E as <-.
    unfold tidy. cbn [p_n p_x p_y p_z]. rewrite <- En in *. split; [exact H1|].
    split; [|split]; intros Hd; [rewrite H2, K2 by exact Hd|rewrite H3, K3 by exact Hd|rewrite H4, K4 by exact Hd]; ring.
  - unfold pt_sub in E. destruct (Nat.eqb_spec (p_n p) (p_n q)) as [En|]; [|discriminate]. cbn [negb] in E. injection E as <-.
    unfold tidy. cbn [p_n p_x p_y p_z]. rewrite <- En in *. split; [exact H1|].
    split; [|split]; intros Hd; [rewrite H2, K2 by exact Hd|rewrite H3, K3 by exact Hd|rewrite H4, K4 by exact Hd]; ring.
  - unfold tidy. cbn. split; [exact H1|]. split; [|split]; intros Hd; [rewrite H2 by exact Hd|rewrite H3 by exact Hd|rewrite H4 by exact Hd]; ring.
  - unfold tidy, pt_unit. cbn [p_n p_x p_y p_z]. split; [exact H1|].
    split; [|split]; intros Hd; [rewrite H2 by exact Hd|rewrite H3 by exact Hd|rewrite H4 by exact Hd]; apply div_0.
  - unfold pt_set in E. destruct (Nat.leb_spec (p_n p) i) as [Hle|Hlt]; [discriminate|].
    destruct i as [|[|[|i]]]; [| | |discriminate]; injection E as <-; unfold tidy; cbn [p_n p_x p_y p_z]; repeat split; auto; intros; try lia.
Qed.

(** the length and the distance are those of the coordinates *)
Lemma norm_coords p : tidy p -> pt_norm p = ssqrt (ssum (map ssq (coords p))).
Proof.
  destruct p as [n x y z]. unfold tidy, pt_norm, coords, ssum, ssq. cbn [p_n p_x p_y p_z]. intros (H1 & H2 & H3 & H4). f_equal.
  dims H1; cbn [take map fold_left]; [rewrite H2, H3, H4 by lia|rewrite H2, H3 by lia|rewrite H2 by lia|]; ring.
Qed.
Lemma dist_coords p q : tidy p -> tidy q -> p_n p = p_n q ->
  pt_dist p q = Ret (ssqrt (ssum (map ssq (zip_with ssub (coords p) (coords q))))).
Proof.
  intros Tp Tq E. unfold pt_dist. destruct (proj1 (proj2 (ops_coords p q 0 (proj1 Tp) E))) as (r & Er & _ & Cr).
  rewrite Er. cbn [mbind out_bind]. rewrite norm_coords, Cr; [reflexivity|].
  unfold pt_sub in Er. rewrite E, Nat.eqb_refl in Er. cbn [negb] in Er. injection Er as <-.
  destruct Tp as (H1 & H2 & H3 & H4), Tq as (K1 & K2 & K3 & K4). rewrite E in *. unfold tidy. cbn [p_n p_x p_y p_z]. split; [exact H1|].
  split; [|split]; intros Hd; [rewrite H2, K2 by exact Hd|rewrite H3, K3 by exact Hd|rewrite H4, K4 by exact Hd]; ring.
Qed.
End point.

(** ** Over the reals *)
Local Open Scope R_scope.
Lemma norm_triangle a b c d e f : R_sqrt.sqrt ((a + d) * (a + d) + (b + e) * (b + e) + (c + f) * (c + f)) <= R_sqrt.sqrt (a * a + b * b + c * c) + R_sqrt.sqrt (d * d + e * e + f * f).
Proof.
  set (U := a * a + b * b + c * c). set (V := d * d + e * e + f * f).
  assert (HU : 0 <= U) by (unfold U; pose proof (Rle_0_sqr a); pose proof (Rle_0_sqr b); pose proof (Rle_0_sqr c); unfold Rsqr in *; lra). assert (HV : 0 <= V) by (unfold V; pose proof (Rle_0_sqr d); pose proof (Rle_0_sqr e); pose proof (Rle_0_sqr f); unfold Rsqr in *; lra).
  pose proof (sqrt_pos U) as PU. pose proof (sqrt_pos V) as PV.
  pose proof (sqrt_sqrt U HU) as SU. pose proof (sqrt_sqrt V HV) as SV.
  assert (C : a * d + b * e + c * f <= R_sqrt.sqrt U * R_sqrt.sqrt V).
  { rewrite <- sqrt_mult by assumption. apply Rle_trans with (Rabs (a * d + b * e + c * f)); [apply Rle_abs|].
    rewrite <- sqrt_Rsqr_abs. apply sqrt_le_1_alt. unfold Rsqr, U, V.
    pose proof (Rle_0_sqr (a * e - b * d)) as Q1. pose proof (Rle_0_sqr (a * f - c * d)) as Q2. pose proof (Rle_0_sqr (b * f - c * e)) as Q3.
    unfold Rsqr in Q1, Q2, Q3. apply Rminus_le.
    replace (_ - _) with (- ((a * e - b * d) * (a * e - b * d)) - ((a * f - c * d) * (a * f - c * d)) - ((b * f - c * e) * (b * f - c * e))) by ring. lra. }
  rewrite <- (sqrt_square (R_sqrt.sqrt U + R_sqrt.sqrt V)) by lra. apply sqrt_le_1_alt.
  replace ((a + d) * (a + d) + (b + e) * (b + e) + (c + f) * (c + f)) with (U + V + 2 * (a * d + b * e + c * f)) by (unfold U, V; ring). nra.
Qed.
Local Close Scope R_scope.

Lemma dist_real (p q r : point R_arith) : p_n p = p_n q -> p_n q = p_n r ->
  exists dpq dqp dqr dpr : R_arith, pt_dist p q = Ret dpq /\ pt_dist q p = Ret dqp /\ pt_dist q r = Ret dqr /\ pt_dist p r = Ret dpr /\
    dpq = dqp /\ (0 <= dpq)%R /\ (dpr <= dpq + dqr)%R /\ (dpq = 0%R <-> p = q).
Proof.
  intros E1 E2. destruct p as [n x y z], q as [n' x' y' z'], r as [n'' x'' y'' z'']. cbn [p_n] in E1, E2. subst n' n''.
  unfold pt_dist, pt_sub. cbn [p_n]. rewrite Nat.eqb_refl. cbn [negb mbind out_bind]. do 4 eexists. do 4 (split; [reflexivity|]).
  unfold pt_norm, ssq. cbn. split; [f_equal; ring|]. split; [apply sqrt_pos|]. split.
  - eapply Rle_trans; [|apply norm_triangle]. right. f_equal. ring.
  - split; [|intros [= -> -> ->]; transitivity (R_sqrt.sqrt 0%R); [f_equal; ring|apply sqrt_0]].
    pose proof (Rle_0_sqr (x - x')%R) as Q1. pose proof (Rle_0_sqr (y - y')%R) as Q2. pose proof (Rle_0_sqr (z - z')%R) as Q3.
    intros H. apply sqrt_eq_0 in H; [|unfold Rsqr in *; lra].
    assert (Z1 : ((x - x')² = 0)%R) by (unfold Rsqr in *; lra). assert (Z2 : ((y - y')² = 0)%R) by (unfold Rsqr in *; lra).
    assert (Z3 : ((z - z')² = 0)%R) by (unfold Rsqr in *; lra).
    apply Rsqr_0_uniq in Z1, Z2, Z3. f_equal; lra.
Qed.

Lemma unit_real (p : point R_arith) : pt_norm p <> 0%R -> pt_norm (pt_unit p) = 1%R.
Proof.
  destruct p as [n x y z]. unfold pt_unit. intros H. set (k := pt_norm (Pt n x y z)) in *.
  assert (K : (k * k = x * x + y * y + z * z)%R). { unfold k, pt_norm, ssq. cbn. apply sqrt_sqrt. pose proof (Rle_0_sqr x); pose proof (Rle_0_sqr y); pose proof (Rle_0_sqr z); unfold Rsqr in *; lra. }
  clearbody k. unfold pt_norm, ssq. cbn. rewrite <- sqrt_1. f_equal. unfold Rdiv.
  transitivity ((x * x + y * y + z * z) * (/ k * / k))%R; [ring|]. rewrite <- K. field. exact H.
Qed.

Lemma vectors_spec {A : arith} (FL : field_laws A) (p q : point A) (k : A) : pt_built p -> pt_built q -> p_n p = p_n q ->
  exists x y, pt_to_vec p = Ret x /\ pt_to_vec q = Ret y /\
    (r ← pt_add p q; pt_to_vec r) = Ret (zip_with sadd x y) /\ (r ← pt_sub p q; pt_to_vec r) = Ret (zip_with ssub x y) /\
    pt_to_vec (pt_mid p q) = Ret (zip_with (fun x y => sdiv (sadd x y) (sadd s1 s1)) x y) /\
    pt_to_vec (pt_scale p k) = Ret (map (fun x => smul x k) x) /\
    pt_to_vec (pt_unit p) = Ret (map (fun x => sdiv x (pt_norm p)) x) /\
    pt_dot p q = Ret (ssum (zip_with smul x y)) /\ pt_norm p = ssqrt (ssum (map ssq x)) /\
    pt_dist p q = Ret (ssqrt (ssum (map ssq (zip_with ssub x y)))).
Proof.
  intros Bp Bq E. pose proof (built_tidy FL p Bp) as Tp. pose proof (built_tidy FL q Bq) as Tq.
  pose proof (proj1 Tp) as Dp. pose proof (proj1 Tq) as Dq.
  destruct (ops_coords p q k Dp E) as ((r & Er & Nr & Cr) & (s & Es & Ns & Cs) & Cm & Ck & Cu).
  exists (coords p), (coords q). rewrite Er, Es. cbn [mbind out_bind].
  rewrite !to_vec_coords; cbn [p_n pt_mid pt_scale pt_unit]; try assumption; try lia.
  rewrite Cr, Cs, Cm, Ck, Cu. do 4 (split; [reflexivity|]). split; [reflexivity|]. do 2 (split; [reflexivity|]).
  split; [now apply dot_coords|]. split; [exact (norm_coords FL p Tp)|]. exact (dist_coords FL p q Tp Tq E).
Qed.
