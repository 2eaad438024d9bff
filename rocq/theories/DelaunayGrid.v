(** The circle test on coordinates of a grid: it never degenerates wrongly. *)
From Coq Require Import Reals Lra Lia ZArith.
From Verif Require Export DelaunayProofs PlaneTop InstR DivideR.
Local Close Scope R_scope.

Section grid.
Local Open Scope R_scope.

Lemma pair_move (e B1 B2 x y x' y' : R) : 0 <= B1 -> 0 <= B2 -> Rabs x <= B1 -> Rabs y' <= B2 -> Rabs (x' - x) * B2 + B1 * Rabs (y' - y) <= e ->
  Rabs (x' * y' - x * y) <= e.
Proof.
  intros H1 H2 Hx Hy He. replace (x' * y' - x * y) with ((x' - x) * y' + x * (y' - y)) by ring.
  eapply Rle_trans; [apply Rabs_triang|]. rewrite !Rabs_mult. eapply Rle_trans; [|exact He].
  apply Rplus_le_compat; [apply Rmult_le_compat_l; [apply Rabs_pos|exact Hy]|apply Rmult_le_compat_r; [apply Rabs_pos|exact Hx]].
Qed.
Lemma prod4_move (e B a b c d a' b' c' d' : R) : 0 <= B -> Rabs a <= B -> Rabs b <= B -> Rabs c <= B -> Rabs d <= B ->
  Rabs a' <= B -> Rabs b' <= B -> Rabs c' <= B -> Rabs d' <= B ->
  Rabs (a' - a) <= e -> Rabs (b' - b) <= e -> Rabs (c' - c) <= e -> Rabs (d' - d) <= e ->
  - (4 * e * (B * (B * B))) <= a' * (b' * (c' * d')) - a * (b * (c * d)) <= 4 * e * (B * (B * B)).
Proof.
  intros HB Ha Hb Hc Hd Ha' Hb' Hc' Hd' Ea Eb Ec Ed.
  assert (He : 0 <= e) by (eapply Rle_trans; [apply Rabs_pos|exact Ea]).
  assert (P : forall x y, Rabs x <= B -> Rabs y <= B -> Rabs (x * y) <= B * B).
  { intros x y Hx Hy. rewrite Rabs_mult. apply Rmult_le_compat; auto using Rabs_pos. }
  assert (HBB : 0 <= B * B) by (apply Rmult_le_pos; exact HB).
  assert (E1 : Rabs (c' * d' - c * d) <= 2 * e * B).
  { apply (pair_move _ B B); auto. nra. }
  assert (E2 : Rabs (b' * (c' * d') - b * (c * d)) <= 3 * e * (B * B)).
  { apply (pair_move _ B (B * B)); auto. nra. }
  assert (P3 : Rabs (b' * (c' * d')) <= B * (B * B)).
  { rewrite Rabs_mult. apply Rmult_le_compat; auto using Rabs_pos. }
  assert (E3 : Rabs (a' * (b' * (c' * d')) - a * (b * (c * d))) <= 4 * e * (B * (B * B))).
  { apply (pair_move _ B (B * (B * B))); auto; [apply Rmult_le_pos; auto|]. 
    assert (Rabs (a' - a) * (B * (B * B)) <= e * (B * (B * B))) by (apply Rmult_le_compat_r; [apply Rmult_le_pos; auto|exact Ea]).
    assert (B * Rabs (b' * (c' * d') - b * (c * d)) <= B * (3 * e * (B * B))) by (apply Rmult_le_compat_l; auto). lra. }
  apply Rabs_def2 in E3 || (unfold Rabs in E3; destruct Rcase_abs in E3; lra).
Qed.

Lemma det4_move (m m' : nat -> nat -> R) (e B : R) : 0 <= B ->
  (forall r k, (r < 4)%nat -> (k < 4)%nat -> Rabs (m r k) <= B) -> (forall r k, (r < 4)%nat -> (k < 4)%nat -> Rabs (m' r k) <= B) ->
  (forall r k, (r < 4)%nat -> (k < 4)%nat -> Rabs (m' r k - m r k) <= e) ->
  Rabs (det4 (A := R_arith) m' - det4 (A := R_arith) m) <= 96 * e * (B * (B * B)).
Proof.
  intros HB Hm Hm' He. set (c := 4 * e * (B * (B * B))). replace (96 * e * (B * (B * B))) with (24 * c) by (unfold c; ring).
  assert (T : forall i j k l, (i < 4)%nat -> (j < 4)%nat -> (k < 4)%nat -> (l < 4)%nat ->
    - c <= m' 0%nat i * (m' 1%nat j * (m' 2%nat k * m' 3%nat l)) - m 0%nat i * (m 1%nat j * (m 2%nat k * m 3%nat l)) <= c).
  { intros i j k l Hi Hj Hk Hl. apply prod4_move; auto with arith. }
  assert (D : forall n : nat -> nat -> R, det4 (A := R_arith) n =
    n 0%nat 0%nat * (n 1%nat 1%nat * (n 2%nat 2%nat * n 3%nat 3%nat)) - n 0%nat 0%nat * (n 1%nat 1%nat * (n 2%nat 3%nat * n 3%nat 2%nat))
    - n 0%nat 0%nat * (n 1%nat 2%nat * (n 2%nat 1%nat * n 3%nat 3%nat)) + n 0%nat 0%nat * (n 1%nat 2%nat * (n 2%nat 3%nat * n 3%nat 1%nat))
    + n 0%nat 0%nat * (n 1%nat 3%nat * (n 2%nat 1%nat * n 3%nat 2%nat)) - n 0%nat 0%nat * (n 1%nat 3%nat * (n 2%nat 2%nat * n 3%nat 1%nat))
    - n 0%nat 1%nat * (n 1%nat 0%nat * (n 2%nat 2%nat * n 3%nat 3%nat)) + n 0%nat 1%nat * (n 1%nat 0%nat * (n 2%nat 3%nat * n 3%nat 2%nat))
    + n 0%nat 1%nat * (n 1%nat 2%nat * (n 2%nat 0%nat * n 3%nat 3%nat)) - n 0%nat 1%nat * (n 1%nat 2%nat * (n 2%nat 3%nat * n 3%nat 0%nat))
    - n 0%nat 1%nat * (n 1%nat 3%nat * (n 2%nat 0%nat * n 3%nat 2%nat)) + n 0%nat 1%nat * (n 1%nat 3%nat * (n 2%nat 2%nat * n 3%nat 0%nat))
    + n 0%nat 2%nat * (n 1%nat 0%nat * (n 2%nat 1%nat * n 3%nat 3%nat)) - n 0%nat 2%nat * (n 1%nat 0%nat * (n 2%nat 3%nat * n 3%nat 1%nat))
    - n 0%nat 2%nat * (n 1%nat 1%nat * (n 2%nat 0%nat * n 3%nat 3%nat)) + n 0%nat 2%nat * (n 1%nat 1%nat * (n 2%nat 3%nat * n 3%nat 0%nat))
    + n 0%nat 2%nat * (n 1%nat 3%nat * (n 2%nat 0%nat * n 3%nat 1%nat)) - n 0%nat 2%nat * (n 1%nat 3%nat * (n 2%nat 1%nat * n 3%nat 0%nat))
    - n 0%nat 3%nat * (n 1%nat 0%nat * (n 2%nat 1%nat * n 3%nat 2%nat)) + n 0%nat 3%nat * (n 1%nat 0%nat * (n 2%nat 2%nat * n 3%nat 1%nat))
    + n 0%nat 3%nat * (n 1%nat 1%nat * (n 2%nat 0%nat * n 3%nat 2%nat)) - n 0%nat 3%nat * (n 1%nat 1%nat * (n 2%nat 2%nat * n 3%nat 0%nat))
    - n 0%nat 3%nat * (n 1%nat 2%nat * (n 2%nat 0%nat * n 3%nat 1%nat)) + n 0%nat 3%nat * (n 1%nat 2%nat * (n 2%nat 1%nat * n 3%nat 0%nat))).
  { intros n. unfold det4, det3. cbn [ssub smul sadd R_arith carrier]. ring. }
  rewrite (D m), (D m'). clear D.
  pose proof (T 0 1 2 3 ltac:(lia) ltac:(lia) ltac:(lia) ltac:(lia))%nat. pose proof (T 0 1 3 2 ltac:(lia) ltac:(lia) ltac:(lia) ltac:(lia))%nat.
  pose proof (T 0 2 1 3 ltac:(lia) ltac:(lia) ltac:(lia) ltac:(lia))%nat. pose proof (T 0 2 3 1 ltac:(lia) ltac:(lia) ltac:(lia) ltac:(lia))%nat.
  pose proof (T 0 3 1 2 ltac:(lia) ltac:(lia) ltac:(lia) ltac:(lia))%nat. pose proof (T 0 3 2 1 ltac:(lia) ltac:(lia) ltac:(lia) ltac:(lia))%nat.
  pose proof (T 1 0 2 3 ltac:(lia) ltac:(lia) ltac:(lia) ltac:(lia))%nat. pose proof (T 1 0 3 2 ltac:(lia) ltac:(lia) ltac:(lia) ltac:(lia))%nat.
  pose proof (T 1 2 0 3 ltac:(lia) ltac:(lia) ltac:(lia) ltac:(lia))%nat. pose proof (T 1 2 3 0 ltac:(lia) ltac:(lia) ltac:(lia) ltac:(lia))%nat.
  pose proof (T 1 3 0 2 ltac:(lia) ltac:(lia) ltac:(lia) ltac:(lia))%nat. pose proof (T 1 3 2 0 ltac:(lia) ltac:(lia) ltac:(lia) ltac:(lia))%nat.
  pose proof (T 2 0 1 3 ltac:(lia) ltac:(lia) ltac:(lia) ltac:(lia))%nat. pose proof (T 2 0 3 1 ltac:(lia) ltac:(lia) ltac:(lia) ltac:(lia))%nat.
  pose proof (T 2 1 0 3 ltac:(lia) ltac:(lia) ltac:(lia) ltac:(lia))%nat. pose proof (T 2 1 3 0 ltac:(lia) ltac:(lia) ltac:(lia) ltac:(lia))%nat.
  pose proof (T 2 3 0 1 ltac:(lia) ltac:(lia) ltac:(lia) ltac:(lia))%nat. pose proof (T 2 3 1 0 ltac:(lia) ltac:(lia) ltac:(lia) ltac:(lia))%nat.
  pose proof (T 3 0 1 2 ltac:(lia) ltac:(lia) ltac:(lia) ltac:(lia))%nat. pose proof (T 3 0 2 1 ltac:(lia) ltac:(lia) ltac:(lia) ltac:(lia))%nat.
  pose proof (T 3 1 0 2 ltac:(lia) ltac:(lia) ltac:(lia) ltac:(lia))%nat. pose proof (T 3 1 2 0 ltac:(lia) ltac:(lia) ltac:(lia) ltac:(lia))%nat.
  pose proof (T 3 2 0 1 ltac:(lia) ltac:(lia) ltac:(lia) ltac:(lia))%nat. pose proof (T 3 2 1 0 ltac:(lia) ltac:(lia) ltac:(lia) ltac:(lia))%nat.
  clear T. clearbody c. apply Rabs_le. lra.
Qed.

(** a point of the grid of width [d], within [M] of the origin *)
Definition on_grid (d M : R) (p : point R_arith) : Prop :=
  (exists i j : Z, p_x p = IZR i * d /\ p_y p = IZR j * d) /\ Rabs (p_x p) <= M /\ Rabs (p_y p) <= M.
Definition tiny : R := 1 / IZR (10 ^ 100).

Lemma tiny_small : (small_num : R_arith) = tiny.
Proof. unfold small_num, slit, tiny. rewrite !sz_R. reflexivity. Qed.
Lemma tiny_range : 0 < tiny <= 1.
Proof.
  unfold tiny. assert (H : 1 <= IZR (10 ^ 100)) by (apply (IZR_le 1); discriminate). unfold Rdiv. rewrite Rmult_1_l. split.
  - apply Rinv_0_lt_compat. lra.
  - rewrite <- Rinv_1. apply Rinv_le_contravar; lra.
Qed.

Lemma grid_det (d : R) (a b c p : point R_arith) (M : R) : on_grid d M a -> on_grid d M b -> on_grid d M c -> on_grid d M p ->
  exists z : Z, circle_det p a b c = IZR z * (d * d * d * d).
Proof.
  intros ((ai & aj & A1 & A2) & _) ((bi & bj & B1 & B2) & _) ((ci & cj & C1 & C2) & _) ((pi & pj & P1 & P2) & _).
  exists ((ai - pi) * ((bj - pj) * ((ci - pi) * (ci - pi) + (cj - pj) * (cj - pj)) - (cj - pj) * ((bi - pi) * (bi - pi) + (bj - pj) * (bj - pj)))
    - (aj - pj) * ((bi - pi) * ((ci - pi) * (ci - pi) + (cj - pj) * (cj - pj)) - (ci - pi) * ((bi - pi) * (bi - pi) + (bj - pj) * (bj - pj)))
    + ((ai - pi) * (ai - pi) + (aj - pj) * (aj - pj)) * ((bi - pi) * (cj - pj) - (bj - pj) * (ci - pi)))%Z.
  unfold circle_det, tab, det4, det3, vel, ssq. cbn [concat app lookup list_lookup nth Nat.add Nat.mul default from_option id].
  rewrite A1, A2, B1, B2, C1, C2, P1, P2. cbn [ssub smul sadd s1 R_arith carrier].
  rewrite ?plus_IZR, ?minus_IZR, ?mult_IZR, ?plus_IZR, ?minus_IZR, ?mult_IZR, ?plus_IZR, ?minus_IZR, ?mult_IZR, ?plus_IZR, ?minus_IZR, ?mult_IZR. ring.
Qed.

(** on a grid that is not absurdly fine, the degenerate answer is only given for points on the circle *)
Lemma near_grid (d M : R) (a b c p : point R_arith) : 0 < d -> 96 * tiny * (2 * (M * M) + M + 2) ^ 3 < d * d * d * d ->
  on_grid d M a -> on_grid d M b -> on_grid d M c -> on_grid d M p -> near_circle a b c p -> circle_det p a b c = 0.
Proof.
  intros Hd HM Ga Gb Gc Gp (E & HE & H0). destruct (grid_det d a b c p M Ga Gb Gc Gp) as [z Hz].
  set (B := 2 * (M * M) + M + 2) in *. pose proof tiny_range as [T0 T1].
  assert (HM0 : 0 <= M) by (destruct Ga as (_ & H & _); eapply Rle_trans; [apply Rabs_pos|exact H]).
  assert (HMM : 0 <= M * M) by (apply Rmult_le_pos; exact HM0).
  assert (HB : 0 <= B) by (unfold B; lra).
  set (m := tab 4 [[p_x a; p_y a; (ssq (p_x a) + ssq (p_y a))%A; s1]; [p_x b; p_y b; (ssq (p_x b) + ssq (p_y b))%A; s1];
              [p_x c; p_y c; (ssq (p_x c) + ssq (p_y c))%A; s1]; [p_x p; p_y p; (ssq (p_x p) + ssq (p_y p))%A; s1]] : nat -> nat -> R) in *.
  assert (HE' : forall r k, (r < 4)%nat -> (k < 4)%nat -> Rabs (E r k) <= tiny).
  { intros r k Hr Hk. specialize (HE r k Hr Hk). rewrite tiny_small in HE. apply R_ltb_iff in HE. cbn in HE. lra. }
  assert (Hq : forall q, on_grid d M q -> Rabs (p_x q) <= B - 1 /\ Rabs (p_y q) <= B - 1 /\ Rabs (ssq (p_x q) + ssq (p_y q))%A <= B - 1).
  { intros q (_ & Hx & Hy). split; [unfold B; lra|]. split; [unfold B; lra|]. cbn [sadd smul ssq R_arith carrier]. unfold ssq. cbn [smul R_arith].
    assert (S1 : forall x, Rabs x <= M -> 0 <= x * x <= M * M).
    { intros x Hxx. split; [apply Rle_0_sqr|]. rewrite <- (Rabs_pos_eq (x * x)) by apply Rle_0_sqr. rewrite Rabs_mult.
      apply Rmult_le_compat; auto using Rabs_pos. }
    pose proof (S1 _ Hx). pose proof (S1 _ Hy). rewrite Rabs_pos_eq by lra. unfold B. lra. }
  assert (Hone : Rabs 1 <= B - 1) by (rewrite Rabs_R1; unfold B; lra).
  assert (Hm : forall r k, (r < 4)%nat -> (k < 4)%nat -> Rabs (m r k) <= B - 1).
  { pose proof (Hq a Ga) as (? & ? & ?). pose proof (Hq b Gb) as (? & ? & ?). pose proof (Hq c Gc) as (? & ? & ?). pose proof (Hq p Gp) as (? & ? & ?).
    intros r k Hr Hk. do 4 (destruct r as [|r]; [do 4 (destruct k as [|k]; [assumption|]); lia|]). lia. }
  assert (Hmove : Rabs (det4 (A := R_arith) (fun r k => m r k + E r k) - det4 (A := R_arith) m) <= 96 * tiny * (B * (B * B))).
  { apply det4_move; [exact HB| | |].
    - intros r k Hr Hk. specialize (Hm r k Hr Hk). lra.
    - intros r k Hr Hk. eapply Rle_trans; [apply Rabs_triang|]. specialize (Hm r k Hr Hk). specialize (HE' r k Hr Hk). lra.
    - intros r k Hr Hk. pose proof (HE' r k Hr Hk) as H1. revert H1. cbn beta. generalize (E r k : R) (m r k : R). intros x y H1.
      now replace (y + x - y) with x by ring. }
  change (det4 (A := R_arith) (fun r k => m r k + E r k) = 0) in H0. rewrite H0 in Hmove.
  change (det4 (A := R_arith) m) with (circle_det p a b c) in Hmove. rewrite Hz in Hmove |- *.
  set (q := d * d * d * d) in *. assert (Hq0 : 0 < q) by (unfold q; repeat apply Rmult_lt_0_compat; exact Hd).
  destruct (Z.eq_dec z 0%Z) as [->|Hnz]; [cbn; ring|exfalso].
  assert (1 <= Rabs (IZR z)). { rewrite <- abs_IZR. apply (IZR_le 1). lia. }
  assert (Hlow : q <= Rabs (0 - IZR z * q)).
  { unfold Rminus. rewrite Rplus_0_l, Rabs_Ropp, Rabs_mult, (Rabs_pos_eq q) by lra. nra. }
  cbn [s0 R_arith] in Hmove. replace (B ^ 3) with (B * (B * B)) in HM by ring. lra.
Qed.

(** on such a grid the apex beats every vertex that sees the edge, without exception *)
Lemma outside_grid (g : geo R_arith) (st : plane R_arith) (e : edge) c x d M : 0 < d -> 96 * tiny * (2 * (M * M) + M + 2) ^ 3 < d * d * d * d ->
  sound_dir g st -> to_left g st e c = true -> to_left g st e x = true ->
  on_grid d M (moved g st e.1) -> on_grid d M (moved g st e.2) -> on_grid d M (moved g st c) -> on_grid d M (moved g st x) ->
  (forall w, w ∈ all_vertices st -> on_grid d M (moved g st w)) -> outside_for g st e c x ->
  les (circle_det (moved g st x) (moved g st e.1) (moved g st e.2) (moved g st c)) (s0 : R_arith).
Proof.
  intros Hd HM Hs Hc Hx G1 G2 Gc Gx Gw [H|(w & Hw & Hl & Hn & H)]; [exact H|].
  pose proof (near_grid d M _ _ _ _ Hd HM G1 G2 (Gw w Hw) Gx Hn) as Z.
  destruct e as [a b]. cbn [fst snd] in *. apply Hs in Hc, Hx, Hl.
  apply (les_mul_back R_ord_laws (cross (moved g st a) (moved g st b) (moved g st w))); [exact Hl|].
  rewrite (circle_chain R_ord_laws), Z.
  match goal with |- les (?u + ?y)%A _ => replace (u + y)%A with u by (cbn; ring) end.
  now apply (les_mul_neg R_ord_laws).
Qed.

Lemma gift_grid (g : geo R_arith) (b : bound R_arith) polys pk fuel r d M : bd_built g b polys -> pick_ok pk ->
  gift_wrap g pk fuel (pl_new b) = Ret r -> sound_dir g (pl_new b) ->
  0 < d -> 96 * tiny * (2 * (M * M) + M + 2) ^ 3 < d * d * d * d ->
  (forall v, (v < length (b_pts b))%nat -> on_grid d M (moved g (pl_new b) v)) ->
  forall p q c x, is_Some (t_full r.1 !! (p, q, c)) -> x ∈ b_verts b -> to_left g (pl_new b) (p, q) x = true -> midpoint_visible g b (p, q) x = Ret true ->
  forall (o : point R_arith) (k : R), dist2 (moved g (pl_new b) p) o = k -> dist2 (moved g (pl_new b) q) o = k -> dist2 (moved g (pl_new b) c) o = k ->
  les (A := R_arith) k (dist2 (moved g (pl_new b) x) o).
Proof.
  intros Hb Hp E Hs Hd HM Hg p q c x Ht Hx Hl Hv o k D1 D2 D3.
  destruct (bd_built_inv g b polys Hb) as (base & cs & Hi & _).
  destruct (gift_top g 0%Z 1%Z Z.add Z.mul Z.sub Z.opp Zth (fun _ _ => 0%Z) (fun _ _ _ => eq_refl) pk fuel b base cs r Hi Hp E) as (I1 & Hbb & Hvv & _).
  assert (Hsv : same_verts r.1 (pl_new b)) by (split; cbn; congruence).
  destruct (gift_best R_ord_laws g pk fuel b r Hs E) as [HB _]. pose proof (best_same g _ _ _ Hsv (HB _ Ht)) as (B1 & B2 & B3). cbn [fst snd t_bound pl_new] in *.
  assert (R0 : in_range r.1 (p, q, c)) by (destruct Ht as [rad Ht]; apply (mo_geo _ _ (pi_mesh _ _ _ I1) _ _ Ht)).
  unfold in_range, n_pts in R0. rewrite Hbb in R0. cbn [fst snd] in R0. destruct R0 as (R1 & R2 & R3).
  assert (RV : forall w, w ∈ all_vertices (pl_new b) -> (w < length (b_pts b))%nat).
  { intros w Hw. pose proof (pi_all g _ _ w (new_inv g b base cs Hi) Hw) as H. exact H. }
  assert (Hxa : x ∈ all_vertices (pl_new b)) by exact Hx.
  pose proof (outside_grid g (pl_new b) (p, q) c x d M Hd HM Hs B1 Hl (Hg _ R1) (Hg _ R2) (Hg _ R3) (Hg _ (RV _ Hxa)) (fun w Hw => Hg _ (RV w Hw)) (B3 x Hxa Hl Hv)) as H.
  destruct (outside_circle R_ord_laws g (pl_new b) (p, q) c x o k Hs B1 D1 D2 D3 (or_introl H)) as [K|(w & _ & _ & Hn & Hk)]; [exact K|].
  cbn [fst snd] in *. rewrite (circle_power R_ord_laws _ _ _ _ o k D1 D2 D3) in H. apply (les_mul_back R_ord_laws) in H; [|now apply Hs].
  unfold les in *. apply not_true_iff_false. apply not_true_iff_false in H. intros K. apply H. revert K. cbn [sltb R_arith s0 ssub]. rewrite !R_ltb_iff. cbn. lra.
Qed.

Lemma gift_grid_plain (g : geo R_arith) (b : bound R_arith) polys pk fuel r (d M : R) :
  let Q v : R * R := (fst (vget b v) + g_pert g v, snd (vget b v) + g_pert g v) in
  let left p q x := g_dir g (vget b p) (vget b q) (vget b x) = Positive in
  let sq (p q : R * R) := (fst p - fst q) * (fst p - fst q) + (snd p - snd q) * (snd p - snd q) in
  (forall p q x, left p q x -> 0 < (fst (Q q) - fst (Q p)) * (snd (Q x) - snd (Q p)) - (fst (Q x) - fst (Q p)) * (snd (Q q) - snd (Q p))) ->
  (forall v, (v < length (b_pts b))%nat -> exists i j, Q v = (IZR i * d, IZR j * d) /\ Rabs (fst (Q v)) <= M /\ Rabs (snd (Q v)) <= M) ->
  0 < d -> 96 * (1 / IZR (10 ^ 100)) * (2 * (M * M) + M + 2) ^ 3 < d * d * d * d ->
  bd_built g b polys -> pick_ok pk -> gift_wrap g pk fuel (pl_new b) = Ret r ->
  forall p q c x, is_Some (t_full r.1 !! (p, q, c)) -> x ∈ b_verts b -> left p q x -> midpoint_visible g b (p, q) x = Ret true ->
  forall (o : R * R) (k : R), sq (Q p) o = k -> sq (Q q) o = k -> sq (Q c) o = k -> k <= sq (Q x) o.
Proof.
  intros Q left sq HS HG Hd HM Hb Hp E p q c x Ht Hx Hl Hv o k D1 D2 D3.
  assert (Hs : sound_dir g (pl_new b)).
  { intros p' q' c' H. apply left_iff in H. apply HS in H. apply R_ltb_iff. exact H. }
  assert (HG' : forall v, (v < length (b_pts b))%nat -> on_grid d M (moved g (pl_new b) v)).
  { intros v Hv'. destruct (HG v Hv') as (i & j & H1 & H2 & H3). split; [|split; [exact H2|exact H3]].
    exists i, j. split; [exact (f_equal fst H1)|exact (f_equal snd H1)]. }
  pose proof (gift_grid g b polys pk fuel r d M Hb Hp E Hs Hd HM HG' p q c x Ht Hx (proj2 (left_iff g b (p, q) x) Hl) Hv (xy_pt (A := R_arith) o) k D1 D2 D3) as K.
  unfold les in K. apply not_true_iff_false in K. cbn [sltb R_arith] in K. rewrite R_ltb_iff in K. apply Rnot_lt_le in K. exact K.
Qed.
End grid.
