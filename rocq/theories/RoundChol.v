(** The Cholesky factorisation and solver in rounded arithmetic: backward error, success, and
    forward error. *)
From Coq Require Import Reals Lra Lia.
From Verif Require Export RoundSub.
Local Close Scope R_scope.

Section real.
Local Open Scope R_scope.

(** Cauchy-Schwarz *)
Lemma cauchy_sq n (f g : nat -> R) :
  rsum n (fun i => f i * g i) * rsum n (fun i => f i * g i) <= rsum n (fun i => f i * f i) * rsum n (fun i => g i * g i).
Proof.
  induction n as [|n IH]; [cbn; lra|]. rewrite !rsum_S.
  set (p := rsum n (fun i => f i * g i)) in *. set (ff := rsum n (fun i => f i * f i)) in *.
  set (gg := rsum n (fun i => g i * g i)) in *.
  assert (0 <= ff) by (apply rsum_nonneg; intros; apply Rle_0_sqr).
  assert (0 <= gg) by (apply rsum_nonneg; intros; apply Rle_0_sqr).
  (* 2 p x y <= ff y^2 + gg x^2 *)
  assert (K : 2 * p * (f n * g n) <= ff * (g n * g n) + gg * (f n * f n)).
  { set (x := f n). set (y := g n). set (P := ff * (y * y)). set (Q := gg * (x * x)).
    assert (HP : 0 <= P) by (apply Rmult_le_pos; [assumption|apply Rle_0_sqr]).
    assert (HQ : 0 <= Q) by (apply Rmult_le_pos; [assumption|apply Rle_0_sqr]).
    assert (S1 : (p * (x * y)) * (p * (x * y)) <= P * Q).
    { replace ((p * (x * y)) * (p * (x * y))) with ((p * p) * ((x * y) * (x * y))) by ring.
      replace (P * Q) with ((ff * gg) * ((x * y) * (x * y))) by (unfold P, Q; ring).
      apply Rmult_le_compat_r; [apply Rle_0_sqr|assumption]. }
    replace (2 * p * (x * y)) with (2 * (p * (x * y))) by ring.
    assert (S2 : 4 * (P * Q) <= (P + Q) * (P + Q)) by (pose proof (Rle_0_sqr (P - Q)) as G; unfold Rsqr in G; lra).
    destruct (Rle_or_lt (2 * (p * (x * y))) (P + Q)) as [|L]; [assumption|exfalso].
    assert ((P + Q) * (P + Q) < 2 * (p * (x * y)) * (2 * (p * (x * y)))) by (apply Rmult_le_0_lt_compat; lra).
    lra. }
  lra.
Qed.

Lemma cauchy_abs n (f g : nat -> R) :
  rsum n (fun i => Rabs (f i) * Rabs (g i)) <=
  R_sqrt.sqrt (rsum n (fun i => f i * f i)) * R_sqrt.sqrt (rsum n (fun i => g i * g i)).
Proof.
  rewrite <- sqrt_mult_alt by (apply rsum_nonneg; intros; apply Rle_0_sqr).
  assert (H0 : 0 <= rsum n (fun i => Rabs (f i) * Rabs (g i))).
  { apply rsum_nonneg. intros. apply Rmult_le_pos; apply Rabs_pos. }
  rewrite <- (sqrt_square (rsum n (fun i => Rabs (f i) * Rabs (g i)))) by assumption.
  apply sqrt_le_1_alt. pose proof (cauchy_sq n (fun i => Rabs (f i)) (fun i => Rabs (g i))) as H. cbn beta in H.
  rewrite (rsum_ext n (fun i => Rabs (f i) * Rabs (f i)) (fun i => f i * f i)) in H
    by (intros; rewrite <- Rabs_mult; apply Rabs_right, Rle_ge, Rle_0_sqr).
  rewrite (rsum_ext n (fun i => Rabs (g i) * Rabs (g i)) (fun i => g i * g i)) in H
    by (intros; rewrite <- Rabs_mult; apply Rabs_right, Rle_ge, Rle_0_sqr).
  exact H.
Qed.

Lemma rsum_1 n c : rsum n (fun _ => c) = INR n * c.
Proof. induction n as [|n IH]; [cbn; ring|]. rewrite rsum_S, IH, S_INR. ring. Qed.

(** (sum |z|)^2 <= n sum z^2 *)
Lemma sum_sq n (z : nat -> R) :
  rsum n (fun i => Rabs (z i)) * rsum n (fun i => Rabs (z i)) <= INR n * rsum n (fun i => z i * z i).
Proof.
  pose proof (cauchy_sq n (fun _ => 1) (fun i => Rabs (z i))) as H. cbn beta in H.
  rewrite (rsum_ext n (fun i => 1 * Rabs (z i)) (fun i => Rabs (z i))) in H by (intros; ring).
  rewrite (rsum_ext n (fun i => 1 * 1) (fun _ => 1)) in H by (intros; ring). rewrite rsum_1, Rmult_1_r in H.
  rewrite (rsum_ext n (fun i => Rabs (z i) * Rabs (z i)) (fun i => z i * z i)) in H
    by (intros; rewrite <- Rabs_mult; apply Rabs_right, Rle_ge, Rle_0_sqr). exact H.
Qed.

(** a form with entries at most g d_i d_j *)
Lemma form_bound n g (e : nat -> nat -> R) (d y z : nat -> R) : 0 <= g ->
  (forall i j, (i < n)%nat -> (j < n)%nat -> Rabs (e i j) <= g * (d i * d j)) -> (forall i, (i < n)%nat -> 0 <= d i) ->
  Rabs (rsum n (fun i => y i * rsum n (fun j => e i j * z j))) <=
  g * (rsum n (fun i => Rabs (d i * y i)) * rsum n (fun j => Rabs (d j * z j))).
Proof.
  intros Hg He Hd. apply Rle_trans with (1 := rsum_abs _ _).
  rewrite <- rsum_scale_r, <- rsum_scale_l. apply rsum_le. intros i Hi. rewrite Rabs_mult.
  apply Rle_trans with (Rabs (y i) * rsum n (fun j => g * d i * Rabs (d j * z j))).
  - apply Rmult_le_compat_l; [apply Rabs_pos|]. apply Rle_trans with (1 := rsum_abs _ _). apply rsum_le.
    intros j Hj. rewrite !Rabs_mult, (Rabs_right (d j)) by (apply Rle_ge; auto).
    specialize (He i j Hi Hj). pose proof (Rabs_pos (z j)).
    replace (g * d i * (d j * Rabs (z j))) with (g * (d i * d j) * Rabs (z j)) by ring.
    apply Rmult_le_compat_r; assumption.
  - rewrite rsum_scale_l, Rabs_mult, (Rabs_right (d i)) by (apply Rle_ge; auto). apply Req_le. ring.
Qed.
End real.

Section chol.
Context {u : R} {rnd : R -> R} (RN : rounding u rnd).
Let Hu := rn_u _ _ RN.
Local Open Scope R_scope.
Local Notation A := (Rnd_arith rnd).
Implicit Types (a l : lenv A).
Local Notation ent := (el (A := A) (M := lenv A)).

(** the off-diagonal equations of row [r], given the pivots above it *)
Lemma chol_off a l r c : le_wf a -> le_wf l -> le_nnz l = le_nnz a -> lev_n l = lev_n a -> (c < r < lev_n a)%nat ->
  chol_eqs a l r -> (ent l c c : R) <> 0 ->
  exists t : nat -> R, (ent a r c : R) = rsum (S c) (fun q => ent l r q * ent l c q * t q) /\
    forall q, (q <= c)%nat -> ecnt u (2 `max` c) (t q).
Proof.
  intros Wa W Hnn Hn Hc [H1 _] Hd.
  assert (Hlsc : forall i, lsc l i = lsc a i) by (intros; unfold lsc; now rewrite Hnn).
  destruct (Nat.le_gt_cases (lsc a r) c) as [Hin|Hout].
  - destruct (lsc_le a c Wa ltac:(lia)) as [Hc1 _].
    destruct (row_eq_cnt RN (lsc a r) l c (ent l r) (ent a r c) (ent l r c)) as (t & Et & Ht & Htc).
    + unfold row_from. rewrite Hlsc. lia.
    + exact Hd.
    + intros q Hq. unfold row_from in Hq. rewrite Hlsc in Hq. destruct (Nat.le_gt_cases (lsc a r) q) as [Hr|Hr].
      * rewrite (el_left l c q) by (rewrite ?Hlsc; assumption || lia). cbn [s0 Rnd_arith]. rring.
      * rewrite (el_left l r q) by (rewrite ?Hlsc; assumption || lia). cbn [s0 Rnd_arith]. rring.
    + apply H1. lia.
    + exists t. split.
      * rewrite rsum_S. rewrite Et at 1. f_equal; [apply rsum_ext; intros; rring|rring].
      * intros q Hq. destruct (decide (q = c)) as [->|]; [apply (ecnt_mono u Hu 2); [lia|assumption]|].
        apply (ecnt_mono u Hu c); [lia|]. apply Ht. lia.
  - exists (fun _ => 1). split; [|intros; apply (ecnt_1 u Hu)].
    rewrite (el_left a r c) by assumption. rewrite rsum_0; [reflexivity|]. intros q Hq.
    rewrite (el_left l r q) by (rewrite ?Hlsc; assumption || lia). cbn [s0 Rnd_arith]. rring.
Qed.

(** the value under the square root of row [r], before the last rounding; the row is right as
    soon as it is positive *)
Lemma chol_dot a l r : le_wf a -> le_wf l -> le_nnz l = le_nnz a -> lev_n l = lev_n a -> (r < lev_n a)%nat ->
  exists t : nat -> R, (forall q, (q < r)%nat -> ecnt u r (t q)) /\
    (if (lsc a r <? r)%nat then @bigsum A (r - lsc a r) (fun j => smul (ent l r (lsc a r + j)) (ent l r (lsc a r + j))) : R else 0)
    = rsum r (fun q => ent l r q * ent l r q * t q).
Proof.
  intros Wa W Hnn Hn Hr.
  assert (Hlsc : lsc l r = lsc a r) by (unfold lsc; now rewrite Hnn).
  assert (Hz : forall q, (q < lsc a r)%nat -> ent l r q = 0).
  { intros q Hq. exact (el_left l r q W ltac:(rewrite Hlsc; exact Hq)). }
  destruct (lsc_le a r Wa Hr) as [Hc1 _].
  destruct (Nat.ltb_spec (lsc a r) r) as [Hlt|Hge].
  - destruct (dot_cnt RN (r - lsc a r) (fun j => ent l r (lsc a r + j)) (fun j => ent l r (lsc a r + j))) as (t & E & Ht).
    exists (fun c => if (lsc a r <=? c)%nat then t (c - lsc a r)%nat else 1). split.
    + intros c Hc. destruct (Nat.leb_spec (lsc a r) c) as [Hs|Hs]; [|apply (ecnt_1 u Hu)].
      apply (ecnt_mono u Hu (r - lsc a r)); [lia|]. apply Ht. lia.
    + rewrite E. rewrite (rsum_window r (lsc a r) r) by (try lia; intros c Hc; try lia; rewrite Hz by assumption; ring).
      apply rsum_ext. intros j Hj. rewrite (proj2 (Nat.leb_le _ _)) by lia. do 2 f_equal. lia.
  - exists (fun _ => 1). split; [intros; apply (ecnt_1 u Hu)|]. rewrite rsum_0; [reflexivity|].
    intros q Hq. rewrite Hz by lia. ring.
Qed.

Lemma chol_diag a l r : le_wf a -> le_wf l -> le_nnz l = le_nnz a -> lev_n l = lev_n a -> (r < lev_n a)%nat ->
  chol_eqs a l r ->
  exists t : nat -> R, (forall q, (q < r)%nat -> ecnt u r (t q)) /\
    ((ent a r r : R) - rsum r (fun q => ent l r q * ent l r q * t q) <= 0 /\ (ent l r r : R) = 0 \/
     0 < (ent l r r : R) /\ ecnt u 3 (t r) /\ (ent a r r : R) = rsum (S r) (fun q => ent l r q * ent l r q * t q)).
Proof.
  intros Wa W Hnn Hn Hr [_ H2]. destruct (chol_dot a l r Wa W Hnn Hn Hr) as (t & Ht & Et).
  set (S0 := rsum r (fun q => ent l r q * ent l r q * t q)) in *.
  (* the argument of the square root *)
  set (X := (if (lsc a r <? r)%nat then _ else _ : A)) in H2.
  assert (HX : exists f, ecnt u 1 f /\ (X : R) = (ent a r r - S0) * f).
  { unfold X. destruct (lsc a r <? r)%nat.
    - exists (fac (rnd := rnd) (ent a r r - S0)). split; [apply (fac_cnt RN)|]. rewrite <- (rnd_fac RN).
      rewrite <- Et. reflexivity.
    - exists 1. split; [apply (ecnt_1 u Hu)|]. rewrite <- Et. rring. }
  destruct HX as (f & Hf & HX). clearbody X. pose proof (ecnt_pos u Hu _ _ Hf) as Hfp.
  cbn [ssqrt Rnd_arith] in H2.
  destruct (Rle_or_lt (ent a r r - S0) 0) as [Hneg|Hpos].
  - exists t. split; [exact Ht|]. left. fold S0. split; [exact Hneg|]. rewrite H2.
    rewrite sqrt_neg_0; [apply (rnd_0 RN)|]. change (@carrier A) with R in *. rewrite HX.
    pose proof (Rmult_le_compat_r f _ _ (Rlt_le _ _ Hfp) Hneg) as Q. rewrite Rmult_0_l in Q. exact Q.
  - assert (HXp : 0 < X) by (change (@carrier A) with R in *; rewrite HX; now apply Rmult_lt_0_compat).
    set (h := fac (rnd := rnd) (R_sqrt.sqrt X)). rewrite (rnd_fac RN) in H2. fold h in H2.
    pose proof (fac_cnt RN (R_sqrt.sqrt X)) as Hh. fold h in Hh. pose proof (ecnt_pos u Hu _ _ Hh) as Hhp.
    clearbody h.
    exists (fun q => if (q =? r)%nat then / (f * (h * h)) else t q).
    assert (Hsame : rsum r (fun q => ent l r q * ent l r q * (if (q =? r)%nat then / (f * (h * h)) else t q)) = S0).
    { apply rsum_ext. intros q Hq. now rewrite (proj2 (Nat.eqb_neq q r)) by lia. }
    split; [intros q Hq; rewrite (proj2 (Nat.eqb_neq q r)) by lia; auto|]. right. split; [|split].
    + rewrite H2. apply Rmult_lt_0_compat; [now apply sqrt_lt_R0|assumption].
    + rewrite Nat.eqb_refl. apply (ecnt_inv u Hu). apply (ecnt_mul u Hu 1 2); [assumption|]. now apply (ecnt_mul u Hu 1 1).
    + rewrite rsum_S, Hsame, Nat.eqb_refl, H2.
      replace (R_sqrt.sqrt X * h * (R_sqrt.sqrt X * h)) with ((R_sqrt.sqrt X * R_sqrt.sqrt X) * (h * h)) by ring.
      rewrite sqrt_def by lra. change (@carrier A) with R in *. rewrite HX. rfield. split; lra.
Qed.

(** the computed factor reproduces the matrix entry by entry *)
Lemma chol_round a l : le_wf a -> (0 < lev_n a)%nat -> cholesky_envelope a = Ret l ->
  (forall i, (i < lev_n a)%nat -> (ent l i i : R) <> 0) ->
  exists T : nat -> nat -> nat -> R,
    (forall r c q, (r < lev_n a)%nat -> (c < lev_n a)%nat -> (q < lev_n a)%nat -> ecnt u (lev_n a + 2) (T r c q)) /\
    forall r c, (r < lev_n a)%nat -> (c < lev_n a)%nat ->
      (sym_el a r c : R) = rsum (lev_n a) (fun q => ent l r q * ent l c q * T r c q).
Proof.
  intros Wa Hn0 E Hd. destruct (chol_steps a Wa Hn0) as (l' & E' & W & Hnn & Hn & Heq).
  rewrite E in E'. injection E' as <-. set (n := lev_n a) in *.
  destruct (fin_choice (fun _ _ : nat => 1) n (fun r t => forall c, (c <= r)%nat ->
     (forall q, (q <= c)%nat -> ecnt u (n + 2) (t c q)) /\
     (ent a r c : R) = rsum (S c) (fun q => ent l r q * ent l c q * t c q))) as [T HT].
  { intros r Hr. destruct (fin_choice (fun _ : nat => 1) (S r) (fun c t =>
      (forall q, (q <= c)%nat -> ecnt u (n + 2) (t q)) /\
      (ent a r c : R) = rsum (S c) (fun q => ent l r q * ent l c q * t q))) as [t Ht].
    - intros c Hc. destruct (decide (c = r)) as [->|Hne].
      + destruct (chol_diag a l r Wa W Hnn Hn Hr (Heq r Hr)) as (t & Ht & [[_ K]|(_ & K1 & K2)]); [now apply Hd in K|].
        exists t. split; [|exact K2]. intros q Hq. destruct (decide (q = r)) as [->|]; [apply (ecnt_mono u Hu 3); [lia|assumption]|].
        apply (ecnt_mono u Hu r); [lia|]. apply Ht. lia.
      + destruct (chol_off a l r c Wa W Hnn Hn ltac:(lia) (Heq r Hr)) as (t & Et & Ht); [apply Hd; lia|].
        exists t. split; [|exact Et]. intros q Hq. apply (ecnt_mono u Hu (2 `max` c)); [lia|]. now apply Ht.
    - exists t. intros c Hc. apply Ht. lia. }
  (* symmetric extension, with factor 1 where the term vanishes *)
  exists (fun r c q => if (q <=? r `min` c)%nat then T (r `max` c) (r `min` c) q else 1). split.
  - intros r c q Hr Hc Hq. destruct (Nat.leb_spec q (r `min` c)); [|apply (ecnt_1 u Hu)]. apply (HT (r `max` c)%nat); lia.
  - assert (G : forall r c, (c <= r)%nat -> (r < n)%nat -> (ent a r c : R) =
       rsum n (fun q => ent l r q * ent l c q * (if (q <=? c)%nat then T r c q else 1))).
    { intros r c Hcr Hr. destruct (HT r Hr c Hcr) as [_ ->].
      rewrite (rsum_window n 0 (S c)) by (try lia; intros q Hq; try lia; rewrite (el_right l c q) by (assumption || lia); cbn [s0 Rnd_arith]; rring).
      rewrite Nat.sub_0_r. apply rsum_ext. intros q Hq. rewrite (proj2 (Nat.leb_le _ _)) by lia. reflexivity. }
    intros r c Hr Hc. destruct (Nat.le_gt_cases c r) as [Hcr|Hcr].
    + rewrite sym_el_lower by lia. rewrite (G r c Hcr Hr). rewrite Nat.min_r, Nat.max_l by lia. reflexivity.
    + rewrite sym_el_sym, sym_el_lower by lia. rewrite (G c r) by lia. rewrite Nat.min_l, Nat.max_r by lia.
      apply rsum_ext. intros q _. ring.
Qed.
End chol.
