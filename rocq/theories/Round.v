(** Rounded arithmetic: every operation of the scalars is the exact real operation followed by
    a rounding function of relative error at most [u] (the standard model of floating-point
    arithmetic without overflow and underflow), and the algebra of its error factors. *)
From Coq Require Import Reals Lra Lia.
From Verif Require Export InstR Sums.
Local Close Scope R_scope.

(** [rnd] has relative error at most [u] and leaves rounded numbers alone *)
Record rounding (u : R) (rnd : R -> R) : Prop := {
  rn_u : (0 <= u < 1)%R;
  rn_err : forall x, (Rabs (rnd x - x) <= u * Rabs x)%R;
  rn_idem : forall x, rnd (rnd x) = rnd x }.

(** the scalars computing with [rnd]; sign changes and comparisons are exact, as in IEEE 754 *)
Definition Rnd_arith (rnd : R -> R) : arith :=
  {| carrier := R; s0 := 0%R; s1 := 1%R; sadd := fun x y => rnd (x + y)%R; ssub := fun x y => rnd (x - y)%R;
     smul := fun x y => rnd (x * y)%R; sdiv := fun x y => rnd (x / y)%R; sneg := Ropp; sabs := Rabs;
     ssqrt := fun x => rnd (R_sqrt.sqrt x); scos := fun x => rnd (cos x); ssin := fun x => rnd (sin x);
     seqb := R_eqb; sltb := R_ltb |}.

(** the usual constant n u / (1 - n u) *)
Definition gam (u : R) (n : nat) : R := (INR n * u / (1 - INR n * u))%R.

(** real sums and products, the specification side *)
Definition rsum (n : nat) (f : nat -> R) : R := @bigsum R_arith n f.

Section rsum.
Local Open Scope R_scope.
Lemma rsum_S n f : rsum (S n) f = rsum n f + f n.
Proof. reflexivity. Qed.
Lemma rsum_ext n (f g : nat -> R) : (forall i, (i < n)%nat -> f i = g i) -> rsum n f = rsum n g.
Proof. exact (bigsum_ext (A := R_arith) f g n). Qed.
Lemma rsum_0 n (f : nat -> R) : (forall i, (i < n)%nat -> f i = 0) -> rsum n f = 0.
Proof. exact (bigsum_0 R_field_laws n f). Qed.
Lemma rsum_scale_r n k (f : nat -> R) : rsum n (fun i => f i * k) = rsum n f * k.
Proof. exact (bigsum_scale_r R_field_laws n k f). Qed.
Lemma rsum_scale_l n k (f : nat -> R) : rsum n (fun i => k * f i) = k * rsum n f.
Proof. exact (bigsum_scale_l R_field_laws n k f). Qed.
Lemma rsum_add n (f g : nat -> R) : rsum n (fun i => f i + g i) = rsum n f + rsum n g.
Proof. exact (bigsum_add R_field_laws n f g). Qed.
Lemma rsum_sub n (f g : nat -> R) : rsum n (fun i => f i - g i) = rsum n f - rsum n g.
Proof. exact (bigsum_sub R_field_laws n f g). Qed.
Lemma rsum_swap n m (f : nat -> nat -> R) : rsum n (fun i => rsum m (f i)) = rsum m (fun j => rsum n (fun i => f i j)).
Proof. exact (bigsum_swap R_field_laws n m f). Qed.
Lemma rsum_split n k (f : nat -> R) : (k <= n)%nat -> rsum n f = rsum k f + rsum (n - k) (fun i => f (k + i)%nat).
Proof. exact (bigsum_split R_field_laws n k f). Qed.
Lemma rsum_le n (f g : nat -> R) : (forall i, (i < n)%nat -> f i <= g i) -> rsum n f <= rsum n g.
Proof.
  induction n as [|n IH]; intros H; [apply Rle_refl|]. rewrite !rsum_S.
  apply Rplus_le_compat; [apply IH; intros; apply H; lia|apply H; lia].
Qed.
Lemma rsum_nonneg n (f : nat -> R) : (forall i, (i < n)%nat -> 0 <= f i) -> 0 <= rsum n f.
Proof. intros H. rewrite <- (rsum_0 n (fun _ => 0)) by reflexivity. now apply rsum_le. Qed.
Lemma rsum_abs n (f : nat -> R) : Rabs (rsum n f) <= rsum n (fun i => Rabs (f i)).
Proof.
  induction n as [|n IH]; [cbn; rewrite Rabs_R0; apply Rle_refl|]. rewrite !rsum_S.
  apply Rle_trans with (1 := Rabs_triang _ _). lra.
Qed.
(** a sum whose last and first terms vanish *)
Lemma rsum_window n lo hi (f : nat -> R) : (lo <= hi <= n)%nat ->
  (forall i, (i < lo)%nat -> f i = 0) -> (forall i, (hi <= i < n)%nat -> f i = 0) ->
  rsum n f = rsum (hi - lo) (fun i => f (lo + i)%nat).
Proof.
  intros H H1 H2. rewrite (rsum_split n hi) by lia. rewrite (rsum_0 (n - hi)) by (intros; apply H2; lia).
  rewrite (rsum_split hi lo) by lia. rewrite (rsum_0 lo) by assumption. ring.
Qed.
End rsum.

Section ecnt.
Context (u : R) (Hu : (0 <= u < 1)%R).
Local Open Scope R_scope.
Implicit Types (s t x : R).

(** a product of at most [n] factors 1 + d or 1 / (1 + d) with |d| <= u *)
Definition ecnt (n : nat) t : Prop := (1 - u) ^ n <= t <= / (1 - u) ^ n.
Definition gee (n : nat) : R := / (1 - u) ^ n - 1.

Lemma pw_pos n : 0 < (1 - u) ^ n.
Proof. apply pow_lt. lra. Qed.
Lemma pw_le1 n : (1 - u) ^ n <= 1.
Proof. induction n as [|n IH]; simpl; [lra|]. pose proof (pw_pos n). nra. Qed.
Lemma pw_anti n m : (n <= m)%nat -> (1 - u) ^ m <= (1 - u) ^ n.
Proof.
  intros H. replace m with (n + (m - n))%nat by lia. rewrite pow_add.
  pose proof (pw_pos n). pose proof (pw_le1 (m - n)). pose proof (pw_pos (m - n)). nra.
Qed.
Lemma inv_anti x y : 0 < x -> x <= y -> / y <= / x.
Proof. intros H1 H2. apply Rinv_le_contravar; assumption. Qed.

Lemma ecnt_pos n t : ecnt n t -> 0 < t.
Proof. intros [H _]. pose proof (pw_pos n). lra. Qed.
Lemma ecnt_1 n : ecnt n 1.
Proof.
  split; [apply pw_le1|]. pose proof (inv_anti _ _ (pw_pos n) (pw_le1 n)) as Q. now rewrite Rinv_1 in Q.
Qed.
Lemma ecnt_mono n m t : (n <= m)%nat -> ecnt n t -> ecnt m t.
Proof.
  intros H [H1 H2]. pose proof (pw_anti n m H). pose proof (pw_pos m). split; [lra|].
  apply Rle_trans with (1 := H2). now apply inv_anti.
Qed.
Lemma ecnt_mul n m s t : ecnt n s -> ecnt m t -> ecnt (n + m) (s * t).
Proof.
  intros Hs Ht. pose proof (ecnt_pos _ _ Hs). pose proof (ecnt_pos _ _ Ht). destruct Hs as [H1 H2], Ht as [H3 H4].
  pose proof (pw_pos n). pose proof (pw_pos m). unfold ecnt. rewrite pow_add. split.
  - apply Rmult_le_compat; lra.
  - rewrite Rinv_mult. apply Rmult_le_compat; lra.
Qed.
Lemma ecnt_inv n t : ecnt n t -> ecnt n (/ t).
Proof.
  intros Ht. pose proof (ecnt_pos _ _ Ht). destruct Ht as [H1 H2]. pose proof (pw_pos n). split.
  - rewrite <- (Rinv_inv ((1 - u) ^ n)). apply inv_anti; assumption.
  - apply inv_anti; assumption.
Qed.

Lemma gee_nonneg n : 0 <= gee n.
Proof. destruct (ecnt_1 n) as [_ H]. unfold gee. lra. Qed.
Lemma gee_mono n m : (n <= m)%nat -> gee n <= gee m.
Proof. intros H. unfold gee. pose proof (pw_anti n m H). pose proof (inv_anti _ _ (pw_pos m) H0). lra. Qed.
Lemma ecnt_gee n t : ecnt n t -> Rabs (t - 1) <= gee n.
Proof.
  intros [H1 H2]. pose proof (pw_pos n) as Hp. set (p := (1 - u) ^ n) in *. unfold gee. fold p.
  assert (Hpq : p * / p = 1) by (apply Rinv_r; lra).
  assert (0 < / p) by now apply Rinv_0_lt_compat.
  assert (2 <= p + / p). { pose proof (Rle_0_sqr (p - 1)) as Q. unfold Rsqr in Q. nra. }
  apply Rabs_le. lra.
Qed.
Lemma gee_add n m : gee n + gee m <= gee (n + m).
Proof.
  pose proof (gee_nonneg n) as Hn. pose proof (gee_nonneg m) as Hm. unfold gee in *. rewrite pow_add.
  pose proof (pw_pos n). pose proof (pw_pos m). rewrite Rinv_mult. nra.
Qed.
Lemma ecnt_diff n m s t : ecnt n s -> ecnt m t -> Rabs (s - t) <= gee (n + m).
Proof.
  intros Hs Ht. replace (s - t) with ((s - 1) + - (t - 1)) by ring.
  pose proof (Rabs_triang (s - 1) (- (t - 1))) as Q. rewrite Rabs_Ropp in Q.
  pose proof (ecnt_gee _ _ Hs). pose proof (ecnt_gee _ _ Ht). pose proof (gee_add n m). lra.
Qed.

Lemma bernoulli n : 1 - INR n * u <= (1 - u) ^ n.
Proof.
  induction n as [|n IH]; [simpl; lra|]. rewrite S_INR. simpl.
  pose proof (pw_pos n). pose proof (pos_INR n). pose proof (pw_le1 n). nra.
Qed.
Lemma inv_gam n : INR n * u < 1 -> / (1 - u) ^ n <= 1 + gam u n.
Proof.
  intros H. pose proof (bernoulli n) as B. assert (Hp : 0 < 1 - INR n * u) by lra.
  pose proof (inv_anti _ _ Hp B) as I. unfold gam.
  assert (/ (1 - INR n * u) = 1 + INR n * u / (1 - INR n * u)) as <-; [field; lra|exact I].
Qed.
Lemma gee_gam n : INR n * u < 1 -> gee n <= gam u n.
Proof. intros H. pose proof (inv_gam n H). unfold gee. lra. Qed.
End ecnt.

Section round.
Context {u : R} {rnd : R -> R} (RN : rounding u rnd).
Let Hu := rn_u _ _ RN.
Local Open Scope R_scope.
Local Notation A := (Rnd_arith rnd).

(** the error factor of one rounding *)
Definition fac (x : R) : R := if Req_EM_T x 0 then 1 else rnd x / x.
Lemma rnd_0 : rnd 0 = 0.
Proof.
  pose proof (rn_err _ _ RN 0) as H. rewrite Rabs_R0, Rmult_0_r, Rminus_0_r in H.
  pose proof (Rabs_pos (rnd 0)). destruct (Req_dec (rnd 0) 0) as [|H1]; [assumption|].
  pose proof (Rabs_no_R0 _ H1). lra.
Qed.
Lemma rnd_fac x : rnd x = x * fac x.
Proof. unfold fac. destruct (Req_EM_T x 0) as [->|Hx]; [rewrite rnd_0; ring|field; assumption]. Qed.
Lemma fac_cnt x : ecnt u 1 (fac x).
Proof.
  pose proof (rn_err _ _ RN x) as H. unfold fac. destruct (Req_EM_T x 0) as [->|Hx]; [apply (ecnt_1 u Hu)|].
  assert (Hd : Rabs (rnd x / x - 1) <= u).
  { replace (rnd x / x - 1) with ((rnd x - x) / x) by (field; assumption).
    unfold Rdiv. rewrite Rabs_mult, Rabs_inv. pose proof (Rabs_pos_lt x Hx).
    apply (Rmult_le_reg_r (Rabs x)); [assumption|]. rewrite Rmult_assoc, Rinv_l by lra. lra. }
  pose proof (Rle_abs (rnd x / x - 1)) as Q1. pose proof (Rle_abs (- (rnd x / x - 1))) as Q2. rewrite Rabs_Ropp in Q2. unfold ecnt. rewrite !pow_1. split; [lra|].
  apply Rle_trans with (1 + u); [lra|]. apply (Rmult_le_reg_l (1 - u)); [lra|].
  rewrite Rinv_r by lra. pose proof (Rle_0_sqr u) as Q. unfold Rsqr in Q. lra.
Qed.
Lemma fac_neq x : fac x <> 0.
Proof. pose proof (ecnt_pos u Hu _ _ (fac_cnt x)). lra. Qed.

(** sums of rounded terms: the first addition is exact *)
Lemma bigsum_fix n (f : nat -> A) : rnd (bigsum n f) = bigsum n f.
Proof. destruct n; cbn [bigsum]; [apply rnd_0|apply (rn_idem _ _ RN)]. Qed.

Lemma sum_cnt n (f : nat -> A) : (forall j, (j < n)%nat -> rnd (f j) = f j) ->
  exists t : nat -> R, bigsum n f = rsum n (fun j => f j * t j) /\
    forall j, (j < n)%nat -> ecnt u (n - 1) (t j).
Proof.
  induction n as [|n IH]; intros Hf; [exists (fun _ => 1); split; [reflexivity|lia]|].
  destruct IH as (t & Et & Ht); [intros; apply Hf; lia|].
  destruct (decide (n = 0%nat)) as [->|Hn0].
  - exists (fun _ => 1). split; [|intros; apply (ecnt_1 u Hu)]. unfold rsum. cbn [bigsum sadd s0 Rnd_arith R_arith].
    rewrite !Rplus_0_l, Rmult_1_r. apply Hf; lia.
  - pose proof (rnd_fac (bigsum n f + f n)) as E'. pose proof (fac_cnt (bigsum n f + f n)) as Ht'.
    set (t' := fac (bigsum n f + f n)) in *.
    exists (fun j => if (j =? n)%nat then t' else t j * t'). split.
    + rewrite rsum_S. cbn [bigsum sadd Rnd_arith]. rewrite E', Et, Nat.eqb_refl, Rmult_plus_distr_r. f_equal.
      rewrite <- rsum_scale_r. apply rsum_ext. intros j Hj.
      rewrite (proj2 (Nat.eqb_neq j n)) by lia. ring.
    + intros j Hj. destruct (Nat.eqb_spec j n) as [->|].
      * apply (ecnt_mono u Hu 1); [lia|assumption].
      * replace (S n - 1)%nat with (n - 1 + 1)%nat by lia. apply (ecnt_mul u Hu); [apply Ht; lia|assumption].
Qed.

(** inner products *)
Lemma dot_cnt n (a b : nat -> A) :
  exists t : nat -> R, bigsum n (fun j => smul (a j) (b j)) = rsum n (fun j => a j * b j * t j) /\
    forall j, (j < n)%nat -> ecnt u n (t j).
Proof.
  destruct (sum_cnt n (fun j => smul (a j) (b j))) as (t & E & Ht).
  { intros j _. apply (rn_idem _ _ RN). }
  exists (fun j => t j * fac (a j * b j)). split.
  - rewrite E. apply rsum_ext. intros j _. cbn [smul Rnd_arith]. rewrite rnd_fac. ring.
  - intros j Hj. replace n with (n - 1 + 1)%nat by lia. apply (ecnt_mul u Hu); [auto|apply fac_cnt].
Qed.
End round.
