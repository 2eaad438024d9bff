(** The rounding error results with the constants n u / (1 - n u). *)
From Coq Require Import Reals Lra Lia.
From Flocq Require Import Core.
From Verif Require Export RoundSys FreeAsm.
Local Close Scope R_scope.

Section sums.
Local Open Scope R_scope.
Definition lsum (l : list R) : R := fold_right Rplus 0 l.
Lemma rsum_shift n (f : nat -> R) : rsum (S n) f = f 0%nat + rsum n (fun i => f (S i)).
Proof. induction n as [|n IH]; [unfold rsum; cbn; ring|]. rewrite rsum_S, IH, rsum_S. ring. Qed.
Lemma lsum_rsum l : lsum l = rsum (length l) (fun i => nth i l 0).
Proof. induction l as [|x l IH]; [reflexivity|]. cbn [lsum fold_right length]. rewrite rsum_shift. cbn [nth]. f_equal. exact IH. Qed.
End sums.

Section top.
Context {u : R} {rnd : R -> R} (RN : rounding u rnd).
Let Hu := rn_u _ _ RN.
Local Open Scope R_scope.
Local Notation A := (Rnd_arith rnd).
Local Notation ent := (el (A := A) (M := lenv A)).

Lemma ssum_nth (l : list A) : ssum l = @bigsum A (length l) (fun i => nth i l s0).
Proof.
  rewrite <- ssum_seq. f_equal. induction l as [|x l IH]; [reflexivity|]. cbn [length seq map nth]. f_equal.
  rewrite <- seq_shift, map_map. exact IH.
Qed.

(** sums of machine numbers *)
Lemma ssum_error (l : list A) : (forall v : R, v ∈ (l : list R) -> rnd v = v) -> INR (length l) * u < 1 ->
  Rabs ((ssum l : R) - lsum l) <= gam u (length l) * lsum (map Rabs (l : list R)).
Proof.
  intros Hl Hn. rewrite ssum_nth.
  destruct (sum_cnt RN (length l) (fun i => nth i l s0)) as (t & E & Ht).
  { intros j Hj. apply Hl. apply elem_of_list_In. exact (nth_In l s0 Hj). }
  change (Rabs (@bigsum A (length l) (fun i => nth i l s0) - lsum l) <= gam u (length l) * lsum (map Rabs l)).
  rewrite E, lsum_rsum, lsum_rsum, map_length, <- rsum_scale_l.
  rewrite <- rsum_sub. eapply Rle_trans; [apply rsum_abs|]. apply rsum_le. intros j Hj. cbn beta.
  replace (nth j (map Rabs l) 0) with (Rabs (nth j (l : list R) 0)) by (rewrite <- Rabs_R0 at 2; now rewrite map_nth).
  change (nth j l (s0 : A)) with (nth j (l : list R) 0).
  replace (nth j (l : list R) 0 * t j - nth j (l : list R) 0) with ((t j - 1) * nth j (l : list R) 0) by ring.
  rewrite Rabs_mult. apply Rmult_le_compat_r; [apply Rabs_pos|].
  eapply Rle_trans; [apply (ecnt_gee u Hu (length l - 1)), Ht, Hj|].
  eapply Rle_trans; [apply (gee_mono u Hu _ (length l)); lia|]. now apply (gee_gam u Hu).
Qed.

Lemma entry_error N (a t : R) : ecnt u N t -> INR N * u < 1 -> Rabs (a * t - a) <= gam u N * Rabs a.
Proof.
  intros Ht HN. replace (a * t - a) with ((t - 1) * a) by ring. rewrite Rabs_mult.
  apply Rmult_le_compat_r; [apply Rabs_pos|]. eapply Rle_trans; [apply (ecnt_gee u Hu N), Ht|]. now apply (gee_gam u Hu).
Qed.

Lemma le_solve_error (m : lenv A) (b : list A) : le_wf m -> length b = lev_n m ->
  (forall i, (i < lev_n m)%nat -> (ent m i i : R) <> 0) -> INR (lev_n m + 1) * u < 1 ->
  exists x, le_solve m b (replicate (lev_n m) s0) = Ret x /\ length x = lev_n m /\
  exists E : nat -> nat -> R,
    (forall i, (i < lev_n m)%nat -> rsum (lev_n m) (fun c => ((ent m i c : R) + E i c) * vel x c) = vel b i) /\
    forall i c, (i < lev_n m)%nat -> (c < lev_n m)%nat -> Rabs (E i c) <= gam u (lev_n m + 1) * Rabs (ent m i c).
Proof.
  intros W Hb Hd Hn. destruct (le_solve_round RN m b W Hb Hd) as (x & Ex & Hx & T & HT & HE).
  exists x. split; [exact Ex|]. split; [exact Hx|]. exists (fun i c => ent m i c * T i c - ent m i c). split.
  - intros i Hi. rewrite <- (HE i Hi). apply rsum_ext. intros c Hc. rring.
  - intros i c Hi Hc. apply entry_error; [|exact Hn]. apply (ecnt_mono u Hu (2 `max` i)); [lia|now apply HT].
Qed.

Lemma le_solve_t_error (m : lenv A) (y x0 : list A) : le_wf m -> length y = lev_n m -> length x0 = lev_n m ->
  (forall i, (i < lev_n m)%nat -> (ent m i i : R) <> 0) -> INR (lev_n m) * u < 1 ->
  exists x, le_solve_t m y x0 = Ret x /\ length x = lev_n m /\
  exists E : nat -> nat -> R,
    (forall c, (c < lev_n m)%nat -> rsum (lev_n m) (fun i => ((ent m i c : R) + E i c) * vel x i) = vel y c) /\
    forall i c, (i < lev_n m)%nat -> (c < lev_n m)%nat -> Rabs (E i c) <= gam u (lev_n m) * Rabs (ent m i c).
Proof.
  intros W Hb Hx0 Hd Hn. destruct (le_solve_t_round RN m y x0 W Hb Hx0 Hd) as (x & Ex & Hx & T & HT & HE).
  exists x. split; [exact Ex|]. split; [exact Hx|]. exists (fun i c => ent m i c * T i c - ent m i c). split.
  - intros c Hc. rewrite <- (HE c Hc). apply rsum_ext. intros i Hi. rring.
  - intros i c Hi Hc. apply entry_error; [|exact Hn]. apply (ecnt_mono u Hu (lev_n m - c)); [lia|now apply HT].
Qed.

Lemma chol_error (a l : lenv A) : le_wf a -> (0 < lev_n a)%nat -> cholesky_envelope a = Ret l ->
  (forall i, (i < lev_n a)%nat -> (ent l i i : R) <> 0) -> INR (lev_n a + 2) * u < 1 ->
  forall r c, (r < lev_n a)%nat -> (c < lev_n a)%nat ->
    Rabs (rsum (lev_n a) (fun q => (ent l r q : R) * ent l c q) - sym_el a r c) <=
    gam u (lev_n a + 2) * rsum (lev_n a) (fun q => Rabs (ent l r q) * Rabs (ent l c q)).
Proof.
  intros W Hn Ec Hd Hs r c Hr Hc. destruct (chol_round RN a l W Hn Ec Hd) as (T & HT & HE).
  rewrite (HE r c Hr Hc), <- rsum_sub, <- rsum_scale_l. eapply Rle_trans; [apply rsum_abs|]. apply rsum_le. intros q Hq. cbn beta.
  rewrite Rabs_minus_sym, <- (Rabs_mult (ent l r q)). apply entry_error; [now apply HT|exact Hs].
Qed.

Lemma gee_small N n : (N <= n)%nat -> INR n * u < 1 -> gee u N <= gam u n.
Proof. intros H1 H2. eapply Rle_trans; [apply (gee_mono u Hu N n H1)|]. now apply (gee_gam u Hu). Qed.

Lemma INR_u N n : (N <= n)%nat -> INR n * u < 1 -> INR N * u < 1.
Proof. intros H H2. eapply Rle_lt_trans; [|exact H2]. apply Rmult_le_compat_r; [apply Hu|]. now apply le_INR. Qed.

Lemma solver_error ho n ops (s : system A) lam : oracle_ok ho -> assemble n ops = Ret s -> (2 <= n)%nat -> sy_rhs s <> None ->
  (forall i j, (i < n)%nat -> (j < n)%nat -> k_at s i j = k_at s j i) -> connected n (k_at s) ->
  (forall i, (i < n)%nat -> 0 < (k_at s i i : R)) -> scaled_pd n (k_at s) lam ->
  INR (4 * n + 5) * u < 1 -> INR n * gam u (2 * n + 4) < lam ->
  exists x, cholesky_solver ho s = Ret (Ok x) /\ length x = n /\
  (exists E : nat -> nat -> R,
    (forall i, (i < n)%nat -> rsum n (fun j => ((k_at s i j : R) + E i j) * vel x j) = r_at s i) /\
    forall i j, (i < n)%nat -> (j < n)%nat ->
      Rabs (E i j) <= gam u (4 * n + 5) * (R_sqrt.sqrt (k_at s i i) * R_sqrt.sqrt (k_at s j j))) /\
  forall xs : nat -> R, (forall i, (i < n)%nat -> rsum n (fun j => (k_at s i j : R) * xs j) = r_at s i) ->
    dnorm n (k_at s) (fun i => (vel x i : R) - xs i) <= INR n * gam u (4 * n + 5) / lam * dnorm n (k_at s) (vel x).
Proof.
  intros Ho Ea H2 Hr Hsym Hcon Hpos HP Hn Hlam. destruct (assemble_wf n ops s Ea) as (W & Hp & Hdn).
  destruct (sy_rhs s) as [rv|] eqn:Er; [|congruence].
  destruct (sy_k s) as [k|] eqn:Ek.
  2:{ exfalso. pose proof (Hcon 0%nat 1%nat ltac:(lia) ltac:(lia)) as Hc. inversion Hc as [|x y z (_ & _ & _ & Hne) _].
      apply Hne. unfold k_at. now rewrite Ek. }
  assert (HK : k_at s = el k) by (unfold k_at; now rewrite Ek).
  assert (HR : r_at s = vel rv) by (unfold r_at; now rewrite Er).
  rewrite HK, HR in *.
  destruct (solver_round RN ho s k rv n lam Ho W Hdn Hp Ek Er H2 Hsym Hcon Hpos HP) as (x & Ex & Hx & E & HE & HB).
  { eapply Rle_lt_trans; [|exact Hlam]. apply Rmult_le_compat_l; [apply pos_INR|].
    apply (gee_gam u Hu), (INR_u _ (4 * n + 5)); [lia|exact Hn]. }
  assert (HB' : forall i j, (i < n)%nat -> (j < n)%nat ->
      Rabs (E i j) <= gam u (4 * n + 5) * (R_sqrt.sqrt (el (A := A) (M := dict A) k i i) * R_sqrt.sqrt (el (A := A) (M := dict A) k j j))).
  { intros i j Hi Hj. eapply Rle_trans; [now apply HB|]. apply Rmult_le_compat_r.
    - apply Rmult_le_pos; apply R_sqrt.sqrt_pos.
    - now apply (gee_gam u Hu). }
  assert (Hg : forall N, INR N * u < 1 -> 0 <= gam u N).
  { intros N HN. eapply Rle_trans; [apply (gee_nonneg u Hu N)|]. now apply (gee_gam u Hu). }
  exists x. split; [exact Ex|]. split; [exact Hx|]. split; [exists E; split; [exact HE|exact HB']|].
  intros xs Hxs. apply (forward_bound n (el (A := A) (M := dict A) k) E (vel (A := A) x) xs (vel (A := A) rv)).
  - now apply Hg.
  - eapply Rle_lt_trans; [|exact Hlam]. apply Rmult_le_pos; [apply pos_INR|]. apply Hg, (INR_u _ (4 * n + 5)); [lia|exact Hn].
  - exact Hpos.
  - exact HP.
  - exact HB'.
  - exact HE.
  - exact Hxs.
Qed.
End top.

(** whole numbers up to 2^53 are doubles *)
Lemma rnd64_int z : (Z.abs z <= 2 ^ 53)%Z -> rnd64 (IZR z) = IZR z.
Proof.
  intros Hz. apply round_generic; [apply valid_rnd_N|]. destruct (Z.eq_dec (Z.abs z) (2 ^ 53)%Z) as [E|E].
  - assert (z = 2 ^ 53 \/ z = - 2 ^ 53)%Z as [->| ->] by lia.
    + apply generic_format_FLX. exists (Float radix2 1 53); [|cbn; lia]. unfold F2R; cbn [Fnum Fexp]; rewrite <- IZR_Zpower by lia; rewrite <- mult_IZR; f_equal.
    + apply generic_format_FLX. exists (Float radix2 (-1) 53); [|cbn; lia]. unfold F2R; cbn [Fnum Fexp]; rewrite <- IZR_Zpower by lia; rewrite <- mult_IZR; f_equal.
  - apply generic_format_FLX. exists (Float radix2 z 0); [unfold F2R; cbn; ring|]. cbn. lia.
Qed.

Lemma gam64 n N : (INR n <= INR N)%R -> (INR N * u64 < 1)%R -> (gam u64 n <= gam u64 N)%R.
Proof.
  intros H HN. unfold gam. assert (Hp : (0 <= u64)%R) by apply (rn_u _ _ rounding64).
  assert (H1 : (INR n * u64 <= INR N * u64)%R) by (now apply Rmult_le_compat_r).
  assert (H0 : (0 <= INR n * u64)%R) by (apply Rmult_le_pos; [apply pos_INR|exact Hp]).
  unfold Rdiv. apply Rmult_le_compat; [exact H0| |exact H1|].
  - apply Rlt_le, Rinv_0_lt_compat. lra.
  - apply Rinv_le_contravar; lra.
Qed.

Lemma u64_val : u64 = (/ 9007199254740992)%R.
Proof. reflexivity. Qed.

Lemma gam_le n X : (INR n <= X)%R -> (X <= 10000)%R -> (0 <= gam u64 n <= X * (2 / 10 ^ 16))%R.
Proof.
  intros Hn HX. pose proof (pos_INR n) as H0. unfold gam. rewrite u64_val.
  assert (Hs : (INR n * / 9007199254740992 <= 1 / 10)%R) by lra.
  assert (Hd : (0 < / (1 - INR n * / 9007199254740992) <= 10 / 9)%R).
  { split; [apply Rinv_0_lt_compat; lra|]. replace (10 / 9)%R with (/ (9 / 10))%R by field. apply Rinv_le_contravar; lra. }
  set (d := (/ (1 - INR n * / 9007199254740992))%R) in *. unfold Rdiv. fold d.
  assert (Hp : (0 <= INR n * / 9007199254740992)%R) by lra. split; [apply Rmult_le_pos; lra|].
  apply Rle_trans with (INR n * / 9007199254740992 * (10 / 9))%R; [apply Rmult_le_compat_l; lra|]. lra.
Qed.

(** up to a thousand unknowns, scaled matrices no closer to singular than 10^-6 *)
Lemma double_small n lam : (INR n <= 1000)%R -> (/ 10 ^ 6 <= lam)%R ->
  (INR (4 * n + 5) * u64 < 1)%R /\ (INR n * gam u64 (2 * n + 4) < lam)%R /\ (gam u64 (4 * n + 5) <= / 10 ^ 12)%R /\
  (INR n * gam u64 (4 * n + 5) / lam <= / 10 ^ 3)%R.
Proof.
  intros Hn Hl. pose proof (pos_INR n) as H0.
  assert (E1 : (INR (4 * n + 5) <= 4005)%R) by (rewrite plus_INR, mult_INR; cbn [INR]; lra).
  assert (E2 : (INR (2 * n + 4) <= 2004)%R) by (rewrite plus_INR, mult_INR; cbn [INR]; lra).
  destruct (gam_le _ _ E1 ltac:(lra)) as [G0 G1]. destruct (gam_le _ _ E2 ltac:(lra)) as [G2 G3].
  split; [rewrite u64_val; lra|].
  assert (P1 : (INR n * gam u64 (2 * n + 4) <= 1000 * (2004 * (2 / 10 ^ 16)))%R) by (apply Rmult_le_compat; lra).
  assert (P2 : (INR n * gam u64 (4 * n + 5) <= 1000 * (4005 * (2 / 10 ^ 16)))%R) by (apply Rmult_le_compat; lra).
  split; [lra|]. split; [lra|].
  apply (Rmult_le_reg_r lam); [lra|]. unfold Rdiv. rewrite Rmult_assoc, Rinv_l, Rmult_1_r by lra. lra.
Qed.
