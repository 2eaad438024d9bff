(** C97 - C100: rounding errors of assembly, substitution, the envelope Cholesky factorisation
    and the solver built on it.  The scalars are real numbers whose every operation is rounded
    with relative error at most [u]; [rnd64] and [u64] are those of double precision. *)
From Coq Require Import Reals Lra.
From Verif Require Import RoundTop PropFactor PropSolve InstR.
Local Close Scope R_scope.

(** double precision without overflow and underflow is such an arithmetic *)
Theorem C97_double : rounding u64 rnd64 /\ u64 = (/ 2 ^ 53)%R /\
  forall z, (Z.abs z <= 2 ^ 53)%Z -> rnd64 (IZR z) = IZR z.
Proof. split; [exact rounding64|]. split; [rewrite u64_val; f_equal; cbn; ring|exact rnd64_int]. Qed.
Print Assumptions C97_double.

(** *** C97 — assembled coefficients and loads are the sums of the contributions up to rounding. *)
Theorem C97_assembly u rnd (RN : rounding u rnd) n (ops : list (asm (Rnd_arith rnd))) :
  (forall o, o ∈ ops -> asm_ok n o) ->
  (forall o, o ∈ ops -> match o with AddK _ _ v | AddM _ _ v | AddR _ v => rnd v = v end) ->
  exists s, assemble n ops = Ret s /\ sy_dofs s = n /\
    (forall r c, let l := k_vals r c ops in (INR (length l) * u < 1)%R ->
       (Rabs ((k_at s r c : R) - lsum l) <= gam u (length l) * lsum (map Rabs (l : list R)))%R) /\
    (forall r c, let l := m_vals r c ops in (INR (length l) * u < 1)%R ->
       (Rabs ((m_at s r c : R) - lsum l) <= gam u (length l) * lsum (map Rabs (l : list R)))%R) /\
    (forall i, let l := r_vals i ops in (INR (length l) * u < 1)%R ->
       (Rabs ((r_at s i : R) - lsum l) <= gam u (length l) * lsum (map Rabs (l : list R)))%R).
Proof.
  intros Hok Hv. destruct (assemble_free n ops) as (s & E & _ & Hn & _ & Hk & Hm & Hr).
  { intros o Ho. specialize (Hv o Ho). destruct o; cbn in *; now rewrite Rplus_0_l. }
  { exact Hok. }
  exists s. split; [exact E|]. split; [exact Hn|].
  split; [|split]; intros; rewrite ?Hk, ?Hm, ?Hr; apply (ssum_error RN); try assumption; intros v Hin;
    unfold l, k_vals, m_vals, r_vals in Hin; apply elem_of_list_In, in_flat_map in Hin as (o & Ho & Hin);
    apply elem_of_list_In in Ho; specialize (Hv o Ho); destruct o; cbn in Hin; try contradiction;
    match goal with H : In _ (if ?b then _ else _) |- _ => destruct b; cbn in H; [destruct H as [<-|[]]; exact Hv|contradiction] end.
Qed.
Print Assumptions C97_assembly.

(** one contribution of 1 and two of 2^53 - 1: the last sum is rounded *)
Definition d64 (x : R) : Rnd_arith rnd64 := x.
Example C97_example : let ops := [AddK 0 0 (d64 1); AddK 0 0 (d64 9007199254740991); AddK 0 0 (d64 9007199254740991); AddK 0 1 (d64 (-3)); AddR 1 (d64 7)] in
  (forall o, o ∈ ops -> asm_ok 2 o) /\
  (forall o, o ∈ ops -> match o with AddK _ _ v | AddM _ _ v | AddR _ v => rnd64 v = v end) /\
  lsum (k_vals 0 0 ops) = 18014398509481983%R /\
  (INR (length (k_vals 0 0 ops)) * u64 < 1)%R /\
  (exists s, assemble 2 ops = Ret s /\ (Rabs ((k_at s 0 0 : R) - 18014398509481983) <= 12)%R).
Proof.
  cbv zeta. set (ops := [_; _; _; _; _]).
  assert (H1 : forall o, o ∈ ops -> asm_ok 2 o).
  { intros o Ho. repeat (apply elem_of_cons in Ho as [->|Ho]; [cbn; lia|]). now apply elem_of_nil in Ho. }
  assert (H2 : forall o, o ∈ ops -> match o with AddK _ _ v | AddM _ _ v | AddR _ v => rnd64 v = v end).
  { intros o Ho. repeat (apply elem_of_cons in Ho as [->|Ho]; [apply rnd64_int; lia|]). now apply elem_of_nil in Ho. }
  split; [exact H1|]. split; [exact H2|].
  assert (L3 : k_vals 0 0 ops = [d64 1; d64 9007199254740991; d64 9007199254740991]) by reflexivity. unfold d64 in L3.
  assert (H3 : lsum (k_vals 0 0 ops) = 18014398509481983%R) by (rewrite L3; cbn [lsum fold_right]; lra). split; [exact H3|].
  assert (H4 : (INR (length (k_vals 0 0 ops)) * u64 < 1)%R) by (rewrite u64_val, L3; cbn [length INR]; lra). split; [exact H4|].
  destruct (C97_assembly _ _ rounding64 2 ops H1 H2) as (s & E & _ & Hk & _). exists s. split; [exact E|].
  eapply Rle_trans; [rewrite <- H3; exact (Hk 0 0 H4)|].
  replace (lsum (map Rabs (k_vals 0 0 ops))) with 18014398509481983%R.
  - pose proof (gam_le (length (k_vals 0 0 ops)) 3) as G. rewrite L3 in *.
    destruct (G ltac:(cbn [length INR]; lra) ltac:(lra)) as [_ G1]. lra.
  - rewrite L3. cbn [map lsum fold_right]. rewrite !Rabs_right by lra. lra.
Qed.

(** *** C98 — substitution with an envelope factor solves a system whose coefficients differ
    from the stored ones by a relative [gam u (n + 1)] at most. *)
Theorem C98_forward u rnd (RN : rounding u rnd) (m : lenv (Rnd_arith rnd)) (b : list (Rnd_arith rnd)) n :
  le_built m -> mshape m = (n, n) -> length b = n -> (forall i, i < n -> (el m i i : R) <> 0%R) -> (INR (n + 1) * u < 1)%R ->
  exists x, le_solve m b (replicate n s0) = Ret x /\ length x = n /\
  exists E : nat -> nat -> R,
    (forall i, i < n -> rsum n (fun c => (((el m i c : R) + E i c) * vel x c)%R) = vel b i) /\
    forall i c, i < n -> c < n -> (Rabs (E i c) <= gam u (n + 1) * Rabs (el m i c))%R.
Proof. intros W Hs. apply le_built_wf in W. injection Hs as <-. exact (le_solve_error RN m b W). Qed.
Print Assumptions C98_forward.
Theorem C98_backward u rnd (RN : rounding u rnd) (m : lenv (Rnd_arith rnd)) (y x0 : list (Rnd_arith rnd)) n :
  le_built m -> mshape m = (n, n) -> length y = n -> length x0 = n -> (forall i, i < n -> (el m i i : R) <> 0%R) -> (INR n * u < 1)%R ->
  exists x, le_solve_t m y x0 = Ret x /\ length x = n /\
  exists E : nat -> nat -> R,
    (forall c, c < n -> rsum n (fun i => (((el m i c : R) + E i c) * vel x i)%R) = vel y c) /\
    forall i c, i < n -> c < n -> (Rabs (E i c) <= gam u n * Rabs (el m i c))%R.
Proof. intros W Hs. apply le_built_wf in W. injection Hs as <-. exact (le_solve_t_error RN m y x0 W). Qed.
Print Assumptions C98_backward.

(** the lower triangle [[2,0],[1,2]] and a right-hand side that divides to no double *)
Definition low2 (x y z : R) : lenv (Rnd_arith rnd64) := LE 2 [d64 x; d64 y; d64 z] [1; 2] [0; 1].
Lemma low2_built x y z : le_built (low2 x y z).
Proof.
  apply (reach_other _ _ (low2 x 0 0)).
  - apply (reach_other _ _ (low2 0 0 0)).
    + apply reach_init. left. exists [1; 2]. reflexivity.
    + left. exists 0, [d64 x]. reflexivity.
  - left. exists 1, [d64 y; d64 z]. reflexivity.
Qed.
Example C98_example : le_built (low2 3 1 2) /\ mshape (low2 3 1 2) = (2, 2) /\
  (forall i, i < 2 -> (el (low2 3 1 2) i i : R) <> 0%R) /\ (INR (2 + 1) * u64 < 1)%R /\
  exists x, le_solve (low2 3 1 2) [d64 1; d64 5] [d64 0; d64 0] = Ret x /\ length x = 2.
Proof.
  assert (H3 : forall i, i < 2 -> (el (low2 3 1 2) i i : R) <> 0%R) by (intros [|[|i]] Hi; [change (3 <> 0)%R; lra|change (2 <> 0)%R; lra|lia]).
  assert (H4 : (INR (2 + 1) * u64 < 1)%R) by (rewrite u64_val; cbn; lra).
  split; [apply low2_built|]. split; [reflexivity|]. split; [exact H3|]. split; [exact H4|].
  destruct (C98_forward _ _ rounding64 (low2 3 1 2) [d64 1; d64 5] 2 (low2_built _ _ _) eq_refl eq_refl H3 H4) as (x & E & Hx & _).
  exists x. split; [exact E|exact Hx].
Qed.

(** *** C99 — the computed Cholesky factor reproduces the matrix up to rounding; matrices that
    stay positive definite by a margin are factorised. *)
Theorem C99_factor u rnd (RN : rounding u rnd) (a : lenv (Rnd_arith rnd)) n :
  le_built a -> mshape a = (n, n) -> 0 < n ->
  exists l, cholesky_envelope a = Ret l /\ mshape l = (n, n) /\ le_envelope l = le_envelope a /\
    ((forall i, i < n -> (el l i i : R) <> 0%R) -> (INR (n + 2) * u < 1)%R -> forall r c, r < n -> c < n ->
      (Rabs (rsum n (fun q => (el l r q : R) * el l c q) - sym_el a r c) <=
       gam u (n + 2) * rsum n (fun q => Rabs (el l r q) * Rabs (el l c q)))%R).
Proof.
  intros W Hs Hn. apply le_built_wf in W. injection Hs as <-.
  destruct (chol_steps a W Hn) as (l & E & Wl & Hnn & Hl & _). exists l. split; [exact E|]. split; [cbn; congruence|]. split; [exact Hnn|].
  exact (chol_error RN a l W Hn E).
Qed.
Print Assumptions C99_factor.
(** [lam] bounds the smallest eigenvalue of the matrix scaled to a unit diagonal *)
Theorem C99_succeeds u rnd (RN : rounding u rnd) (a l : lenv (Rnd_arith rnd)) n lam :
  le_built a -> mshape a = (n, n) -> 0 < n -> cholesky_envelope a = Ret l ->
  (forall i, i < n -> (0 < (el a i i : R))%R) ->
  (forall z : nat -> R, (lam * rsum n (fun i => sym_el a i i * (z i * z i)) <= rsum n (fun i => z i * rsum n (fun j => sym_el a i j * z j)))%R) ->
  (INR (2 * n + 4) * u < 1)%R -> (INR n * gam u (2 * n + 4) < lam)%R ->
  forall i, i < n -> (0 < (el l i i : R))%R.
Proof.
  intros W Hs Hn E Hpos HP Hu Hlam. apply le_built_wf in W. injection Hs as <-.
  apply (chol_success RN a l lam W Hn E).
  - intros i Hi. rewrite sym_el_lower by lia. now apply Hpos.
  - exact HP.
  - eapply Rle_lt_trans; [|exact Hlam]. apply Rmult_le_compat_l; [apply pos_INR|]. apply (gee_gam u (rn_u _ _ RN)), Hu.
Qed.
Print Assumptions C99_succeeds.

(** [[4,1],[1,3]], whose factor has irrational entries: the computed pivots are positive *)
Example C99_example : le_built (low2 4 1 3) /\ (forall i, i < 2 -> (0 < (el (low2 4 1 3) i i : R))%R) /\
  (forall z : nat -> R, (1 / 2 * rsum 2 (fun i => sym_el (low2 4 1 3) i i * (z i * z i)) <=
     rsum 2 (fun i => z i * rsum 2 (fun j => sym_el (low2 4 1 3) i j * z j)))%R) /\
  (INR (2 * 2 + 4) * u64 < 1)%R /\ (INR 2 * gam u64 (2 * 2 + 4) < 1 / 2)%R /\
  exists l, cholesky_envelope (low2 4 1 3) = Ret l /\ (0 < (el l 1 1 : R))%R.
Proof.
  assert (H1 : forall i, i < 2 -> (0 < (el (low2 4 1 3) i i : R))%R) by (intros [|[|i]] Hi; [change (0 < 4)%R; lra|change (0 < 3)%R; lra|lia]).
  assert (H2 : forall z : nat -> R, (1 / 2 * rsum 2 (fun i => sym_el (low2 4 1 3) i i * (z i * z i)) <=
     rsum 2 (fun i => z i * rsum 2 (fun j => sym_el (low2 4 1 3) i j * z j)))%R).
  { intros z. unfold rsum. cbn [bigsum sadd R_arith s0].
    change (sym_el (low2 4 1 3) 0 0) with 4%R. change (sym_el (low2 4 1 3) 0 1) with 1%R.
    change (sym_el (low2 4 1 3) 1 0) with 1%R. change (sym_el (low2 4 1 3) 1 1) with 3%R.
    pose proof (Rle_0_sqr (z 0 + z 1)) as Q1. pose proof (Rle_0_sqr (z 0)) as Q2. pose proof (Rle_0_sqr (z 1)) as Q3. unfold Rsqr in *. lra. }
  assert (H3 : (INR (2 * 2 + 4) * u64 < 1)%R) by (rewrite u64_val; cbn; lra).
  assert (H4 : (INR 2 * gam u64 (2 * 2 + 4) < 1 / 2)%R).
  { destruct (gam_le (2 * 2 + 4) 8) as [_ G]; [cbn; lra|lra|]. cbn [INR] in *. lra. }
  split; [apply low2_built|]. split; [exact H1|]. split; [exact H2|]. split; [exact H3|]. split; [exact H4|].
  destruct (C99_factor _ _ rounding64 (low2 4 1 3) 2 (low2_built _ _ _) eq_refl ltac:(lia)) as (l & E & _).
  exists l. split; [exact E|].
  exact (C99_succeeds _ _ rounding64 (low2 4 1 3) l 2 _ (low2_built _ _ _) eq_refl ltac:(lia) E H1 H2 H3 H4 1 ltac:(lia)).
Qed.

(** *** C100 — the solver, end to end, for every outcome of hash ordering: the answer solves
    exactly a system close to the assembled one, and is close to the exact solution. *)
Theorem C100_solver u rnd (RN : rounding u rnd) ho n ops (s : system (Rnd_arith rnd)) lam :
  oracle_ok ho -> assemble n ops = Ret s -> 2 <= n -> sy_rhs s <> None ->
  (forall i j, i < n -> j < n -> k_at s i j = k_at s j i) -> connected n (k_at s) ->
  (forall i, i < n -> (0 < (k_at s i i : R))%R) ->
  (forall z : nat -> R, (lam * rsum n (fun i => k_at s i i * (z i * z i)) <= rsum n (fun i => z i * rsum n (fun j => k_at s i j * z j)))%R) ->
  (INR (4 * n + 5) * u < 1)%R -> (INR n * gam u (2 * n + 4) < lam)%R ->
  exists x, cholesky_solver ho s = Ret (Ok x) /\ length x = n /\
  (exists E : nat -> nat -> R,
    (forall i, i < n -> rsum n (fun j => (((k_at s i j : R) + E i j) * vel x j)%R) = r_at s i) /\
    forall i j, i < n -> j < n ->
      (Rabs (E i j) <= gam u (4 * n + 5) * (R_sqrt.sqrt (k_at s i i) * R_sqrt.sqrt (k_at s j j)))%R) /\
  forall xs : nat -> R, (forall i, i < n -> rsum n (fun j => ((k_at s i j : R) * xs j)%R) = r_at s i) ->
    (R_sqrt.sqrt (rsum n (fun i => k_at s i i * ((vel x i - xs i) * (vel x i - xs i)))) <=
     INR n * gam u (4 * n + 5) / lam * R_sqrt.sqrt (rsum n (fun i => k_at s i i * (vel x i * vel x i))))%R.
Proof. intros. eapply (solver_error RN); eassumption. Qed.
Print Assumptions C100_solver.
(** double precision, at most a thousand unknowns, scaled eigenvalues of at least 10^-6: the
    solver answers, with three correct digits *)
Theorem C100_double ho n ops (s : system (Rnd_arith rnd64)) :
  oracle_ok ho -> assemble n ops = Ret s -> 2 <= n -> (INR n <= 1000)%R -> sy_rhs s <> None ->
  (forall i j, i < n -> j < n -> k_at s i j = k_at s j i) -> connected n (k_at s) ->
  (forall i, i < n -> (0 < (k_at s i i : R))%R) ->
  (forall z : nat -> R, (/ 10 ^ 6 * rsum n (fun i => k_at s i i * (z i * z i)) <= rsum n (fun i => z i * rsum n (fun j => k_at s i j * z j)))%R) ->
  exists x, cholesky_solver ho s = Ret (Ok x) /\ length x = n /\
  (exists E : nat -> nat -> R,
    (forall i, i < n -> rsum n (fun j => (((k_at s i j : R) + E i j) * vel x j)%R) = r_at s i) /\
    forall i j, i < n -> j < n ->
      (Rabs (E i j) <= / 10 ^ 12 * (R_sqrt.sqrt (k_at s i i) * R_sqrt.sqrt (k_at s j j)))%R) /\
  forall xs : nat -> R, (forall i, i < n -> rsum n (fun j => ((k_at s i j : R) * xs j)%R) = r_at s i) ->
    (R_sqrt.sqrt (rsum n (fun i => k_at s i i * ((vel x i - xs i) * (vel x i - xs i)))) <=
     / 10 ^ 3 * R_sqrt.sqrt (rsum n (fun i => k_at s i i * (vel x i * vel x i))))%R.
Proof.
  intros Ho Ea H2 Hn Hr Hsym Hcon Hpos HP. destruct (double_small n (/ 10 ^ 6)%R Hn ltac:(lra)) as (D1 & D2 & D3 & D4).
  destruct (solver_error rounding64 ho n ops s _ Ho Ea H2 Hr Hsym Hcon Hpos HP D1 D2) as (x & Ex & Hx & (E & HE & HB) & HF).
  exists x. split; [exact Ex|]. split; [exact Hx|]. split.
  - exists E. split; [exact HE|]. intros i j Hi Hj. eapply Rle_trans; [now apply HB|]. apply Rmult_le_compat_r; [|exact D3].
    apply Rmult_le_pos; apply R_sqrt.sqrt_pos.
  - intros xs Hxs. eapply Rle_trans; [exact (HF xs Hxs)|]. apply Rmult_le_compat_r; [apply R_sqrt.sqrt_pos|exact D4].
Qed.
Print Assumptions C100_double.
(** the chain of C27 in double precision *)
Local Arguments rnd64 : simpl never.
Lemma chain64 : exists s, assemble 3 (chain (Rnd_arith rnd64)) = Ret s /\ sy_rhs s <> None /\
  (k_at s 0 0 = 2 /\ k_at s 0 1 = 0 /\ k_at s 0 2 = -1 /\ k_at s 1 0 = 0 /\ k_at s 1 1 = 1 /\ k_at s 1 2 = -1 /\
   k_at s 2 0 = -1 /\ k_at s 2 1 = -1 /\ k_at s 2 2 = 2)%R /\ (r_at s 0 = 0 /\ r_at s 1 = 2 /\ r_at s 2 = 0)%R.
Proof.
  assert (Z1 : rnd64 1 = 1%R) by (apply (rnd64_int 1); lia). assert (Z2 : rnd64 2 = 2%R) by (apply (rnd64_int 2); lia).
  assert (Z0 : rnd64 0 = 0%R) by (apply (rnd64_int 0); lia). assert (Zm : rnd64 (-1) = (-1)%R) by (apply (rnd64_int (-1)); lia).
  destruct (assemble_free 3 (chain (Rnd_arith rnd64))) as (s & E & _ & Hn & _ & Hk & _ & Hr).
  { intros o Ho. repeat (apply elem_of_cons in Ho as [->|Ho]; [cbn; rewrite Rplus_0_l; first [exact Z1|exact Z0|exact Zm]|]). now apply elem_of_nil in Ho. }
  { intros o Ho. repeat (apply elem_of_cons in Ho as [->|Ho]; [cbn; lia|]). now apply elem_of_nil in Ho. }
  exists s. split; [exact E|].
  assert (R1 : (r_at s 1 = 2)%R).
  { rewrite Hr. unfold ssum, r_vals. cbn. cbv [Nat.eqb andb app fold_left]. rewrite Rplus_0_l, Z1. replace (1 + 1)%R with 2%R by ring. exact Z2. }
  split; [intros Hc; unfold r_at in R1; rewrite Hc in R1; cbn in R1; lra|].
  rewrite !Hk, !Hr in *. unfold ssum, k_vals, r_vals in *. clear Hk Hr. cbn in *. cbv [Nat.eqb andb app fold_left] in *.
  replace (- (1))%R with (-1)%R by ring. rewrite !Rplus_0_l, ?Z1, ?Z0, ?Zm. replace (1 + 1)%R with 2%R by ring. rewrite Z2. 
  repeat split; reflexivity.
Qed.
Example C100_example : exists s, assemble 3 (chain (Rnd_arith rnd64)) = Ret s /\ sy_rhs s <> None /\
  (forall i j, i < 3 -> j < 3 -> k_at s i j = k_at s j i) /\ connected 3 (k_at s) /\
  (forall i, i < 3 -> (0 < (k_at s i i : R))%R) /\
  (forall z : nat -> R, (/ 10 ^ 6 * rsum 3 (fun i => k_at s i i * (z i * z i)) <= rsum 3 (fun i => z i * rsum 3 (fun j => k_at s i j * z j)))%R) /\
  exists x, cholesky_solver hash_id s = Ret (Ok x) /\
    (R_sqrt.sqrt (2 * ((vel x 0 - 2) * (vel x 0 - 2)) + (vel x 1 - 6) * (vel x 1 - 6) + 2 * ((vel x 2 - 4) * (vel x 2 - 4))) <=
     / 10 ^ 3 * R_sqrt.sqrt (2 * (vel x 0 * vel x 0) + vel x 1 * vel x 1 + 2 * (vel x 2 * vel x 2)))%R.
Proof.
  destruct chain64 as (s & E & Hrhs & (K00 & K01 & K02 & K10 & K11 & K12 & K20 & K21 & K22) & R0 & R1 & R2).
  assert (Hsym : forall i j, i < 3 -> j < 3 -> k_at s i j = k_at s j i).
  { intros [|[|[|i]]] [|[|[|j]]] Hi Hj; try lia; try reflexivity; congruence. }
  assert (Hcon : connected 3 (k_at s)).
  { assert (H1 : forall a b, a < 3 -> b < 3 -> a <> b -> k_at s a b = (-1)%R -> rtc (coupled 3 (k_at s)) a b).
    { intros a b Ha Hb Hne He. apply rtc_once. split; [exact Ha|]. split; [exact Hb|]. split; [exact Hne|]. rewrite He. cbn. lra. }
    assert (H02 := H1 0 2 ltac:(lia) ltac:(lia) ltac:(lia) K02). assert (H20 := H1 2 0 ltac:(lia) ltac:(lia) ltac:(lia) K20).
    assert (H12 := H1 1 2 ltac:(lia) ltac:(lia) ltac:(lia) K12). assert (H21 := H1 2 1 ltac:(lia) ltac:(lia) ltac:(lia) K21).
    intros [|[|[|i]]] [|[|[|j]]] Hi Hj; try lia; try reflexivity; try assumption.
    - etransitivity; eassumption.
    - etransitivity; eassumption. }
  assert (Hpos : forall i, i < 3 -> (0 < (k_at s i i : R))%R).
  { intros [|[|[|i]]] Hi; [rewrite K00; lra|rewrite K11; lra|rewrite K22; lra|lia]. }
  assert (HP : forall z : nat -> R, (/ 10 ^ 6 * rsum 3 (fun i => k_at s i i * (z i * z i)) <= rsum 3 (fun i => z i * rsum 3 (fun j => k_at s i j * z j)))%R).
  { intros z. unfold rsum. cbn [bigsum sadd R_arith s0]. rewrite K00, K01, K02, K10, K11, K12, K20, K21, K22.
    generalize (z 0) (z 1) (z 2). clear. intros a b c.
    pose proof (Rle_0_sqr a) as Q1. pose proof (Rle_0_sqr (a - c)) as Q2. pose proof (Rle_0_sqr (c - b)) as Q3.
    pose proof (Rle_0_sqr (2 * a - c)) as Q4. pose proof (Rle_0_sqr (a - (c - a))) as Q5.
    pose proof (Rle_0_sqr (c - 2 * (c - b))) as Q6. pose proof (Rle_0_sqr (c + (c - b))) as Q7. pose proof (Rle_0_sqr c) as Q8. unfold Rsqr in *. lra. }
  exists s. split; [exact E|]. split; [exact Hrhs|]. split; [exact Hsym|]. split; [exact Hcon|]. split; [exact Hpos|]. split; [exact HP|].
  destruct (C100_double hash_id 3 _ s hash_id_ok E ltac:(lia) ltac:(cbn; lra) Hrhs Hsym Hcon Hpos HP) as (x & Ex & _ & _ & HF).
  exists x. split; [exact Ex|].
  specialize (HF (fun i => match i with 0 => 2 | 1 => 6 | _ => 4 end)%R). unfold rsum in HF. cbn [bigsum sadd R_arith s0] in HF.
  rewrite K00, K11, K22 in HF. eapply Rle_trans; [|eapply Rle_trans; [apply HF|]].
  - right. f_equal. ring.
  - intros [|[|[|i]]] Hi; [rewrite K00, K01, K02, R0; ring|rewrite K10, K11, K12, R1; ring|rewrite K20, K21, K22, R2; ring|lia].
  - right. do 2 f_equal. ring.
Qed.
