(** C103, C104: convergence of the iterative solver. *)
From Coq Require Import Floats Reals Lra.
From Verif Require Import GsConv PropFactor PropSolve InstR InstQc InstF64.
Local Close Scope R_scope.
Local Open Scope list_scope.
Local Open Scope nat_scope.

(** *** C103 — every sweep brings the iterate closer to the solution, and the loop ends.  The
    distance is the energy of the error. *)
Definition energy {A : arith} (n : nat) (K : nat -> nat -> A) (e : nat -> A) : A :=
  bigsum n (fun i => smul (e i) (bigsum n (fun j => smul (K i j) (e j)))).
Theorem C103_sweep (A : arith) (FL : field_laws A) (k : crow A) (r u : lm A) n (z : nat -> A) :
  cr_wf k -> cr_shape k = (n, n) -> dense_built r -> mshape r = (n, 1) -> dense_built u -> mshape u = (n, 1) ->
  gs_beta (A := A) <> s0 -> (forall i, i < n -> el k i i <> s0) -> (forall i j, i < n -> j < n -> el k i j = el k j i) ->
  (forall i, i < n -> mv n (el k) z i = el r i 0) ->
  exists x, gs_sweep k r u = Ret x /\ mshape x = (n, 1) /\
    energy n (el k) (fun i => ssub (el u i 0) (z i)) =
    sadd (energy n (el k) (fun i => ssub (el x i 0) (z i)))
         (smul (ssub (sdiv (sadd s1 s1) gs_beta) s1)
               (bigsum n (fun i => smul (el k i i) (smul (ssub (el x i 0) (el u i 0)) (ssub (el x i 0) (el u i 0)))))).
Proof.
  intros Wk Hs Hr Hsr Hu Hsu. apply dense_built_wf in Hr, Hu. exact (sweep_identity FL k r u n z Wk Hs Hr Hsr Hu Hsu).
Qed.
Print Assumptions C103_sweep.
Theorem C103_ends (k : crow R_arith) (r : lm R_arith) n (tol : R) :
  cr_wf k -> cr_shape k = (n, n) -> dense_built r -> mshape r = (n, 1) ->
  (forall i j, i < n -> j < n -> el k i j = el k j i) -> posdef n (el k) ->
  (exists i, i < n /\ el r i 0 <> 0%R) -> (0 < tol)%R ->
  exists N, forall limit, N <= limit -> exists x, gauss_seidel k r tol limit = Ret x.
Proof. intros Wk Hs Hr. apply dense_built_wf in Hr. exact (seidel_ends k r n tol Wk Hs Hr). Qed.
Print Assumptions C103_ends.
Definition two_k : crow Qc_arith := from_labeled_vals (2, 2) [((0, 0), qc 2); ((0, 1), qc (-1)); ((1, 0), qc (-1)); ((1, 1), qc 2)].
Example C103_example :
  (x ← gs_sweep two_k (LM 2 1 true [qc 3; qc 0]) (LM 2 1 true [qc 0; qc 0]);
   Ret (energy 2 (el two_k) (fun i => ssub s0 (nth i [qc 2; qc 1] s0)), energy 2 (el two_k) (fun i => ssub (el x i 0) (nth i [qc 2; qc 1] s0)),
        [mv 2 (el two_k) (fun i => nth i [qc 2; qc 1] s0) 0; mv 2 (el two_k) (fun i => nth i [qc 2; qc 1] s0) 1])) =
  Ret (qc 6, qcd 13989 80000, [qc 3; qc 0]).
Proof. vm_refl. Qed.
Lemma two_pos (a b d : R) : (0 < d)%R -> (d < 2)%R -> (a <> 0 \/ b <> 0)%R -> (0 < a * (a - (1 - d) * b) + b * (b - (1 - d) * a))%R.
Proof.
  intros Hd Hd2 G. pose proof (Rle_0_sqr (a - b)) as Q. pose proof (Rle_0_sqr (a + b)) as Q'. unfold Rsqr in *.
  assert (P : (0 < a * a + b * b)%R).
  { pose proof (Rle_0_sqr a) as Q0. pose proof (Rle_0_sqr b) as Q1. destruct G as [G|G]; apply Rsqr_pos_lt in G; unfold Rsqr in *; lra. }
  assert (T : (0 <= (2 - d) * ((a - b) * (a - b)))%R) by (apply Rmult_le_pos; lra).
  assert (T' : (0 <= d * ((a + b) * (a + b)))%R) by (apply Rmult_le_pos; lra).
  destruct (Rle_lt_or_eq_dec 0 _ Q) as [H|H].
  - assert (0 < (2 - d) * ((a - b) * (a - b)))%R by (apply Rmult_lt_0_compat; lra). lra.
  - assert (0 < d * ((a + b) * (a + b)))%R by (apply Rmult_lt_0_compat; lra). lra.
Qed.
(** the hypotheses of C103_ends and C104_partial for the same matrix over the reals *)
Definition two_r : crow R_arith := from_labeled_vals (A := R_arith) (2, 2) [((0, 0), 2%R); ((0, 1), (-1)%R); ((1, 0), (-1)%R); ((1, 1), 2%R)].
Example C103_real_example :
  (forall i j, i < 2 -> j < 2 -> el two_r i j = el two_r j i) /\ posdef 2 (el two_r) /\
  (forall i, i < 2 -> mv 2 (el two_r) (fun i : nat => match i with 0%nat => 2%R | _ => 1%R end) i = el (M := lm R_arith) (LM (A := R_arith) 2 1 true [3; 0]%R) i 0).
Proof.
  split; [|split].
  - intros [|[|i]] [|[|j]] Hi Hj; try lia; reflexivity.
  - intros x (i & Hi & Hne). apply R_ltb_iff.
    assert (G : (x 0%nat <> 0%R \/ x 1%nat <> 0%R)) by (destruct i as [|[|i]]; [now left|now right|lia]).
    pose proof (two_pos _ _ (1 / 2) ltac:(lra) ltac:(lra) G) as P. unfold mv. cbn [bigsum].
    change (el two_r 0 0) with 2%R. change (el two_r 0 1) with (-1)%R. change (el two_r 1 0) with (-1)%R. change (el two_r 1 1) with 2%R. cbn. lra.
  - intros [|[|i]] Hi; [| |lia]; unfold mv; cbn [bigsum];
      [transitivity 3%R; [|reflexivity]; change (el two_r 0 0) with 2%R; change (el two_r 0 1) with (-1)%R|transitivity 0%R; [|reflexivity]; change (el two_r 1 0) with (-1)%R; change (el two_r 1 1) with 2%R]; cbn; lra.
Qed.

(** *** C104 — the iterative solver finds what the direct solver finds, to its tolerance of one in
    a thousand.  False: with [1, -c; -c, 1], c = 1 - 2^-10, and unit loads it gives up after its
    200 rounds (the solution is 1024, 1024); with c = 1 - 2^-20 and loads 10001, -9999 it accepts
    (14296, 4299) where the solution is near (1053576, 1043576). *)
Definition pair64 (c a b : float) : list (asm F64_arith) :=
  [AddK 0 0 (fl 1); AddK 0 1 (fl (- c)%float); AddK 1 0 (fl (- c)%float); AddK 1 1 (fl 1); AddR 0 (fl a); AddR 1 (fl b)].
Theorem C104_rounds_refuted : exists s x, assemble 2 (pair64 0.9990234375 1 1) = Ret s /\
  gauss_seidel_solver hash_id s = Panic /\ cholesky_solver hash_id s = Ret (Ok x) /\
  forallb (fun v => (fl 1023.9990234375 <? v) && (v <? fl 1024.0009765625))%float x = true.
Proof. vm_run (assemble 2 (pair64 0.9990234375 1 1)) s E. exists s. eexists. split; [exact E|]. split; [vm_refl|]. split; vm_refl. Qed.
Print Assumptions C104_rounds_refuted.
Theorem C104_accuracy_refuted : exists s x y, assemble 2 (pair64 0.99999904632568359375 10001 (-9999)) = Ret s /\
  gauss_seidel_solver hash_id s = Ret (Ok x) /\ cholesky_solver hash_id s = Ret (Ok y) /\
  forallb (fun v => v <? fl 14297)%float x = true /\ forallb (fun v => fl 1043575 <? v)%float y = true.
Proof.
  vm_run (assemble 2 (pair64 0.99999904632568359375 10001 (-9999))) s E. exists s. eexists _, _.
  split; [exact E|]. split; [vm_refl|]. split; [vm_refl|]. split; vm_refl.
Qed.
Print Assumptions C104_accuracy_refuted.
(** both matrices are positive definite *)
Example C104_posdef (d : R) : (0 < d < 1)%R -> posdef (A := R_arith) 2 (fun i j => if i =? j then 1%R else (- (1 - d))%R).
Proof.
  intros Hd x (i & Hi & Hne). apply R_ltb_iff.
  assert (G : (x 0%nat <> 0%R \/ x 1%nat <> 0%R)) by (destruct i as [|[|i]]; [now left|now right|lia]).
  pose proof (two_pos _ _ d ltac:(lra) ltac:(lra) G) as P. unfold mv. cbn. eapply Rlt_le_trans; [exact P|]. right. cbv [Nat.eqb]. ring.
Qed.
(** what holds: an accepted answer is closer to the solution than the zero vector, in energy *)
Theorem C104_partial (k : crow R_arith) (r x : lm R_arith) n (z : nat -> R) (tol : R) limit :
  cr_wf k -> cr_shape k = (n, n) -> dense_built r -> mshape r = (n, 1) ->
  (forall i j, i < n -> j < n -> el k i j = el k j i) -> posdef n (el k) ->
  (forall i, i < n -> mv n (el k) z i = el r i 0) -> (exists i, i < n /\ el r i 0 <> 0%R) ->
  gauss_seidel k r tol limit = Ret x ->
  mshape x = (n, 1) /\ (energy n (el k) (fun i => (el x i 0 - z i)%R) < energy n (el k) z)%R.
Proof. intros Wk Hs Hr. apply dense_built_wf in Hr. exact (seidel_closer k r x n z tol limit Wk Hs Hr). Qed.
Print Assumptions C104_partial.
(** and each component of its residual is at most the tolerance times the norms of the matrix row
    and of the answer, definite or not *)
Theorem C104_residual_partial (k : crow R_arith) (r x : lm R_arith) n (tol : R) limit :
  cr_wf k -> cr_shape k = (n, n) -> dense_built r -> mshape r = (n, 1) -> (forall i, i < n -> el k i i <> 0%R) ->
  (0 < tol)%R -> gauss_seidel k r tol limit = Ret x -> (exists i, i < n /\ el x i 0 <> 0%R) ->
  forall i, i < n ->
    (Rabs (el r i 0 - mv n (el k) (fun j => el x j 0%nat) i) <=
     tol * (R_sqrt.sqrt (rsum n (fun c => el k i c * el k i c)) * R_sqrt.sqrt (rsum n (fun c => el x c 0%nat * el x c 0%nat))))%R.
Proof. intros Wk Hs Hr. apply dense_built_wf in Hr. exact (seidel_residual k r x n tol limit Wk Hs Hr). Qed.
Print Assumptions C104_residual_partial.
