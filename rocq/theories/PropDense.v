(** Properties of dense and triangular matrices: C01, C04, C05, C06, C07. *)
From Coq Require Import Floats.
From Verif Require Import DenseProofs TriProofs InstQc InstF64.

(** *** C01 — read-after-write over arbitrary histories, any scalars (so also f64).
    [table] is the specification: a shape and a function from positions to values;
    [table_run] says which histories are refused ([None]).  The matrix either shows
    exactly the table (reads inside the shape give the stored value, reads outside give
    nothing) or the history panics exactly where the specification refuses. *)
Theorem C01_dense_read_after_write (A : arith) (R C : nat) (init : list A) (ops : list (dense_op A)) :
  match (if decide (length init = R * C)
         then table_run ops (Table R C (fun r c => nth (C * r + c) init s0)) else None) with
  | Some t => exists m : lm A, (m0 ← mfrom_flat (R, C) init; dense_run ops m0) = Ret m /\ shows m t
  | None => (m0 ← mfrom_flat (R, C) init; dense_run (A:=A) ops m0) = Panic
  end.
Proof.
  destruct (decide _) as [Hl|Hl].
  - destruct (dense_create_spec R C init Hl) as (m0 & E & Hw & Hs). rewrite E.
    exact (dense_run_spec ops m0 _ Hw Hs).
  - cbn [mfrom_flat lm_like]. now rewrite lm_from_flat_panic.
Qed.
Print Assumptions C01_dense_read_after_write.

Theorem C01_dense_zeros (A : arith) (R C : nat) (ops : list (dense_op A)) :
  match table_run ops (Table R C (fun _ _ => s0)) with
  | Some t => exists m : lm A, (m0 ← mzeros (R, C); dense_run ops m0) = Ret m /\ shows m t
  | None => (m0 ← mzeros (R, C); dense_run (A:=A) ops m0) = Panic
  end.
Proof. exact (dense_run_spec ops (lm_zeros (R, C)) _ (lm_zeros_wf R C) (dense_zeros_shows R C)). Qed.
Print Assumptions C01_dense_zeros.

(** a 2x3 matrix of floats: write, transpose, swap, write *)
Example C01_example :
  let ops := [OpSet 1 2 (fl 7); OpTranspose; OpSwapRows 0 2; OpPut 9 9 (fl 1); OpSwapCols 0 1] in
  exists m : lm F64_arith,
    (m0 ← mfrom_flat (2, 3) (map fl [1; 2; 3; 4; 5; 6]%float); dense_run ops m0) = Ret m /\
    mshape m = (3, 2) /\ mget m (0, 0) = Ret (Some (fl 7)) /\ mget m (2, 0) = Ret (Some (fl 4)) /\
    mget m (0, 2) = Ret None.
Proof. eexists; split; [vm_refl|]. repeat split; vm_refl. Qed.
Example C01_example_refused :
  (m0 ← mfrom_flat (2, 3) (map fl [1; 2; 3; 4; 5; 6]%float);
   dense_run (A:=F64_arith) [OpTranspose; OpSet 1 2 (fl 0)] m0) = Panic.
Proof. vm_refl. Qed.

(** *** C04 — iteration order, row/column iteration and equality. *)
Theorem C04_iteration (A : arith) (m : lm A) : dense_built m ->
  (exists l, flat m = Ret l /\ length l = (mshape m).1 * (mshape m).2 /\
     forall r c, r < (mshape m).1 -> c < (mshape m).2 ->
       mget m (r, c) = Ret (l !! ((mshape m).2 * r + c))) /\
  (forall r, r < (mshape m).1 -> exists l, row m r = Ret l /\ length l = (mshape m).2 /\
     forall c, mget m (r, c) = Ret (l !! c)) /\
  (forall c, c < (mshape m).2 -> exists l, col m c = Ret l /\ length l = (mshape m).1 /\
     forall r, mget m (r, c) = Ret (l !! r)) /\
  (forall r, (mshape m).1 <= r -> row m r = Panic) /\
  (forall c, (mshape m).2 <= c -> col m c = Panic).
Proof. intros H. apply dense_built_wf in H. exact (iteration_spec m H). Qed.
Print Assumptions C04_iteration.

(** the position iterator: every position exactly once, in row-major order *)
Theorem C04_indices (A : arith) (m : lm A) : dense_built m -> (mshape m).2 <> 0 ->
  exists l, indices m = Ret l /\ NoDup l /\ length l = (mshape m).1 * (mshape m).2 /\
    forall r c, r < (mshape m).1 -> c < (mshape m).2 -> l !! ((mshape m).2 * r + c) = Some (r, c).
Proof. intros _ Hc. exact (indices_spec m Hc). Qed.
Print Assumptions C04_indices.

(** with zero columns the position iterator yields positions that do not exist *)
Theorem C04_indices_zero_columns_refuted :
  exists m : lm Qc_arith, dense_built m /\ mshape m = (2, 0) /\ indices m = Ret [(0, 0); (1, 0)].
Proof.
  exists (LM 2 0 true []). split; [apply dense_built_wf; reflexivity|].
  split; [reflexivity|]. vm_refl.
Qed.
Print Assumptions C04_indices_zero_columns_refuted.

Theorem C04_equality (A : arith) (a b : lm A) : dense_built a -> dense_built b ->
  exists v, lm_eq a b = Ret v /\
    (v = true <-> mshape a = mshape b /\
      forall r c, r < (mshape a).1 -> c < (mshape a).2 ->
        exists x y, mget a (r, c) = Ret (Some x) /\ mget b (r, c) = Ret (Some y) /\ seqb x y = true).
Proof. rewrite !dense_built_wf. apply lm_eq_reads. Qed.
Print Assumptions C04_equality.

(** the same 2x2 matrix in row-major and in column-major order *)
Example C04_example :
  let a := LM (A:=Qc_arith) 2 2 true [qc 1; qc 2; qc 3; qc 4] in
  let b := LM (A:=Qc_arith) 2 2 false [qc 1; qc 3; qc 2; qc 4] in
  dense_built a /\ dense_built b /\ lm_eq a b = Ret true /\ flat b = Ret [qc 1; qc 2; qc 3; qc 4].
Proof. cbn zeta. rewrite !dense_built_wf. repeat split; vm_refl. Qed.

(** *** C05 — product, sum, difference, scaling.  [el m r c] is what reading (r,c)
    returns; sums run left to right from zero, no arithmetic law is assumed. *)
Theorem C05_product (A : arith) (a b : lm A) : dense_built a -> dense_built b ->
  ((mshape a).2 = (mshape b).1 ->
    exists m : lm A, mmul a b = Ret m /\ dense_built m /\ mshape m = ((mshape a).1, (mshape b).2) /\
      forall i j, i < (mshape a).1 -> j < (mshape b).2 ->
        el m i j = bigsum (mshape a).2 (fun k => smul (el a i k) (el b k j))) /\
  ((mshape a).2 <> (mshape b).1 -> mmul (M3 := lm A) a b = Panic).
Proof. rewrite !dense_built_wf. setoid_rewrite dense_built_wf. exact (mmul_spec _ _ lm_laws _ _ lm_laws a b). Qed.
Print Assumptions C05_product.

Theorem C05_elementwise (A : arith) (a b : lm A) (v : A) : dense_built a -> dense_built b ->
  (mshape a = mshape b ->
    exists s d t : lm A, lm_add a b = Ret s /\ lm_sub a b = Ret d /\ lm_add_assign a b = Ret t /\
      mshape s = mshape a /\ mshape d = mshape a /\ mshape t = mshape a /\
      forall r c, r < (mshape a).1 -> c < (mshape a).2 ->
        el s r c = sadd (el a r c) (el b r c) /\ el d r c = ssub (el a r c) (el b r c) /\
        el t r c = sadd (el a r c) (el b r c)) /\
  (mshape a <> mshape b -> lm_add a b = Panic /\ lm_sub a b = Panic /\ lm_add_assign a b = Panic) /\
  mshape (lm_scale a v) = mshape a /\
  (forall r c, r < (mshape a).1 -> c < (mshape a).2 ->
     el (lm_scale a v) r c = smul (el a r c) v /\ el (lm_add_scalar a v) r c = sadd (el a r c) v).
Proof. rewrite !dense_built_wf. exact (elementwise_spec a b v). Qed.
Print Assumptions C05_elementwise.

(** operands in different storage orders *)
Example C05_example :
  let a := LM (A:=Qc_arith) 2 2 true [qc 1; qc 2; qc 3; qc 4] in
  let b := LM (A:=Qc_arith) 2 2 false [qc 5; qc 7; qc 6; qc 8] in
  dense_built a /\ dense_built b /\
  (m ← mmul (M3 := lm Qc_arith) a b; flat m) = Ret [qc 19; qc 22; qc 43; qc 50] /\
  (m ← lm_add_assign a b; flat m) = Ret [qc 6; qc 8; qc 10; qc 12].
Proof. cbn zeta. rewrite !dense_built_wf. repeat split; vm_refl. Qed.

(** *** C06 — triangular substitution, any field, any size; the solution is unique. *)
Theorem C06_forward (A : arith) (FL : field_laws A) (m : ltm A) (b : list A) :
  lt_built m -> length b = (mshape m).1 -> (forall i, i < (mshape m).1 -> el m i i <> s0) ->
  exists x, forward_sub m b = Ret x /\ length x = (mshape m).1 /\
    (forall i, i < (mshape m).1 -> mv (mshape m).1 (el m) (vel x) i = vel b i) /\
    (forall y, length y = (mshape m).1 ->
       (forall i, i < (mshape m).1 -> mv (mshape m).1 (el m) (vel y) i = vel b i) -> y = x).
Proof. intros H. apply lt_built_wf in H. exact (forward_sub_full FL m b H). Qed.
Print Assumptions C06_forward.

Theorem C06_backward (A : arith) (FL : field_laws A) (m : utm A) (b : list A) :
  ut_built m -> length b = (mshape m).1 -> (forall i, i < (mshape m).1 -> el m i i <> s0) ->
  exists x, backward_sub m b = Ret x /\ length x = (mshape m).1 /\
    (forall i, i < (mshape m).1 -> mv (mshape m).1 (el m) (vel x) i = vel b i) /\
    (forall y, length y = (mshape m).1 ->
       (forall i, i < (mshape m).1 -> mv (mshape m).1 (el m) (vel y) i = vel b i) -> y = x).
Proof. intros H. apply ut_built_wf in H. exact (backward_sub_full FL m b H). Qed.
Print Assumptions C06_backward.

Theorem C06_refuses (A : arith) (m : ltm A) (u : utm A) (b : list A) :
  (length b <> (mshape m).1 -> forward_sub m b = Panic) /\
  (length b <> (mshape u).1 -> backward_sub u b = Panic).
Proof. split; [apply forward_sub_refuses|apply backward_sub_refuses]. Qed.
Print Assumptions C06_refuses.

(** *** C07 — triangular inverses are two-sided inverses. *)
Theorem C07_lower (A : arith) (FL : field_laws A) (m : ltm A) :
  lt_built m -> (forall i, i < (mshape m).1 -> el m i i <> s0) ->
  exists m', lt_tri_inv m = Ret m' /\ mshape m' = mshape m /\
    forall i j, i < (mshape m).1 -> j < (mshape m).1 ->
      mm (mshape m).1 (el m) (el m') i j = delta i j /\ mm (mshape m).1 (el m') (el m) i j = delta i j.
Proof. intros H. apply lt_built_wf in H. exact (lt_tri_inv_full FL m H). Qed.
Print Assumptions C07_lower.

Theorem C07_upper (A : arith) (FL : field_laws A) (m : utm A) :
  ut_built m -> (forall i, i < (mshape m).1 -> el m i i <> s0) ->
  exists m', ut_tri_inv m = Ret m' /\ mshape m' = mshape m /\
    forall i j, i < (mshape m).1 -> j < (mshape m).1 ->
      mm (mshape m).1 (el m) (el m') i j = delta i j /\ mm (mshape m).1 (el m') (el m) i j = delta i j.
Proof. intros H. apply ut_built_wf in H. exact (ut_tri_inv_full FL m H). Qed.
Print Assumptions C07_upper.

(** a 2x2 lower triangle with the rational scalars *)
Definition lt_ex : out (ltm Qc_arith) :=
  m ← mzeros (2, 2); m ← index_set m (0, 0) (qc 2); m ← index_set m (1, 0) (qc 3);
  index_set m (1, 1) (qc 4).
Definition ut_ex : out (utm Qc_arith) :=
  m ← mzeros (2, 2); m ← index_set m (0, 0) (qc 2); m ← index_set m (0, 1) (qc 3);
  index_set m (1, 1) (qc 4).
Lemma lt_ex_built m : lt_ex = Ret m -> lt_built m.
Proof. unfold lt_ex. intros E. do 3 (apply bind_ret_inv in E as (? & ? & E)). eauto 6 using LtZeros, LtSet. Qed.
Lemma ut_ex_built m : ut_ex = Ret m -> ut_built m.
Proof. unfold ut_ex. intros E. do 3 (apply bind_ret_inv in E as (? & ? & E)). eauto 6 using UtZeros, UtSet. Qed.
Example C06_C07_example_lower :
  exists m, lt_ex = Ret m /\ lt_built m /\ (forall i, i < (mshape m).1 -> el m i i <> s0) /\
    forward_sub m [qc 2; qc 7] = Ret [qc 1; qc 1] /\
    (i ← lt_tri_inv m; flat i) = Ret [qcd 1 2; qc 0; qcd (-3) 8; qcd 1 4].
Proof.
  eexists; split; [vm_refl|]. split.
  - apply lt_ex_built. vm_refl.
  - split; [|split; qc_compute].
    intros i Hi. cbn in Hi. destruct i as [|[|i]]; [apply qc_neq; vm_refl..|lia].
Qed.
Example C06_C07_example_upper :
  exists m, ut_ex = Ret m /\ ut_built m /\ (forall i, i < (mshape m).1 -> el m i i <> s0) /\
    backward_sub m [qc 5; qc 4] = Ret [qc 1; qc 1] /\
    (i ← ut_tri_inv m; flat i) = Ret [qcd 1 2; qcd (-3) 8; qc 0; qcd 1 4].
Proof.
  eexists; split; [vm_refl|]. split.
  - apply ut_ex_built. vm_refl.
  - split; [|split; qc_compute].
    intros i Hi. cbn in Hi. destruct i as [|[|i]]; [apply qc_neq; vm_refl..|lia].
Qed.
