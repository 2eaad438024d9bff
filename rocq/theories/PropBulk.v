(** C91 - C96: bulk writes, rotations, fixed-size matrices, points, the determinant without
    pivoting, equality of triangular matrices. *)
From Coq Require Import Floats Reals.
From Verif Require Import Spatial PropInverse DenseProofs TriProofs LuProofs DetProofs BulkProofs PointProofs TriEq InstQc InstF64 InstR.
Local Close Scope R_scope.
Local Open Scope nat_scope.
Local Open Scope list_scope.

(** *** C91 — histories with whole rows and columns.  [bulk_table] gives the effect of each
    operation on a table and [None] where it is refused. *)
Theorem C91_histories (A : arith) (R C : nat) (init : list A) (ops : list (bulk_op A)) :
  match (if decide (length init = R * C) then bulk_tables true ops (Table R C (fun r c => nth (C * r + c) init s0)) else None) with
  | Some t => exists m : lm A, (m0 ← mfrom_flat (R, C) init; bulk_run ops m0) = Ret m /\ displays m t
  | None => (m0 ← mfrom_flat (M := lm A) (R, C) init; bulk_run ops m0) = Panic
  end.
Proof. exact (dense_history R C init ops). Qed.
Print Assumptions C91_histories.
Theorem C91_in_place (A : arith) (a b : lm A) : dense_built a -> dense_built b ->
  (mshape a = mshape b -> exists s d : lm A, add_ass a b = Ret s /\ sub_ass a b = Ret d /\
    mshape s = mshape a /\ mshape d = mshape a /\
    forall r c, r < (mshape a).1 -> c < (mshape a).2 ->
      el s r c = sadd (el a r c) (el b r c) /\ el d r c = ssub (el a r c) (el b r c)) /\
  (mshape a <> mshape b -> add_ass a b = Panic /\ sub_ass a b = Panic).
Proof. rewrite !dense_built_wf. exact (lm_ass_spec a b). Qed.
Print Assumptions C91_in_place.
Example C91_example :
  let ops : list (bulk_op F64_arith) := [OCell OpTranspose; OSetRow 1 [fl 8; fl 9]; OMutateCol 0 (fun x : F64_arith => sadd x (fl 1)); OSetCol 1 [fl 0; fl 0; fl 7]; OMutate 2 0 (fun _ => fl 4)] in
  exists m : lm F64_arith,
    (m0 ← mfrom_flat (2, 3) (map fl [1; 2; 3; 4; 5; 6]%float); bulk_run ops m0) = Ret m /\
    mshape m = (3, 2) /\ flat m = Ret (map fl [2; 0; 9; 0; 4; 7]%float) /\
    (m0 ← mfrom_flat (M := lm F64_arith) (2, 3) (map fl [1; 2; 3; 4; 5; 6]%float); bulk_run [OSetRow 0 [fl 1; fl 2]] m0) = Panic.
Proof. eexists; split; [vm_refl|]. repeat split; vm_refl. Qed.

(** *** C92 — rotations in a coordinate plane *)
Theorem C92_entries (A : arith) n a b (theta : A) :
  (a < n -> b < n -> a <> b -> exists m : lm A, rotation n a b theta = Ret m /\ mshape m = (n, n) /\
    forall r c, r < n -> c < n -> el m r c =
      if decide (r = a /\ c = a) then scos theta else if decide (r = a /\ c = b) then smul (sneg s1) (ssin theta) else
      if decide (r = b /\ c = a) then ssin theta else if decide (r = b /\ c = b) then scos theta else
      if decide (r = c) then s1 else s0) /\
  (~ (a < n /\ b < n /\ a <> b) -> rotation (M := lm A) n a b theta = Panic).
Proof.
  split; [|apply rotation_panic]. intros Ha Hb Hab.
  destruct (rotation_ret n a b theta Ha Hb Hab) as (m & E & _ & Hs & He). exists m. auto.
Qed.
Print Assumptions C92_entries.
Theorem C92_orthogonal (A : arith) (FL : field_laws A) n a b (theta : A) (m : lm A) :
  rotation n a b theta = Ret m -> sadd (smul (scos theta) (scos theta)) (smul (ssin theta) (ssin theta)) = s1 ->
  forall i j, i < n -> j < n -> bigsum n (fun k => smul (el m i k) (el m j k)) = (if decide (i = j) then s1 else s0).
Proof.
  intros E T i j Hi Hj. destruct (decide (a < n /\ b < n /\ a <> b)) as [(Ha & Hb & Hab)|H]; [|now rewrite rotation_panic in E].
  destruct (rotation_ret n a b theta Ha Hb Hab) as (m' & E' & _ & _ & He). rewrite E in E'. injection E' as <-.
  transitivity (bigsum n (fun k => smul (rot_entry a b theta i k) (rot_entry a b theta j k))).
  - apply bigsum_ext. intros k Hk. now rewrite !He.
  - exact (rot_orthogonal FL n a b theta i j Ha Hb Hab Hi Hj T).
Qed.
Print Assumptions C92_orthogonal.
(** over the reals: rotations compose by adding their angles, so the rotation by the
    opposite angle undoes a rotation *)
Theorem C92_compose n a b (x y : R_arith) (mx my mxy : lm R_arith) :
  rotation n a b x = Ret mx -> rotation n a b y = Ret my -> rotation n a b (sadd x y) = Ret mxy ->
  forall i j, i < n -> j < n -> bigsum n (fun k => smul (el mx i k) (el my k j)) = el mxy i j.
Proof.
  intros Ex Ey Exy i j Hi Hj. destruct (decide (a < n /\ b < n /\ a <> b)) as [(Ha & Hb & Hab)|H]; [|now rewrite rotation_panic in Ex].
  exact (rot_compose n a b x y mx my mxy i j Ha Hb Hab Ex Ey Exy Hi Hj).
Qed.
Print Assumptions C92_compose.
Example C92_example : exists m : lm Qc_arith, rotation 3 2 0 (qc 0) = Ret m /\
  flat m = Ret [qcd 3 5; qc 0; qcd 4 5; qc 0; qc 1; qc 0; qcd (-4) 5; qc 0; qcd 3 5] /\
  sadd (smul (scos (qc 0)) (scos (qc 0))) (smul (ssin (qc 0)) (ssin (qc 0))) = (s1 : Qc_arith).
Proof. eexists. split; [vm_refl|]. split; vm_refl. Qed.

(** *** C93 — ConstMatrix: the shape given to from_flat is not compared with the size *)
Theorem C93_shape_refuted : exists m : cm F64_arith,
  mfrom_flat (MatrixLike := cm_like 4) (3, 3) (map fl [1; 2; 3; 4]%float) = Ret m /\
  mshape (MatrixLike := cm_like 4) m = (3, 3) /\ mget (MatrixLike := cm_like 4) m (2, 2) = Panic.
Proof. eexists. split; [vm_refl|]. split; vm_refl. Qed.
Print Assumptions C93_shape_refuted.
(** a matrix of size one accepts no value at all *)
Theorem C93_count_refuted : exists m : cm F64_arith,
  mfrom_flat (MatrixLike := cm_like 1) (1, 1) [] = Ret m /\ mget (MatrixLike := cm_like 1) m (0, 0) = Ret (Some (fl 0)).
Proof. eexists. split; vm_refl. Qed.
Print Assumptions C93_count_refuted.
(** otherwise histories behave as those of dense matrices, but cannot transpose *)
Theorem C93_histories_partial (A : arith) (size R C : nat) (init : list A) (ops : list (bulk_op A)) :
  R * C = size -> size <> 0 -> (init = [] -> size <> 1) ->
  match (if decide (length init = size) then bulk_tables false ops (Table R C (fun r c => nth (C * r + c) init s0)) else None) with
  | Some t => exists m : cm A, (m0 ← mfrom_flat (MatrixLike := cm_like size) (R, C) init; bulk_run (ML := cm_like size) ops m0) = Ret m /\
      displays (ML := cm_like size) m t
  | None => (m0 ← mfrom_flat (MatrixLike := cm_like size) (R, C) init; bulk_run (ML := cm_like size) ops m0) = Panic
  end.
Proof. exact (const_history size R C init ops). Qed.
Print Assumptions C93_histories_partial.
Example C93_example :
  let ops : list (bulk_op F64_arith) := [OCell (OpSwapRows 0 1); OSetCol 0 [fl 7; fl 8]] in
  exists m : cm F64_arith, (m0 ← mfrom_flat (MatrixLike := cm_like 4) (2, 2) (map fl [1; 2; 3; 4]%float); bulk_run (ML := cm_like 4) ops m0) = Ret m /\
    cm_data m = map fl [7; 4; 8; 2]%float.
Proof. eexists. split; vm_refl. Qed.

(** *** C94 — points are vectors.  The midpoint of points of different dimensions keeps a
    hidden coordinate, which lengths and distances count. *)
Theorem C94_hidden_refuted : exists p q : point F64_arith, exists v,
  pt_new [fl 0; fl 0] = Ret p /\ pt_new [fl 0; fl 0; fl 2] = Ret q /\
  pt_to_vec (pt_mid p q) = Ret [fl 0; fl 0] /\ pt_dot (pt_mid p q) (pt_mid p q) = Ret (fl 0) /\
  pt_norm (pt_mid p q) = fl 1 /\ pt_dist (pt_mid p q) p = Ret v /\ v = fl 1.
Proof. eexists _, _, _. repeat split; vm_refl. Qed.
Print Assumptions C94_hidden_refuted.
(** a zero point of more than three dimensions cannot be read *)
Theorem C94_dimension_refuted : exists p : point F64_arith, pt_zero 4 = p /\ pt_to_vec p = Panic.
Proof. eexists. split; vm_refl. Qed.
Print Assumptions C94_dimension_refuted.
Theorem C94_new (A : arith) (l : list A) :
  (length l <= 3 -> exists p, pt_new l = Ret p /\ pt_built p /\ p_n p = length l /\ pt_to_vec p = Ret l) /\
  (3 < length l -> pt_new l = Panic).
Proof.
  split; [|apply new_panic]. intros H. destruct (new_ret l H) as (p & E & Hn & Hv). exists p.
  split; [exact E|]. split; [exact (built_new l p E)|]. auto.
Qed.
Print Assumptions C94_new.
Theorem C94_vectors_partial (A : arith) (FL : field_laws A) (p q : point A) (k : A) : pt_built p -> pt_built q -> p_n p = p_n q ->
  exists x y, pt_to_vec p = Ret x /\ pt_to_vec q = Ret y /\
    (r ← pt_add p q; pt_to_vec r) = Ret (zip_with sadd x y) /\ (r ← pt_sub p q; pt_to_vec r) = Ret (zip_with ssub x y) /\
    pt_to_vec (pt_mid p q) = Ret (zip_with (fun x y => sdiv (sadd x y) (sadd s1 s1)) x y) /\
    pt_to_vec (pt_scale p k) = Ret (map (fun x => smul x k) x) /\
    pt_to_vec (pt_unit p) = Ret (map (fun x => sdiv x (pt_norm p)) x) /\
    pt_dot p q = Ret (ssum (zip_with smul x y)) /\ pt_norm p = ssqrt (ssum (map ssq x)) /\
    pt_dist p q = Ret (ssqrt (ssum (map ssq (zip_with ssub x y)))).
Proof. exact (vectors_spec FL p q k). Qed.
Print Assumptions C94_vectors_partial.
Theorem C94_dimensions (A : arith) (p q : point A) : p_n p <> p_n q -> pt_add p q = Panic /\ pt_sub p q = Panic /\ pt_dist p q = Panic.
Proof. exact (ops_panic p q). Qed.
Print Assumptions C94_dimensions.
(** over the reals: a distance in the mathematical sense, and unit vectors *)
Theorem C94_distance (p q r : point R_arith) : p_n p = p_n q -> p_n q = p_n r ->
  exists dpq dqp dqr dpr : R_arith, pt_dist p q = Ret dpq /\ pt_dist q p = Ret dqp /\ pt_dist q r = Ret dqr /\ pt_dist p r = Ret dpr /\
    dpq = dqp /\ (0 <= dpq)%R /\ (dpr <= dpq + dqr)%R /\ (dpq = 0%R <-> p = q).
Proof. exact (dist_real p q r). Qed.
Print Assumptions C94_distance.
Theorem C94_unit (p : point R_arith) : pt_norm p <> 0%R -> pt_norm (pt_unit p) = 1%R.
Proof. exact (unit_real p). Qed.
Print Assumptions C94_unit.
Example C94_example : exists p q : point Qc_arith, pt_built p /\ pt_built q /\ p_n p = p_n q /\
  pt_to_vec p = Ret [qc 3; qc 4] /\ pt_dot p q = Ret (qc 11) /\ (r ← pt_sub p q; pt_to_vec r) = Ret [qc 2; qc 2].
Proof.
  exists (pt_scale (Pt 2 (qc 6) (qc 8) (qc 0)) (qcd 1 2)), (Pt 2 (qc 1) (qc 2) (qc 0)).
  split; [apply built_scale, (built_new [qc 6; qc 8]); reflexivity|]. split; [apply (built_new [qc 1; qc 2]); reflexivity|].
  repeat split; vm_refl.
Qed.

(** *** C95 — the determinant from the triangular factors without pivoting *)
Theorem C95_det_lu (A : arith) (FL : field_laws A) n (D : (nat -> nat -> A) -> A) (m : lm A) :
  det_function n D -> dense_built m -> mshape m = (n, n) -> (forall k, k < n -> nonsingular k (el m)) -> det_lu m = Ret (D (el m)).
Proof. rewrite dense_built_wf. exact (det_lu_spec FL n D m). Qed.
Print Assumptions C95_det_lu.
(** factored without exchanges; a matrix that needs an exchange is not covered, and its
    determinant, -1, is not found *)
Example C95_example : dense_built c08_m /\ mshape c08_m = (3, 3) /\ (forall k, k < 3 -> nonsingular k (el c08_m)) /\
  exists d, det_lu c08_m = Ret d /\ d <> s0.
Proof.
  split; [apply dense_built_wf; reflexivity|]. split; [reflexivity|]. split; [intros k Hk; apply (proj1 C08_example); lia|].
  exists (qc (-16)). split; [vm_refl|]. now apply qc_neq.
Qed.
Example C95_boundary : det_lu (LM 2 2 true (map fl [0; 1; 1; 0]%float)) = Ret (fl nan).
Proof. vm_refl. Qed.

(** *** C96 — triangular matrices are equal exactly if they have the same shape and equal
    entries *)
Theorem C96_lower (A : arith) (a b : ltm A) : seqb (s0 : A) s0 = true -> lt_made a -> lt_made b ->
  lt_eq a b = true <-> mshape a = mshape b /\ forall r c, r < (mshape a).1 -> c < (mshape a).2 ->
    exists x y, mget a (r, c) = Ret (Some x) /\ mget b (r, c) = Ret (Some y) /\ seqb x y = true.
Proof. exact (lt_eq_reads a b). Qed.
Print Assumptions C96_lower.
Theorem C96_upper (A : arith) (a b : utm A) : seqb (s0 : A) s0 = true -> ut_made a -> ut_made b ->
  ut_eq a b = true <-> mshape a = mshape b /\ forall r c, r < (mshape a).1 -> c < (mshape a).2 ->
    exists x y, mget a (r, c) = Ret (Some x) /\ mget b (r, c) = Ret (Some y) /\ seqb x y = true.
Proof. exact (ut_eq_reads a b). Qed.
Print Assumptions C96_upper.
Example C96_example : seqb (s0 : F64_arith) s0 = true /\ exists a b : ltm F64_arith, lt_made a /\ lt_made b /\ lt_eq a b = true /\
  mget a (1, 0) = Ret (Some (fl 3)).
Proof.
  split; [vm_refl|]. eexists _, _. split; [exists (2, 2), [((1, 0), fl 3); ((0, 1), fl 5)]; vm_refl|].
  split; [exists (2, 1), [((1, 0), fl 4); ((1, 0), fl 3)]; vm_refl|]. split; vm_refl.
Qed.
