(** C121 - C122: comparisons of graphs and matrices, and counts. *)
From Coq Require Import Floats.
From Verif Require Import CountProofs Safety PropSparse InstQc InstF64.
Local Open Scope nat_scope.

(** *** C121 — equal means equal in content.  Fixed-size matrices also compare places that
    cannot be read; graphs forget the vertices after the last one with an edge. *)
Theorem C121_const_refuted : exists a b : cm F64_arith,
  mfrom_flat (MatrixLike := cm_like 4) (1, 2) (map fl [1; 2; 3; 4]%float) = Ret a /\ mfrom_flat (MatrixLike := cm_like 4) (1, 2) (map fl [1; 2; 5; 6]%float) = Ret b /\
  (forall c, c < 2 -> mget (MatrixLike := cm_like 4) a (0, c) = mget (MatrixLike := cm_like 4) b (0, c)) /\ cm_eq a b = false.
Proof. eexists _, _. split; [vm_refl|]. split; [vm_refl|]. split; [|vm_refl]. intros [|[|c]] Hc; [vm_refl..|lia]. Qed.
Print Assumptions C121_const_refuted.
Theorem C121_vertices_refuted : exists g h, from_edges 2 [(0, 1)] = Ret g /\ from_edges 5 [(1, 0)] = Ret h /\ graph_eq g h = true.
Proof. eexists _, _. split; [vm_compute; reflexivity|]. split; vm_compute; reflexivity. Qed.
Print Assumptions C121_vertices_refuted.
Theorem C121_graphs_partial vc es g vc' es' g' : from_edges vc es = Ret g -> from_edges vc' es' = Ret g' ->
  graph_eq g g' = true <-> forall u v, u <> v -> (u, v) ∈ es \/ (v, u) ∈ es <-> (u, v) ∈ es' \/ (v, u) ∈ es'.
Proof.
  intros E E'. rewrite (graphs_equal _ _ _ _ _ _ E E'). unfold joined_in. split; intros H u v; [intros Hne; specialize (H u v)|destruct (decide (u = v)) as [->|Hne]]; try tauto.
  specialize (H u v Hne). tauto.
Qed.
Print Assumptions C121_graphs_partial.
Theorem C121_lists a b : graph_eq (from_lol a) (from_lol b) = true <-> a = b.
Proof. exact (lols_equal a b). Qed.
Print Assumptions C121_lists.
Theorem C121_diagonal (A : arith) (a b : dg A) : seqb (s0 : A) s0 = true ->
  dg_eq a b = true <-> mshape a = mshape b /\ forall r c, r < (mshape a).1 -> c < (mshape a).2 ->
    exists x y, mget a (r, c) = Ret (Some x) /\ mget b (r, c) = Ret (Some y) /\ seqb x y = true.
Proof. exact (dg_eq_reads a b). Qed.
Print Assumptions C121_diagonal.
(** a single index reads the diagonal *)
Theorem C121_index (A : arith) (m : dg A) (i : nat) (x : A) : dg_at m i = Ret x <-> mget m (i, i) = Ret (Some x).
Proof. exact (dg_at_get m i x). Qed.
Print Assumptions C121_index.
Theorem C121_const_partial (A : arith) (a b : cm A) : length (cm_data a) = cm_r a * cm_c a -> length (cm_data b) = cm_r b * cm_c b ->
  cm_eq a b = true <-> (cm_r a, cm_c a) = (cm_r b, cm_c b) /\ forall r c, r < cm_r a -> c < cm_c a ->
    exists x y, cm_get a (r, c) = Ret (Some x) /\ cm_get b (r, c) = Ret (Some y) /\ seqb x y = true.
Proof. exact (cm_eq_reads a b). Qed.
Print Assumptions C121_const_partial.
Example C121_example :
  (exists g h, from_edges 4 [(0, 2); (3, 0); (2, 2); (2, 0)] = Ret g /\ from_edges 4 [(0, 3); (2, 0)] = Ret h /\ graph_eq g h = true) /\
  dg_eq (DG (map fl [0; 2]%float)) (DG (map fl [-0; 2]%float)) = true /\ dg_eq (DG (map fl [1; 2]%float)) (DG (map fl [1]%float)) = false /\
  (exists a b : cm F64_arith, mfrom_flat (MatrixLike := cm_like 4) (2, 2) (map fl [1; 2; 3; 4]%float) = Ret a /\
     length (cm_data a) = cm_r a * cm_c a /\ mfrom_flat (MatrixLike := cm_like 4) (4, 1) (map fl [1; 2; 3; 4]%float) = Ret b /\ cm_eq a a = true /\ cm_eq a b = false).
Proof.
  split; [eexists _, _; split; [vm_compute; reflexivity|split; vm_compute; reflexivity]|]. split; [vm_refl|]. split; [vm_refl|].
  eexists _, _. split; [vm_refl|]. split; [vm_refl|]. split; [vm_refl|]. split; vm_refl.
Qed.

(** *** C122 — the counts count what they say *)
Theorem C122_degree_masked (g : graph) (v : nat) (mask : list bool) : graph_wf g -> length mask = vertex_count g ->
  (v < vertex_count g -> exists l, adjacent g v = Ret l /\ degree_masked g v mask = Ret (length (List.filter (fun w => nth w mask false) l)) /\
     exists k, adjacent_masked g v mask = Ret k /\ degree_masked g v mask = Ret (length k)) /\
  (vertex_count g <= v -> degree_masked g v mask = Panic).
Proof.
  intros W Hm. split; [|apply degree_masked_out]. intros Hv. exists (nbrs g v). split; [now apply nbrs_ret|].
  rewrite (degree_masked_ret g W v mask Hv Hm). split; [reflexivity|]. rewrite (adjacent_masked_ret g W v mask Hv Hm). eauto.
Qed.
Print Assumptions C122_degree_masked.
Theorem C122_compressed (A : arith) (R C : nat) (vals : list A) : length vals = R * C ->
  exists m : crow A, mfrom_flat (R, C) vals = Ret m /\ cr_count m = length (List.filter (fun v => negb (seqb v s0)) vals).
Proof.
  intros H. destruct (cr_count_flat R C vals ltac:(lia)) as (m & E & Hc). exists m. split; [exact E|].
  rewrite take_ge in Hc by lia. exact Hc.
Qed.
Print Assumptions C122_compressed.
Theorem C122_labeled (A : arith) shape (vals : list ((nat * nat) * A)) : cr_count (from_labeled_vals shape vals) = length vals.
Proof. unfold cr_count, from_labeled_vals. cbn [cr_nz]. now rewrite sort_by_perm. Qed.
Print Assumptions C122_labeled.
(** the envelope is counted, zeros within it included *)
Theorem C122_envelope (A : arith) (m : lenv A) : reach le_init le_other m ->
  exists rows, mapM_out (le_row_stored m) (seq 0 (mshape m).1) = Ret rows /\ le_count m = sum_list (map (fun sr => length sr.2) rows).
Proof. intros H. exact (le_count_rows m (le_built_wf m H)). Qed.
Print Assumptions C122_envelope.
Theorem C122_product (A : arith) (OL : ord_laws A) (m : dg A) (k : A) :
  dg_product_scaled m k = smul (Nat.iter (length (dg_data m)) (smul k) s1) (dg_product m) /\
  (dg_data m <> [] -> smul (sz (Z.of_nat (length (dg_data m)))) (dg_mean m) = ssum (dg_data m)).
Proof.
  split; [|exact (mean_sum OL m)]. rewrite (product_scaled OL m k). f_equal. induction (length (dg_data m)) as [|n IH]; [reflexivity|]. cbn. now rewrite IH.
Qed.
Print Assumptions C122_product.
Example C122_example :
  (exists g, from_edges 4 [(0, 2); (3, 0); (1, 0)] = Ret g /\ degree_masked g 0 [true; true; false; true] = Ret 2 /\ degree_masked g 4 [true; true; true; true] = Panic) /\
  (m ← mfrom_flat (M := crow F64_arith) (2, 3) (map fl [1; 0; 2; 0; -0; 3]%float); Ret (cr_count m)) = Ret 3 /\
  (m ← c17_ex; Ret (le_count m)) = Ret 5 /\
  dg_product_scaled (DG (map fl [2; 3; 4]%float)) (fl 2) = fl 192 /\ dg_mean (DG (map fl [2; 3; 4]%float)) = fl 3.
Proof.
  split; [eexists; split; [vm_compute; reflexivity|split; vm_compute; reflexivity]|]. repeat (split; [vm_refl|]). vm_refl.
Qed.
