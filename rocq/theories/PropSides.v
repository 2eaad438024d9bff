(** C115: the sides of triangles in pictures. *)
From Coq Require Import Ascii String Floats.
From Verif Require Import SideProofs MeshEx InstQc InstF64 PropPlane CliEx.
From Verif Require Import Cli.
Local Close Scope string_scope.
Local Open Scope list_scope.
Local Open Scope nat_scope.

(** *** C115 — a picture shows every side of the mesh once.
    True of pictures of meshes.  Two nodes are joined by a line exactly when they stand for two corners of one
    stored triangle, no line is listed twice, and none is listed in both directions. *)
Theorem C115_mesh (A : arith) (g : geo A) (h : hashes A) (st : plane A) : mesh_state g st -> hashes_ok h -> all_vertices st <> [] ->
  exists v es, pl_visualize h st = Ret v /\ vz_points v = map (fun u => xy_pt (tget st u)) (all_vertices st) /\ vz_tris v = None /\
    vz_edges v = match es with [] => None | _ => Some es end /\ NoDup es /\
    (forall i j, i <> j -> (i, j) ∈ es -> (j, i) ∉ es) /\
    forall i j, i <> j -> (i, j) ∈ es \/ (j, i) ∈ es <->
      exists a b x y z, all_vertices st !! i = Some a /\ all_vertices st !! j = Some b /\ is_Some (t_full st !! (x, y, z)) /\ a ∈ [x; y; z] /\ b ∈ [x; y; z].
Proof. exact (mesh_picture g h st). Qed.
Print Assumptions C115_mesh.
(** two triangles with five sides *)
Example C115_example : hashes_ok (A := F64_arith) plain_hashes /\
  (r ← square_mesh; v ← pl_visualize plain_hashes r.1; Ret (length (vz_points v), length (default [] (vz_edges v)))) = Ret (4, 5).
Proof. split; [apply plain_hashes_ok|vm_refl]. Qed.

(** every corner of a triangle is a vertex of the triangulation, at all times *)
Theorem C115_corners (A : arith) (g : geo A) (st : plane A) : mesh_state g st ->
  forall u v w, t_tris st !! (u, v) = Some w -> u ∈ all_vertices st /\ v ∈ all_vertices st /\ w ∈ all_vertices st.
Proof. exact (state_known g st). Qed.
Print Assumptions C115_corners.

(** False of pictures of results: duplicates are removed by sorting pairs, and the two triangles at an inner side list
    it in opposite directions.  The quadrilateral of C71 has five sides and gets six lines. *)
Definition loaded_body : out (elas F64_arith) :=
  r ← foldM (bd_step f64_geo) loaded_ops (b_new [], []); w ← gift_wrap f64_geo first_pick 100 (pl_new r.1);
  o ← pl_assemble (map_to_list (t_full w.1)).*1 [(0, 1)] [3; 0; 1] [(2, 3)] w.1; unwrap o.
Theorem C115_refuted : exists a v es i j, loaded_body = Ret a /\ dfm_visualize a (replicate 4 (pt2 (fl 0) (fl 0))) (fl 50) = Ret v /\
  vz_edges v = Some es /\ i <> j /\ (i, j) ∈ es /\ (j, i) ∈ es.
Proof.
  assert (E : (a ← loaded_body; v ← dfm_visualize a (replicate 4 (pt2 (fl 0) (fl 0))) (fl 50); Ret (vz_edges v)) = Ret (Some [(0, 1); (1, 2); (1, 3); (2, 3); (3, 0); (3, 1)])) by vm_refl.
  apply bind_ret_inv in E as (a & Ea & E). apply bind_ret_inv in E as (v & Ev & E). injection E as E.
  exists a, v, [(0, 1); (1, 2); (1, 3); (2, 3); (3, 0); (3, 1)], 1, 3. split; [exact Ea|]. split; [exact Ev|]. split; [exact E|]. split; [lia|].
  split; apply elem_of_list_In; cbn; tauto.
Qed.
Print Assumptions C115_refuted.
(** What holds of pictures of results: the points are the displaced nodes (see C102), the triangles are the elements in
    order, the lines are strictly increasing pairs and exactly the pairs of consecutive corners of elements.
    Missing: one line for a side of two elements. *)
Theorem C115_result_partial (A : arith) (a : elas A) disp scale v : dfm_visualize a disp scale = Ret v ->
  displaced_nodes a disp scale = Ret (vz_points v) /\ vz_tris v = match ea_elems a with [] => None | _ => Some (map e_ids (ea_elems a)) end /\
  exists es, vz_edges v = match es with [] => None | _ => Some es end /\
    StronglySorted (fun x y : nat * nat => x.1 < y.1 \/ x.1 = y.1 /\ x.2 < y.2) es /\
    forall i j, (i, j) ∈ es <-> exists e x y z, e ∈ ea_elems a /\ e_ids e = (x, y, z) /\ ((i, j) = (x, y) \/ (i, j) = (y, z) \/ (i, j) = (z, x)).
Proof. exact (result_picture a disp scale v). Qed.
Print Assumptions C115_result_partial.
