(** C101, C102: stresses of linear displacement fields, the deformed shape. *)
From Coq Require Import String Floats.
From Verif Require Import StressPatch PropElem PropSolve InstQc InstF64.
Local Open Scope list_scope.
Local Open Scope nat_scope.

(** *** C101 — the stress patch test.  [lin_disp u v] samples a linear displacement field,
    [lin_strain u v p] are its strains at p: two stretches, shear, hoop. *)
Theorem C101_element (A : arith) (FL : field_laws A) (e : element A) u v (disps : nat -> out (point A)) :
  planar e -> distinct_ids (e_ids e) -> twice_area e <> s0 ->
  (forall j, j < 3 -> disps (nth j (e_id_list e) 0) = Ret (lin_disp u v (corner_pt e j))) ->
  exists C l, build_c (e_cond e) (e_mat e) = Ret C /\ e_stresses e disps = Ret l /\ length l = 3 /\
    forall k, k < 3 -> exists s, l !! k = Some (nth k (e_id_list e) 0, s) /\
      st_type s = match e_cond e with Axisymmetric => AxiSym | _ => Plane end /\ length (st_data s) = 6 /\
      forall i, i < 6 -> nth i (st_data s) s0 =
        if i <? vec_len (e_cond e)
        then bigsum (vec_len (e_cond e)) (fun m => smul (el C i m) (lin_strain u v (ElemProofs.xy (corner_pt e k)) m)) else s0.
Proof. exact (patch_element FL e u v disps). Qed.
Print Assumptions C101_element.
Theorem C101_mesh (A : arith) (OL : ord_laws A) (a : elas A) u v : ea_built a ->
  (forall e, e ∈ ea_elems a -> twice_area e <> s0) ->
  exists C res, build_c (ea_cond a) (ea_mat a) = Ret C /\
    ea_stresses a (map (lin_disp u v) (ea_nodes a)) = Ret res /\ length res = node_count a /\
    forall n p, ea_nodes a !! n = Some p ->
      ((exists e, e ∈ ea_elems a /\ n ∈ e_id_list e) -> exists s, res !! n = Some (Some s) /\
        st_type s = match ea_cond a with Axisymmetric => AxiSym | _ => Plane end /\ length (st_data s) = 6 /\
        forall i, i < 6 -> nth i (st_data s) s0 =
          if i <? vec_len (ea_cond a)
          then bigsum (vec_len (ea_cond a)) (fun m => smul (el C i m) (lin_strain u v (ElemProofs.xy p) m)) else s0) /\
      (~ (exists e, e ∈ ea_elems a /\ n ∈ e_id_list e) -> res !! n = Some None).
Proof. exact (patch_mesh OL a u v). Qed.
Print Assumptions C101_mesh.
(** the field (1 + 2x + y, 3 - x + 4y) on two triangles *)
Example C101_example :
  (exists a, square (PlaneStrain (qc 1)) = Ret a /\ ea_built a) /\
  (a ← square (PlaneStrain (qc 1)); Ret (map twice_area (ea_elems a))) = Ret [qc 4; qc 4] /\
  (a ← square (PlaneStrain (qc 1));
   l ← ea_stresses a (map (lin_disp (qc 1, qc 2, qc 1) (qc 3, qc (-1), qc 4)) (ea_nodes a));
   Ret (map (fun o => match o with Some s => st_data s | None => [] end) l)) =
  Ret (replicate 4 (map qc [60; 84; 0; 0; 0; 0]%Z)).
Proof.
  split; [vm_run (square (PlaneStrain (qc 1))) a E; exists a; split; [exact E|eexists _, _, _; exact E]|]. split; vm_refl.
Qed.

(** *** C102 — the deformed shape, in every arithmetic. *)
Theorem C102_shape (A : arith) (a : elas A) disp (k : A) res : displaced_nodes a disp k = Ret res <->
  length res = length (ea_nodes a) `min` length disp /\
  forall n p d, ea_nodes a !! n = Some p -> disp !! n = Some d ->
    p_n p = p_n d /\ res !! n = Some (Pt (p_n p) (sadd (p_x p) (smul (p_x d) k)) (sadd (p_y p) (smul (p_y d) k)) (sadd (p_z p) (smul (p_z d) k))).
Proof. exact (displaced_ret a disp k res). Qed.
Print Assumptions C102_shape.
Theorem C102_total (A : arith) (a : elas A) disp (k : A) :
  (forall n p d, ea_nodes a !! n = Some p -> disp !! n = Some d -> p_n p = p_n d) ->
  exists res, displaced_nodes a disp k = Ret res.
Proof. exact (displaced_total a disp k). Qed.
Print Assumptions C102_total.
Example C102_example :
  (a ← square (PlaneStrain (qc 1)); l ← displaced_nodes a (map (lin_disp (qc 1, qc 2, qc 1) (qc 3, qc (-1), qc 4)) (ea_nodes a)) (qc 10);
   Ret (map (fun p => (p_x p, p_y p)) l)) = Ret [(qc 10, qc 30); (qc 52, qc 10); (qc 72, qc 92); (qc 30, qc 112)] /\
  (a ← square (PlaneStrain (qc 1)); displaced_nodes a [Pt 3 (qc 0) (qc 0) (qc 0)] (qc 10)) = Panic.
Proof. split; vm_refl. Qed.
