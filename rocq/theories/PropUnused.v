(** C123 - C124: a triangle at a given vertex, and pictures of outlines. *)
From Coq Require Import Ascii String Floats.
From Verif Require Import UnusedProofs MeshEx InstQc InstF64 PropPlane.
Local Close Scope string_scope.
Local Open Scope list_scope.
Local Open Scope nat_scope.

(** *** C123 — looking for a triangle at a vertex finds one, in its orientation, exactly if
    there is one *)
Theorem C123_found (A : arith) (g : geo A) (st : plane A) (u v w : nat) : mesh_state g st -> adjacent_one st u = Some (v, w) ->
  is_Some (t_full st !! (u, v, w)) \/ is_Some (t_full st !! (v, w, u)) \/ is_Some (t_full st !! (w, u, v)).
Proof.
  intros Hst E. pose proof (adjacent_one_spec g st u Hst) as H. rewrite E in H. destruct H as (t & Hf & Ht). cbn [fst snd] in Ht.
  apply in_rots in Ht as [->|[->| ->]]; auto.
Qed.
Print Assumptions C123_found.
Theorem C123_finds (A : arith) (g : geo A) (st : plane A) (a b c : nat) : mesh_state g st -> is_Some (t_full st !! (a, b, c)) ->
  forall u, u ∈ [a; b; c] -> exists v w, adjacent_one st u = Some (v, w).
Proof.
  intros Hst Hf u Hu. pose proof (adjacent_one_spec g st u Hst) as H. destruct (adjacent_one st u) as [[v w]|]; [eauto|].
  destruct (H _ Hf) as (H1 & H2 & H3). cbn [fst snd] in *. rewrite !elem_of_cons, elem_of_nil in Hu. exfalso. tauto.
Qed.
Print Assumptions C123_finds.
(** before and after refinement; there is no vertex 9 *)
Example C123_example :
  (r ← square_mesh; Ret (adjacent_one r.1 0, adjacent_one r.1 2, adjacent_one r.1 9)) = Ret (Some (1, 3), Some (3, 1), None) /\
  (r ← square_fine; Ret (map (fun u => bool_decide (is_Some (adjacent_one r u))) (all_vertices r))) = Ret [true; true; true; true; true; true; true].
Proof. split; vm_refl. Qed.

(** *** C124 — the picture of an outline shows each of its segments once *)
Theorem C124_outline (A : arith) (g : geo A) (b : bound A) polys (ord : list edge) : bd_built g b polys -> ord ≡ₚ elements (b_set b) -> b_verts b <> [] ->
  exists v es, bd_visualize ord b = Ret v /\ vz_points v = map (fun u => xy_pt (vget b u)) (b_verts b) /\ vz_tris v = None /\
    vz_edges v = match es with [] => None | _ => Some es end /\ NoDup es /\
    forall i j, (i, j) ∈ es <-> exists p q, b_verts b !! i = Some p /\ b_verts b !! j = Some q /\ (p, q) ∈ b_set b.
Proof. exact (outline_picture g b polys ord). Qed.
Print Assumptions C124_outline.
Theorem C124_empty (A : arith) (b : bound A) (ord : list edge) : b_verts b = [] -> bd_visualize ord b = Panic.
Proof. exact (outline_empty ord b). Qed.
Print Assumptions C124_empty.
Example C124_example :
  (r ← foldM (bd_step f64_geo) square_ops (b_new [], []); v ← bd_visualize [(2, 3); (0, 1); (1, 2); (3, 0)] r.1;
   Ret (bool_decide (b_set r.1 = list_to_set [(0, 1); (1, 2); (2, 3); (3, 0)]), length (vz_points v), vz_edges v)) =
    Ret (true, 4, Some [(2, 3); (0, 1); (1, 2); (3, 0)]).
Proof. vm_refl. Qed.
