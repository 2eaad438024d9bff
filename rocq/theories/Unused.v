(** Model of two functions on outlines and triangulations that nothing else in the library calls.
    /repo/src/mesher/{bounds,plane}.rs *)
From Verif Require Export Plane Visual.

Section unused.
Context {A : arith}.

(** PlaneBoundary::visualize, bounds.rs:507-527; [ord] is the order in which the hash set of
    segments is traversed *)
Definition bd_visualize (ord : list edge) (b : bound A) : out (visual A) :=
  let nodes := map (fun v => xy_pt (vget b v)) (b_verts b) in
  let indices : gmap vertex nat := list_to_map (rev (zip (b_verts b) (seq 0 (length (b_verts b))))) in
  edges ← mapM_out (fun s : edge => i ← unwrap (indices !! s.1); j ← unwrap (indices !! s.2); Ret (i, j)) ord;
  v ← vis_new nodes;
  Ret (set_edges v edges).

(** the two look-ups of plane.rs:226-232 and 238-244 *)
Definition one_at (st : plane A) (u v : vertex) : option edge :=
  match t_tris st !! (u, v) with
  | Some w => Some (v, w)
  | None => match t_tris st !! (v, u) with Some w => Some (w, v) | None => None end
  end.
(** adjacent_one, plane.rs:221-247 *)
Definition adjacent_one (st : plane A) (u : vertex) : option edge :=
  match match t_rec st !! u with Some v => one_at st u v | None => None end with
  | Some e => Some e
  | None => fold_left (fun r v => match r with Some e => Some e | None => one_at st u v end) (all_vertices st) None
  end.
End unused.
