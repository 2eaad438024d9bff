(** Model of the plane triangulation.  /repo/src/mesher/plane.rs

    The timing and progress messages are left out, [visualize] (a picture of the mesh) is in Cli.v,
    [adjacent_one] (never called) is in Unused.v.  Hash-ordered choices are arguments:
    [pk], which element a non-empty hash set yields first, and [ft], the order in which the
    triangle table is traversed; both also take the remaining step count, so that the same
    contents may be traversed differently at different times. *)
From Verif Require Export Bounds.

(** Triangle and Edge, plane.rs:16-19, as tuples of vertex ids *)
Notation tri := (nat * nat * nat)%type (only parsing).
Notation edge := (nat * nat)%type (only parsing).
(** edges, plane.rs:30-36; rot, plane.rs:38-40; rev, plane.rs:42-44; all, plane.rs:46-56 *)
Definition tri_edges (t : tri) : list edge := [(t.1.1, t.1.2); (t.1.2, t.2); (t.2, t.1.1)].
Definition tri_rot (t : tri) : tri := (t.1.2, t.2, t.1.1).
Definition tri_rev (t : tri) : tri := (t.2, t.1.2, t.1.1).
Definition tri_all (t : tri) : list tri :=
  [t; tri_rot t; tri_rot (tri_rot t); tri_rev t; tri_rot (tri_rev t); tri_rot (tri_rot (tri_rev t))].

(** PlaneTriangulation, plane.rs:89-104 *)
Record plane (A : arith) := Pl {
  t_bound : bound A;
  t_verts : list vertex;
  t_tris : gmap edge vertex;
  t_full : gmap tri A;
  t_rec : gmap vertex vertex }.
Global Arguments Pl {A} _ _ _ _ _.
Global Arguments t_bound {A} _.
Global Arguments t_verts {A} _.
Global Arguments t_tris {A} _.
Global Arguments t_full {A} _.
Global Arguments t_rec {A} _.

Definition pick_fn := nat -> gset edge -> option edge.
Definition order_fn (A : arith) := nat -> gmap tri A -> list (tri * A).
Definition pick_ok (pk : pick_fn) : Prop := forall n X, X <> ∅ -> exists e, pk n X = Some e /\ e ∈ X.
Definition order_ok {A : arith} (ft : order_fn A) : Prop := forall n m, ft n m ≡ₚ map_to_list m.

Section plane.
Context {A : arith} (g : geo A).
Implicit Types st : plane A.

(** new, plane.rs:108-117 *)
Definition pl_new (b : bound A) : plane A := Pl b [] ∅ ∅ ∅.

Definition with_bound st b := Pl b (t_verts st) (t_tris st) (t_full st) (t_rec st).
Definition with_tverts st vs := Pl (t_bound st) vs (t_tris st) (t_full st) (t_rec st).

(** the point of a vertex; mesher/mod.rs:61-78 *)
Definition tget st (v : vertex) : xy A := vget (t_bound st) v.
Definition perturbed st (v : vertex) : xy A :=
  let p := tget st v in (sadd p.1 (g_pert g v), sadd p.2 (g_pert g v)).

(** store_vertex, plane.rs:119-123 *)
Definition pl_store_vertex st (p : xy A) : plane A * vertex :=
  let '(b, v) := vertex_new (t_bound st) p in (with_tverts (with_bound st b) (t_verts st ++ [v]), v).

(** all_vertices, plane.rs:125-127 *)
Definition all_vertices st : list vertex := t_verts st ++ b_verts (t_bound st).

(** in_circle, plane.rs:129-143 *)
Definition pl_in_circle st (t : tri) (x : vertex) (perturb : bool) : out bool :=
  let f := if perturb then perturbed st else tget st in
  in_circle (xy_pt (f x)) (xy_pt (f t.1.1)) (xy_pt (f t.1.2)) (xy_pt (f t.2)).

(** triangle_dir, plane.rs:145-150 *)
Definition triangle_dir st (t : tri) : orient := g_dir g (tget st t.1.1) (tget st t.1.2) (tget st t.2).
Definition is_positive (o : orient) : bool := match o with Positive => true | _ => false end.
Definition is_negative (o : orient) : bool := match o with Negative => true | _ => false end.

(** to_left, plane.rs:152-158 *)
Definition to_left st (e : edge) (p : vertex) : bool := is_positive (triangle_dir st (e.1, e.2, p)).

(** add_triangle, plane.rs:160-191; None is the error *)
Definition add_triangle st (t : tri) : option (plane A) :=
  if negb (is_positive (triangle_dir st t)) then None
  else if existsb (fun e => bool_decide (is_Some (t_tris st !! e))) (tri_edges t) then None
  else
    let tris := <[(t.2, t.1.1) := t.1.2]> (<[(t.1.2, t.2) := t.1.1]> (<[(t.1.1, t.1.2) := t.2]> (t_tris st))) in
    let cr := g_cr g (tget st t.1.1) (tget st t.1.2) (tget st t.2) in
    let recs := fold_left (fun m (e : edge) => <[e.2 := e.1]> (<[e.1 := e.2]> m)) (tri_edges t) (t_rec st) in
    Some (Pl (t_bound st) (t_verts st) tris (<[t := cr]> (t_full st)) recs).

(** the loop removing the first stored ordering, plane.rs:203-208 *)
Fixpoint remove_first (m : gmap tri A) (l : list tri) : gmap tri A :=
  match l with
  | [] => m
  | t :: l' => if bool_decide (is_Some (m !! t)) then delete t m else remove_first m l'
  end.

(** delete_triangle, plane.rs:193-214; None is the error *)
Definition delete_triangle st (t : tri) : option (plane A) :=
  if bool_decide (t_tris st !! (t.1.1, t.1.2) = Some t.2)
  then Some (Pl (t_bound st) (t_verts st) (fold_left (fun m e => delete e m) (tri_edges t) (t_tris st))
                (remove_first (t_full st) (tri_all t)) (t_rec st))
  else None.

(** adjacent, plane.rs:216-219 *)
Definition pl_adjacent st (e : edge) : option vertex := t_tris st !! e.

(** circumcenter, plane.rs:249-254 *)
Definition pl_circumcenter st (t : tri) : out (option (xy A)) :=
  o ← circumcenter (xy_pt (tget st t.1.1)) (xy_pt (tget st t.1.2)) (xy_pt (tget st t.2));
  match o with
  | None => Ret None
  | Some p => x ← pt_idx p 0; y ← pt_idx p 1; Ret (Some (x, y))
  end.

(** bowyer_watson_dig, plane.rs:256-292 *)
Fixpoint dig (fuel : nat) (u v w : vertex) st : out (plane A) :=
  match fuel with
  | 0 => Fuel
  | S fuel =>
      let add := unwrap (add_triangle st (u, v, w)) in
      let deeper x := st ← unwrap (delete_triangle st (w, v, x)); st ← dig fuel u v x st; dig fuel u x w st in
      if is_segment (t_bound st) (w, v) || is_segment (t_bound st) (v, w) then add
      else match pl_adjacent st (w, v) with
           | Some x => if is_negative (triangle_dir st (u, v, w)) then deeper x
                       else inside ← pl_in_circle st (u, v, w) x false;
                            if (inside : bool) then deeper x else add
           | None => add
           end
  end.

(** bowyer_watson_insert, plane.rs:294-304 *)
Definition insert_vertex (fuel : nat) (u : vertex) (t : tri) st : out (plane A) :=
  let v := t.1.1 in let w := t.1.2 in let x := t.2 in
  st ← unwrap (delete_triangle st (v, w, x));
  st ← dig fuel u v w st; st ← dig fuel u w x st; dig fuel u x v st.

(** the search loop of gift_wrap_finish, plane.rs:313-318 and 326-333; [vis] tells whether
    visibility is checked.  A triangle on the edge is given by its third vertex. *)
Definition search st (e : edge) (vis : bool) : out (option vertex) :=
  foldM (fun v (best : option vertex) =>
    if to_left st e v then
      ok ← match best with None => Ret true | Some t => pl_in_circle st (e.1, e.2, t) v true end;
      if (ok : bool) then
        seen ← (if vis then midpoint_visible g (t_bound st) e v else Ret true);
        Ret (if (seen : bool) then Some v else best)
      else Ret best
    else Ret best) (all_vertices st) None.

(** gift_wrap_finish, plane.rs:306-338 *)
Definition gift_wrap_finish st (e : edge) : out (option (tri * edge * edge)) :=
  r ← search st e false;
  match r with
  | None => Ret None
  | Some v =>
      seen ← midpoint_visible g (t_bound st) e v;
      r ← (if (seen : bool) then Ret (Some v) else search st e true : out (option nat));
      Ret (option_map (fun x : vertex => ((e.1, e.2, x), (e.2, x), (x, e.1))) r)
  end.

(** [if !set.remove(&a) { set.insert(a.rev()); }], plane.rs:360-366 *)
Definition toggle (X : gset edge) (a : edge) : gset edge :=
  if bool_decide (a ∈ X) then X ∖ {[a]} else {[(a.2, a.1)]} ∪ X.

(** the loop of gift_wrap, plane.rs:347-369.  The result also lists the edges for which no
    triangle was found, which the code drops silently. *)
Fixpoint gift_loop (pk : pick_fn) (fuel : nat) st (X : gset edge) (lost : list edge) : out (plane A * list edge) :=
  match fuel with
  | 0 => Fuel
  | S fuel =>
      if bool_decide (X = ∅) then Ret (st, lost) else
      e ← unwrap (pk fuel X);
      let X := X ∖ {[e]} in
      r ← gift_wrap_finish st e;
      match r with
      | None => gift_loop pk fuel st X (lost ++ [e])
      | Some (t, a, b) => st ← unwrap (add_triangle st t); gift_loop pk fuel st (toggle (toggle X a) b) lost
      end
  end.

(** gift_wrap, plane.rs:340-370; the triangle table is not cleared *)
Definition gift_wrap (pk : pick_fn) (fuel : nat) st : out (plane A * list edge) :=
  let st := Pl (t_bound st) (t_verts st) ∅ (t_full st) ∅ in
  walls ← all_walls (t_bound st);
  gift_loop pk fuel st (list_to_set walls) [].

(** large_triangle, plane.rs:372-377 *)
Definition large_triangle (ord : list (tri * A)) (h : A) : option tri :=
  fst <$> List.find (fun x => sltb h x.2) ord.

(** skinny_triangle, plane.rs:379-389; f64::min of the three sides, which
    passes over a NaN *)
Definition smin (x y : A) : A := if sltb y x || negb (seqb x x) then y else x.
Definition is_skinny st (b h : A) (x : tri * A) : bool :=
  let u := tget st x.1.1.1 in let v := tget st x.1.1.2 in let w := tget st x.1.2 in
  sltb b (sdiv x.2 (smin (smin (xy_dist u v) (xy_dist v w)) (xy_dist w u))) || sltb h x.2.
Definition skinny_triangle st (ord : list (tri * A)) (b h : A) : option tri :=
  fst <$> List.find (is_skinny st b h) ord.

(** the loop of chew_mesh, plane.rs:403-411; [inner] bounds the digging of one insertion *)
Fixpoint chew_loop (ft : order_fn A) (inner fuel : nat) (h : A) st : out (plane A) :=
  match fuel with
  | 0 => Fuel
  | S fuel =>
      match large_triangle (ft fuel (t_full st)) h with
      | None => Ret st
      | Some t =>
          o ← pl_circumcenter st t;
          center ← unwrap o;
          let '(st, c) := pl_store_vertex st center in
          st ← insert_vertex inner c t st;
          chew_loop ft inner fuel h st
      end
  end.

(** chew_mesh, plane.rs:391-412; [ord] is the order of the boundary's hash set *)
Definition chew_mesh (pk : pick_fn) (ft : order_fn A) (ord : list segment) (fuel : nat) (h : A) st : out (plane A) :=
  b ← divide_all_segments g (t_bound st) ord h;
  r ← gift_wrap pk fuel (with_bound st b);
  chew_loop ft fuel fuel h r.1.

(** ruppert_encroaches, plane.rs:414-433 *)
Definition ruppert_encroaches st (p : vertex) (s : segment) : out bool :=
  if seg_has s p then Ret false else
  let a := tget st s.1 in let mid := xy_mid a (tget st s.2) in
  if sltb (xy_dist mid a) (xy_dist mid (tget st p)) then Ret false
  else midpoint_visible g (t_bound st) s p.

(** ruppert_split_segment, plane.rs:435-453 *)
Definition ruppert_split_segment (fuel : nat) st (s : segment) : out (plane A * (segment * segment * vertex)) :=
  x ← unwrap (pl_adjacent st s);
  st ← unwrap (delete_triangle st (s.1, s.2, x));
  r ← split_segment (t_bound st) s;
  let st := with_bound st r.1 in
  let u := r.2.1.1.2 in
  st ← dig fuel u s.2 x st;
  st ← dig fuel u x s.1 st;
  Ret (st, r.2).

(** ruppert_split_many, plane.rs:455-482; the vector as a stack, top first *)
Fixpoint split_many (inner fuel : nat) (p : vertex) (recursive : bool) st (stack : list segment) (res : list vertex) : out (plane A * list vertex) :=
  match fuel with
  | 0 => Fuel
  | S fuel =>
      match stack with
      | [] => Ret (st, res)
      | s :: stack =>
          r ← ruppert_split_segment inner st s;
          let '(st, (ca, cb, v)) := r in
          ea ← (if recursive then ruppert_encroaches st p ca else Ret false);
          eb ← (if recursive then ruppert_encroaches st p cb else Ret false);
          let stack := if (ea : bool) then ca :: stack else stack in
          let stack := if (eb : bool) then cb :: stack else stack in
          split_many inner fuel p recursive st stack (res ++ [v])
      end
  end.

(** segments_encroached_by, plane.rs:484-497 *)
Definition segments_encroached_by st (p : vertex) : out (list segment) :=
  walls ← all_walls (t_bound st);
  fl ← mapM_out (fun s => e ← ruppert_encroaches st p s; Ret (s, e)) walls;
  Ret (map fst (List.filter snd fl)).

(** the wall splitting loop of ruppert_mesh, plane.rs:508-517; the vector as a stack, top first *)
Fixpoint ruppert_walls (inner fuel : nat) st (stack : list vertex) : out (plane A) :=
  match fuel with
  | 0 => Fuel
  | S fuel =>
      match stack with
      | [] => Ret st
      | v :: stack =>
          segs ← segments_encroached_by st v;
          match segs with
          | [] => ruppert_walls inner fuel st stack
          | _ :: _ => r ← split_many inner inner v true st (rev segs) [];
                      ruppert_walls inner fuel r.1 (rev r.2 ++ stack)
          end
      end
  end.

(** the refinement loop of ruppert_mesh, plane.rs:519-533; b = 1.415 *)
Definition ratio_bound : A := slit 1415 1000.
Fixpoint ruppert_loop (ft : order_fn A) (inner fuel : nat) (h : A) st : out (plane A) :=
  match fuel with
  | 0 => Fuel
  | S fuel =>
      match skinny_triangle st (ft fuel (t_full st)) ratio_bound h with
      | None => Ret st
      | Some t =>
          o ← pl_circumcenter st t;
          center ← unwrap o;
          let '(b, c) := vertex_new (t_bound st) center in
          let st := with_bound st b in
          segs ← segments_encroached_by st c;
          match segs with
          | [] => let '(st, i) := pl_store_vertex st center in
                  st ← insert_vertex inner i t st;
                  ruppert_loop ft inner fuel h st
          | _ :: _ => r ← split_many inner inner c false st (rev segs) [];
                      ruppert_loop ft inner fuel h r.1
          end
      end
  end.

(** ruppert_mesh, plane.rs:499-534 *)
Definition ruppert_mesh (pk : pick_fn) (ft : order_fn A) (fuel : nat) (h : A) st : out (plane A) :=
  r ← gift_wrap pk fuel st;
  st ← ruppert_walls fuel fuel r.1 (rev (b_verts (t_bound r.1)));
  ruppert_loop ft fuel fuel h st.

(** assemble, plane.rs:568-613.  [ot], [os], [oc], [ol] are the traversal orders of the triangle
    table, the distributed supports, the merged supports and the distributed loads.  The inner
    option is the "missing material definition" error. *)
Definition lookup_vertex st : gmap vertex nat := list_to_map (rev (zip (all_vertices st) (seq 0 (length (all_vertices st))))).
Definition pl_assemble (ot : list tri) (os : list segment) (oc : list vertex) (ol : list segment) st : out (option (elas A)) :=
  match b_mat (t_bound st) with
  | None => Ret None
  | Some mat =>
      cond ← unwrap (b_cond (t_bound st));
      let a := (add_nodes (ea_new mat cond) (map (fun v => xy_pt (tget st v)) (all_vertices st))).1 in
      let lk := lookup_vertex st in
      a ← foldM (fun (t : tri) a =>
            i ← unwrap (lk !! t.1.1); j ← unwrap (lk !! t.1.2); k ← unwrap (lk !! t.2);
            add_element a (i, j, k)) ot a;
      let cons := all_constraints (t_bound st) os in
      a ← foldM (fun v a => match cons !! v with
                            | Some c => i ← unwrap (lk !! v); add_constraint a i c
                            | None => Ret a
                            end) oc a;
      a ← foldM (fun (sf : segment * point A) a =>
            i ← unwrap (lk !! sf.1.1); j ← unwrap (lk !! sf.1.2);
            Ret (add_dist_line_force a i j sf.2)) (all_distributed_forces (t_bound st) ol) a;
      Ret (Some a)
  end.
End plane.
