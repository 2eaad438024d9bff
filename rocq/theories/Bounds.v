(** Model of mesh vertices and of the plane boundary.  /repo/src/mesher/{mod,bounds}.rs

    The crate [spacemath] (planar points and shapes) is not part of /repo.  Its point
    arithmetic is modelled by the obvious formulas ([xy_*] below); its predicates on
    segments and triangles are an arbitrary record [geo], so what is proved about the mesher
    holds whatever they answer. *)
From Verif Require Export Assem Predicates.

(** spacemath::two::Point *)
Definition xy (A : arith) : Type := (A * A)%type.

Section points.
Context {A : arith}.
Implicit Types p q : xy A.
Local Open Scope arith_scope.
Definition xy_add p q : xy A := (p.1 + q.1, p.2 + q.2).
Definition xy_sub p q : xy A := (p.1 - q.1, p.2 - q.2).
Definition xy_scale p (k : A) : xy A := (p.1 * k, p.2 * k).
Definition xy_norm p : A := ssqrt (ssq p.1 + ssq p.2).
Definition xy_dist p q : A := xy_norm (xy_sub p q).
Definition xy_mid p q : xy A := ((p.1 + q.1) / sz 2, (p.2 + q.2) / sz 2).
Definition xy_unit p : xy A := (p.1 / xy_norm p, p.2 / xy_norm p).
(** From<spacemath::two::Point> for spatial::Point *)
Definition xy_pt p : point A := pt2 p.1 p.2.
End points.

(** spacemath's predicates, and the functions outside the scalar record *)
Record geo (A : arith) := Geo {
  g_meet : xy A -> xy A -> xy A -> xy A -> bool;   (* Segment(a,b).intersects(Segment(p,q)).is_nonzero() *)
  g_sdist : xy A -> xy A -> xy A -> A;             (* Segment(a,b).dist(p) *)
  g_dir : xy A -> xy A -> xy A -> orient;          (* Triangle(a,b,c).dir() *)
  g_cr : xy A -> xy A -> xy A -> A;                (* Triangle(a,b,c).circumradius() *)
  g_pert : nat -> A;                               (* the offset of Vertex::perturbed, mesher/mod.rs:61-74, a hash of the id *)
  g_floor : A -> Z }.                              (* f64::floor, then as i64 *)
Global Arguments g_meet {A} _ _ _ _ _.
Global Arguments g_sdist {A} _ _ _ _.
Global Arguments g_dir {A} _ _ _ _.
Global Arguments g_cr {A} _ _ _ _.
Global Arguments g_pert {A} _ _.
Global Arguments g_floor {A} _ _.

(** Vertex, mesher/mod.rs:35-59: an id from a global counter and a point; equality and hashing
    look at the id only.  The model is the id; the coordinates of all vertices created so far are
    a table indexed by id (Vertex::new is private and vertices are only copied, so an id
    determines its point).  Simplification: the u32 counter does not wrap. *)
Notation vertex := nat (only parsing).

(** Segment, bounds.rs:16-17 *)
Notation segment := (nat * nat)%type (only parsing).
(** rev, bounds.rs:26-28; has, bounds.rs:30-32 *)
Definition seg_rev (s : segment) : segment := (s.2, s.1).
Definition seg_has (s : segment) (v : vertex) : bool := (s.1 =? v) || (s.2 =? v).

(** ** Wall, bounds.rs:50-91: the segments from [start] on, as the list the iterator yields.
    [fuel] bounds the walk; the callers give one more than the number of map entries, beyond
    which the iterator never ends. *)
Fixpoint wall_from (fuel : nat) (m : gmap nat nat) (start prev : vertex) : out (list segment) :=
  match fuel with
  | 0 => Fuel
  | S fuel => match m !! prev with
              | None => Ret []
              | Some cur => if cur =? start then Ret [(prev, cur)]
                            else l ← wall_from fuel m start cur; Ret ((prev, cur) :: l)
              end
  end.
Definition wall (m : gmap nat nat) (start : vertex) : out (list segment) := wall_from (S (size m)) m start start.
(** AllWalls, bounds.rs:93-134: the first wall may be empty, a later one may not *)
Definition all_walls_of (m : gmap nat nat) (starts : list vertex) : out (list segment) :=
  match starts with
  | [] => Panic
  | s :: rest => w ← wall m s;
                 ws ← mapM_out (fun t => w ← wall m t; _ ← assert_ (negb (length w =? 0)); Ret w) rest;
                 Ret (w ++ concat ws)
  end.

(** ** PlaneBoundary, bounds.rs:136-155; [b_pts] is the table of all vertices' points *)
Record bound (A : arith) := Bnd {
  b_pts : list (xy A);
  b_verts : list vertex;
  b_starts : list vertex;
  b_map : gmap nat nat;
  b_set : gset segment;
  b_base_starts : list vertex;
  b_base_map : gmap nat nat;
  b_cond : option (strain_cond A);
  b_mat : option (material A);
  b_cons : gmap nat (constr A);
  b_forces : gmap segment (point A);
  b_dcons : gmap segment (constr A) }.
Global Arguments Bnd {A} _ _ _ _ _ _ _ _ _ _ _ _.
Global Arguments b_pts {A} _.
Global Arguments b_verts {A} _.
Global Arguments b_starts {A} _.
Global Arguments b_map {A} _.
Global Arguments b_set {A} _.
Global Arguments b_base_starts {A} _.
Global Arguments b_base_map {A} _.
Global Arguments b_cond {A} _.
Global Arguments b_mat {A} _.
Global Arguments b_cons {A} _.
Global Arguments b_forces {A} _.
Global Arguments b_dcons {A} _.

Section bounds.
Context {A : arith} (g : geo A).
Implicit Types b : bound A.
Local Open Scope arith_scope.
Local Open Scope nat_scope.

(** Vertex::get, mesher/mod.rs:76-78 *)
Definition vget b (v : vertex) : xy A := nth v (b_pts b) (s0, s0).

(** field updates *)
Definition with_pts b pts := Bnd pts (b_verts b) (b_starts b) (b_map b) (b_set b) (b_base_starts b) (b_base_map b)
  (b_cond b) (b_mat b) (b_cons b) (b_forces b) (b_dcons b).
Definition with_verts b vs := Bnd (b_pts b) vs (b_starts b) (b_map b) (b_set b) (b_base_starts b) (b_base_map b)
  (b_cond b) (b_mat b) (b_cons b) (b_forces b) (b_dcons b).
Definition with_segs b m s := Bnd (b_pts b) (b_verts b) (b_starts b) m s (b_base_starts b) (b_base_map b)
  (b_cond b) (b_mat b) (b_cons b) (b_forces b) (b_dcons b).
Definition with_starts b ws bws := Bnd (b_pts b) (b_verts b) ws (b_map b) (b_set b) bws (b_base_map b)
  (b_cond b) (b_mat b) (b_cons b) (b_forces b) (b_dcons b).
Definition with_base b m := Bnd (b_pts b) (b_verts b) (b_starts b) (b_map b) (b_set b) (b_base_starts b) m
  (b_cond b) (b_mat b) (b_cons b) (b_forces b) (b_dcons b).
Definition with_attrs b c f d := Bnd (b_pts b) (b_verts b) (b_starts b) (b_map b) (b_set b) (b_base_starts b) (b_base_map b)
  (b_cond b) (b_mat b) c f d.
Definition with_kind b c m := Bnd (b_pts b) (b_verts b) (b_starts b) (b_map b) (b_set b) (b_base_starts b) (b_base_map b)
  c m (b_cons b) (b_forces b) (b_dcons b).

(** PlaneBoundary::new, bounds.rs:159-176, in a world where the vertices [pts] exist *)
Definition b_new (pts : list (xy A)) : bound A := Bnd pts [] [] ∅ ∅ [] ∅ None None ∅ ∅ ∅.

(** Vertex::new, mesher/mod.rs:56-59 *)
Definition vertex_new b (p : xy A) : bound A * vertex := (with_pts b (b_pts b ++ [p]), length (b_pts b)).

(** store_vertex, bounds.rs:178-182 *)
Definition store_vertex b (p : xy A) : bound A * vertex :=
  let '(b, v) := vertex_new b p in (with_verts b (b_verts b ++ [v]), v).

(** intersects, bounds.rs:271-292; the answer does not depend on the order of the hash set *)
Definition intersects b (p q : xy A) (ignore : segment) : bool :=
  existsb (fun s => negb (seg_has s ignore.1 || seg_has s ignore.2) && g_meet g (vget b s.1) (vget b s.2) p q)
          (elements (b_set b)).

(** store_segment_unchecked, bounds.rs:258-265 *)
Definition store_segment_unchecked b (s : segment) : bound A :=
  with_segs b (<[s.1 := s.2]> (b_map b)) ({[s]} ∪ b_set b).

(** store_segment, bounds.rs:184-196 *)
Definition store_segment b (s : segment) : out (bound A) :=
  if intersects b (vget b s.1) (vget b s.2) s then Panic else Ret (store_segment_unchecked b s).

(** store_base_segment, bounds.rs:198-212 *)
Definition store_base_segment b (s : segment) : out (bound A) :=
  if intersects b (vget b s.1) (vget b s.2) s then Panic
  else Ret (with_base (store_segment_unchecked b s) (<[s.1 := s.2]> (b_base_map b))).

(** set_condition, set_material, bounds.rs:214-228 *)
Definition set_condition b c := with_kind b (Some c) (b_mat b).
Definition set_material b m := with_kind b (b_cond b) (Some m).

(** store_constraint, store_distributed_force, store_distributed_constraint, bounds.rs:230-240 *)
Definition store_constraint b (v : vertex) (c : constr A) := with_attrs b (<[v := c]> (b_cons b)) (b_forces b) (b_dcons b).
Definition store_distributed_force b (v w : vertex) (f : point A) :=
  with_attrs b (b_cons b) (<[(v, w) := f]> (b_forces b)) (b_dcons b).
Definition store_distributed_constraint b (v w : vertex) (c : constr A) :=
  with_attrs b (b_cons b) (b_forces b) (<[(v, w) := c]> (b_dcons b)).

(** is_segment, bounds.rs:242-245 *)
Definition is_segment b (s : segment) : bool := bool_decide (s ∈ b_set b).

(** remove_segment, bounds.rs:247-256 *)
Definition remove_segment b (s : segment) : bound A :=
  let b := with_segs b (delete s.1 (b_map b)) (b_set b ∖ {[s]}) in
  with_attrs b (b_cons b) (delete s (b_forces b)) (delete s (b_dcons b)).

(** all_walls, all_base_walls, bounds.rs:472-481 *)
Definition all_walls b : out (list segment) := all_walls_of (b_map b) (b_starts b).
Definition all_base_walls b : out (list segment) := all_walls_of (b_base_map b) (b_base_starts b).

(** midpoint_visible, bounds.rs:294-319 *)
Definition tolerance : A := slit 1 1000000.
Definition midpoint_visible b (s : segment) (x : vertex) : out bool :=
  let m := xy_mid (vget b s.1) (vget b s.2) in
  walls ← all_base_walls b;
  Ret (forallb (fun w => let a := vget b w.1 in let c := vget b w.2 in
    negb (g_meet g a c m (vget b x)) || (sltb (g_sdist g a c m) tolerance || sltb (g_sdist g a c (vget b x)) tolerance)) walls).

(** store_polygon, bounds.rs:321-348 *)
Definition store_polygon b (poly : list (xy A)) : out (bound A * list vertex) :=
  match poly with
  | [] => Panic
  | p :: poly =>
      let '(b, start) := store_vertex b p in
      let b := with_starts b (b_starts b ++ [start]) (b_base_starts b ++ [start]) in
      r ← foldM (fun p (st : bound A * vertex * list vertex) =>
        let '(b, prev, ids) := st in
        let '(b, i) := store_vertex b p in
        b ← store_base_segment b (prev, i);
        Ret (b, i, ids ++ [i])) poly (b, start, [start]);
      let '(b, prev, ids) := r in
      b ← store_base_segment b (prev, start);
      Ret (b, ids)
  end.

(** [map.remove(&s).or_else(|| map.remove(&s.rev()))], bounds.rs:377-386, 437-446 *)
Definition take_attr {V : Type} (m : gmap segment V) (s : segment) : gmap segment V * option V :=
  match m !! s with
  | Some v => (delete s m, Some v)
  | None => (delete (seg_rev s) m, m !! seg_rev s)
  end.
(** [if let Some(v) = o { map.insert(k, v); }] *)
Definition put_opt {K V : Type} `{Countable K} (m : gmap K V) (k : K) (o : option V) : gmap K V :=
  match o with Some v => <[k := v]> m | None => m end.

(** divide_segment, bounds.rs:350-426 *)
Definition divide_segment b (s : segment) (h : A) : out (bound A) :=
  _ ← assert_ (is_segment b s);
  let a := vget b s.1 in let c := vget b s.2 in
  let dist := xy_dist a c in
  let lower_num := g_floor g (dist / (h * ssqrt (sz 3)))%A in
  let upper_num := g_floor g (dist / h)%A in
  if (lower_num =? upper_num)%Z then Panic else
  let num := upper_num in
  let leg := xy_scale (xy_unit (xy_sub c a)) (dist / sz num)%A in
  let '(fs, dist_f) := take_attr (b_forces b) s in
  let '(ds, dist_c) := take_attr (b_dcons b) s in
  let b := remove_segment (with_attrs b (b_cons b) fs ds) s in
  r ← foldM (fun _ (st : bound A * vertex * xy A) =>
    let '(b, cur, new_point) := st in
    let '(b, i) := store_vertex b new_point in
    let b := store_segment_unchecked b (cur, i) in
    let b := with_attrs b (put_opt (b_cons b) i dist_c) (put_opt (b_forces b) (cur, i) dist_f) (put_opt (b_dcons b) (cur, i) dist_c) in
    Ret (b, i, xy_add new_point leg)) (seq 0 (Z.to_nat (num - 1))) (b, s.1, xy_add a leg);
  let '(b, cur, _) := r in
  let b := with_attrs b (put_opt (put_opt (b_cons b) s.1 dist_c) s.2 dist_c) (b_forces b) (b_dcons b) in
  let b := store_segment_unchecked b (cur, s.2) in
  Ret (with_attrs b (b_cons b) (put_opt (b_forces b) (cur, s.2) dist_f) (b_dcons b)).

(** split_segment, bounds.rs:428-463 *)
Definition split_segment b (s : segment) : out (bound A * (segment * segment * vertex)) :=
  _ ← assert_ (is_segment b s);
  let '(b, m) := store_vertex b (xy_mid (vget b s.1) (vget b s.2)) in
  let '(fs, dist_f) := take_attr (b_forces b) s in
  let '(ds, dist_c) := take_attr (b_dcons b) s in
  let b := remove_segment (with_attrs b (b_cons b) fs ds) s in
  let b := store_segment_unchecked b (s.1, m) in
  let b := store_segment_unchecked b (m, s.2) in
  let b := with_attrs b (b_cons b) (b_forces b) (put_opt (put_opt (b_dcons b) (s.1, m) dist_c) (m, s.2) dist_c) in
  let b := with_attrs b (b_cons b) (put_opt (put_opt (b_forces b) (s.1, m) dist_f) (m, s.2) dist_f) (b_dcons b) in
  Ret (b, ((s.1, m), (m, s.2), m)).

(** divide_all_segments, bounds.rs:465-470; [ord] is the order of the cloned hash set *)
Definition divide_all_segments b (ord : list segment) (h : A) : out (bound A) :=
  foldM (fun s b => divide_segment b s h) ord b.

(** all_distributed_forces, bounds.rs:483-488, in the order [ord] of the map's keys *)
Definition all_distributed_forces b (ord : list segment) : list (segment * point A) :=
  omap (fun s => pair s <$> b_forces b !! s) ord.

(** all_constraints, bounds.rs:490-505: [ord] is the order of the distributed supports; the
    resulting map, which the caller traverses in an order of its own *)
Definition all_constraints b (ord : list segment) : gmap nat (constr A) :=
  fold_left (fun m s => match b_dcons b !! s with Some c => <[s.2 := c]> (<[s.1 := c]> m) | None => m end) ord (b_cons b).
End bounds.
