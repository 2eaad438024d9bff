(** Model of the geometric predicates.  /repo/src/spatial/predicates.rs *)
From Verif Require Export Spatial Inverse.

(** Orient, predicates.rs:7-12 *)
Inductive orient := Negative | Positive | Zero.

(** Line, predicates.rs:145-151 *)
Record line (A : arith) := Line { l_a : A; l_b : A; l_c : A }.
Global Arguments Line {A} _ _ _.
Global Arguments l_a {A} _.
Global Arguments l_b {A} _.
Global Arguments l_c {A} _.

Section predicates.
Context {A : arith}.
Implicit Types p q a b c d : point A.
Local Open Scope arith_scope.

(** a determinant of an n by n array, [ConstMatrix::from_flat_array] followed by [determinant] *)
Definition const_det (n : nat) (rows : list (list A)) : out (result merr A) :=
  m ← cm_from_flat_array (n * n)%nat (n, n) (concat rows); determinant (ML := cm_like (n * n)%nat) m.

(** the row of a point in the array of tetrahedron_dir, predicates.rs:19-25 *)
Definition row3 p : out (list A) := x ← pt_idx p 0; y ← pt_idx p 1; z ← pt_idx p 2; Ret [x; y; z; 1].

(** tetrahedron_dir, predicates.rs:14-43; every error means Zero *)
Definition tetrahedron_dir a b c d : out orient :=
  rows ← mapM_out row3 [a; b; c; d];
  r ← const_det 4 rows;
  match r with
  | Ok v => Ret (if seqb v 0 then Zero else if sltb 0 v then Positive else Negative)
  | Err _ => Ret Zero
  end.

(** bary_coor, predicates.rs:45-58 *)
Definition bary_coor p p1 p2 p3 : out (A * A * A) :=
  xy1 ← pt_pair p1; xy2 ← pt_pair p2; xy3 ← pt_pair p3; xy ← pt_pair p;
  let x1 := xy1.1 in let y1 := xy1.2 in let x2 := xy2.1 in let y2 := xy2.2 in
  let x3 := xy3.1 in let y3 := xy3.2 in let x := xy.1 in let y := xy.2 in
  let denom := (y2 - y3) * (x1 - x3) + (x3 - x2) * (y1 - y3) in
  let a := ((y2 - y3) * (x - x3) + (x3 - x2) * (y - y3)) / denom in
  let b := ((y3 - y1) * (x - x3) + (x1 - x3) * (y - y3)) / denom in
  Ret (a, b, 1 - a - b).

(** [(0.0..=1.0).contains], used in in_triangle *)
Definition in_unit (x : A) : bool := sleb 0 x && sleb x 1.

(** in_triangle, predicates.rs:60-65 *)
Definition in_triangle p p1 p2 p3 : out bool :=
  t ← bary_coor p p1 p2 p3; Ret (in_unit t.1.1 && in_unit t.1.2 && in_unit t.2).

(** the row of a point in the array of in_circle, predicates.rs:74-93 *)
Definition row_circle p : out (list A) := x ← pt_idx p 0; y ← pt_idx p 1; Ret [x; y; ssq x + ssq y; 1].

(** in_circle, predicates.rs:67-101 *)
Definition in_circle p a b c : out bool :=
  rows ← mapM_out row_circle [a; b; c; p];
  r ← const_det 4 rows;
  match r with Ok v => Ret (sltb 0 v) | Err _ => Ret false end.

(** the row of a point in the array of in_sphere, predicates.rs:109-135; the second coordinate
    is squared twice, the third not at all *)
Definition row_sphere p : out (list A) :=
  x ← pt_idx p 0; y ← pt_idx p 1; z ← pt_idx p 2; Ret [x; y; z; ssq x + ssq y + ssq y; 1].

(** in_sphere, predicates.rs:103-143 *)
Definition in_sphere p a b c d : out bool :=
  rows ← mapM_out row_sphere [a; b; c; d; p];
  r ← const_det 5 rows;
  match r with Ok v => Ret (sltb 0 v) | Err _ => Ret false end.

(** Line::from_segment, predicates.rs:154-159 *)
Definition from_segment p q : out (line A) :=
  q1 ← pt_idx q 1; p1 ← pt_idx p 1; p0 ← pt_idx p 0; q0 ← pt_idx q 0;
  let a := q1 - p1 in let b := p0 - q0 in
  Ret (Line a b (a * p0 + b * p1)).

(** Line::perp_bisect, predicates.rs:161-171 *)
Definition perp_bisect p q : out (line A) :=
  al ← from_segment p q;
  let mid := pt_mid p q in
  m0 ← pt_idx mid 0; m1 ← pt_idx mid 1;
  Ret (Line (- (1) * l_b al) (l_a al) (- (1) * l_b al * m0 + l_a al * m1)).

(** Line::intersect, predicates.rs:173-183 *)
Definition intersect (s o : line A) : option (point A) :=
  let det := l_a s * l_b o - l_a o * l_b s in
  if seqb det 0 then None
  else Some (pt2 ((l_b o * l_c s - l_b s * l_c o) / det) ((l_a s * l_c o - l_a o * l_c s) / det)).

(** circumcenter, predicates.rs:186-195 *)
Definition circumcenter p q r : out (option (point A)) :=
  la ← perp_bisect p q; lb ← perp_bisect q r; Ret (intersect la lb).
End predicates.
