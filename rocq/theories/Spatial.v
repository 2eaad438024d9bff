(** Model of points.  /repo/src/spatial/mod.rs *)
From Verif Require Export Matrix.

(** Point, mod.rs:30-34; [data: [f64; 3]] as three fields *)
Record point (A : arith) := Pt { p_n : nat; p_x : A; p_y : A; p_z : A }.
Global Arguments Pt {A} _ _ _ _.
Global Arguments p_n {A} _.
Global Arguments p_x {A} _.
Global Arguments p_y {A} _.
Global Arguments p_z {A} _.

Section point.
Context {A : arith}.
Implicit Types p q : point A.
Local Open Scope arith_scope.

(** the number 2.0 *)
Definition s2 : A := sz 2.

(** From<(f64, f64)>, mod.rs:127-131, through Point::new, mod.rs:41-47 *)
Definition pt2 (x y : A) : point A := Pt 2 x y s0.

(** From<(f64, f64, f64)>, mod.rs:149-153 *)
Definition pt3 (x y z : A) : point A := Pt 3 x y z.

(** Point::new, mod.rs:41-47 *)
Definition pt_new (vals : list A) : out (point A) :=
  match vals with
  | [] => Ret (Pt 0 s0 s0 s0)
  | [x] => Ret (Pt 1 x s0 s0)
  | [x; y] => Ret (Pt 2 x y s0)
  | [x; y; z] => Ret (Pt 3 x y z)
  | _ => Panic
  end.

(** Point::zero, mod.rs:49-51 *)
Definition pt_zero (n : nat) : point A := Pt n s0 s0 s0.

(** Index, mod.rs:206-215: the dimension is checked, then the array bound *)
Definition pt_idx p (i : nat) : out A :=
  if p_n p <=? i then Panic else
  match i with 0 => Ret (p_x p) | 1 => Ret (p_y p) | 2 => Ret (p_z p) | _ => Panic end.

(** IndexMut, mod.rs:217-225, with the assignment of [v] *)
Definition pt_set p (i : nat) (v : A) : out (point A) :=
  if p_n p <=? i then Panic else
  match i with
  | 0 => Ret (Pt (p_n p) v (p_y p) (p_z p))
  | 1 => Ret (Pt (p_n p) (p_x p) v (p_z p))
  | 2 => Ret (Pt (p_n p) (p_x p) (p_y p) v)
  | _ => Panic
  end.

(** mid, mod.rs:53-62 *)
Definition pt_mid p q : point A :=
  Pt (p_n p `min` p_n q) ((p_x p + p_x q) / s2) ((p_y p + p_y q) / s2) ((p_z p + p_z q) / s2).

(** Add, mod.rs:227-244 *)
Definition pt_add p q : out (point A) :=
  if negb (p_n p =? p_n q) then Panic
  else Ret (Pt (p_n p) (p_x p + p_x q) (p_y p + p_y q) (p_z p + p_z q)).

(** Sub, mod.rs:246-263 *)
Definition pt_sub p q : out (point A) :=
  if negb (p_n p =? p_n q) then Panic
  else Ret (Pt (p_n p) (p_x p - p_x q) (p_y p - p_y q) (p_z p - p_z q)).

(** Mul<f64>, mod.rs:265-279 *)
Definition pt_scale p (k : A) : point A := Pt (p_n p) (p_x p * k) (p_y p * k) (p_z p * k).

(** norm, mod.rs:74-76.  [powi(2)] is one multiplication. *)
Definition pt_norm p : A := ssqrt (ssq (p_x p) + ssq (p_y p) + ssq (p_z p)).

(** dist, mod.rs:64-67 *)
Definition pt_dist p q : out A := v ← pt_sub p q; Ret (pt_norm v).

(** dot, mod.rs:69-72 *)
Definition pt_dot p q : out A :=
  l ← mapM_out (fun i => x ← pt_idx p i; y ← pt_idx q i; Ret (x * y)) (range 0 (p_n p `min` p_n q));
  Ret (ssum l).

(** unit, mod.rs:78-86 *)
Definition pt_unit p : point A :=
  let n := pt_norm p in Pt (p_n p) (p_x p / n) (p_y p / n) (p_z p / n).

(** to_vec, mod.rs:88-94 *)
Definition pt_to_vec p : out (list A) := mapM_out (pt_idx p) (range 0 (p_n p)).

(** TryInto<(f64, f64)>, mod.rs:133-141, followed by the caller's expect *)
Definition pt_pair p : out (A * A) :=
  if negb (p_n p =? 2) then Panic else x ← pt_idx p 0; y ← pt_idx p 1; Ret (x, y).

(** From<Point> for Vec<f64>, mod.rs:180-189 *)
Definition pt_into_vec p : out (list A) :=
  match p_n p with
  | 1 => x ← pt_idx p 0; Ret [x]
  | 2 => x ← pt_idx p 0; y ← pt_idx p 1; Ret [x; y]
  | 3 => x ← pt_idx p 0; y ← pt_idx p 1; z ← pt_idx p 2; Ret [x; y; z]
  | _ => Panic
  end.

(** from_points_row, /repo/src/matrix/mod.rs:312-325 *)
Definition from_points_row {M} `{MatrixLike A M} (ps : list (point A)) : out M :=
  match ps with
  | [] => Panic
  | p0 :: _ =>
    rows ← mapM_out (fun p => if negb (p_n p =? p_n p0) then Panic else pt_into_vec p) ps;
    from_rows rows
  end.
End point.
