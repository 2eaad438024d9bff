(** Model of the pictures.  /repo/src/visual/{bresenham,fill,color,mod}.rs

    Pixel coordinates (u32) and isize values are integers; isize cannot overflow for u32
    coordinates.  Writing the image file and the external image type are replaced by the list of
    pixels written, with the image crate's bounds check of put_pixel.  Roundings to integers are
    parameters (record [raster]); InstVis.v gives them for the reals and for binary64. *)
From Verif Require Export Predicates Buffer.

Notation pix := (Z * Z)%type (only parsing).
Notation rgb := (Z * Z * Z)%type (only parsing).

(** the integers from [a] to [b], the Rust range a..=b *)
Definition zrange (a b : Z) : list Z := map (fun i => (a + Z.of_nat i)%Z) (seq 0 (Z.to_nat (b - a + 1))).

(** line_low, bresenham.rs:28-49 *)
Definition line_low (orig end_ : pix) : list pix :=
  let dx := (end_.1 - orig.1)%Z in
  let dy0 := (end_.2 - orig.2)%Z in
  let y_inc := (if dy0 <? 0 then -1 else 1)%Z in
  let dy := (if dy0 <? 0 then - dy0 else dy0)%Z in
  (fold_left (fun (st : list pix * Z * Z) x =>
     let '(res, y, d) := st in
     if (0 <? d)%Z then (res ++ [(x, y)], (y + y_inc)%Z, (d + 2 * (dy - dx))%Z)
     else (res ++ [(x, y)], y, (d + 2 * dy)%Z)) (zrange orig.1 end_.1) ([], orig.2, (2 * dy - dx)%Z)).1.1.

(** line_high, bresenham.rs:51-72 *)
Definition line_high (orig end_ : pix) : list pix :=
  let dx0 := (end_.1 - orig.1)%Z in
  let dy := (end_.2 - orig.2)%Z in
  let x_inc := (if dx0 <? 0 then -1 else 1)%Z in
  let dx := (if dx0 <? 0 then - dx0 else dx0)%Z in
  (fold_left (fun (st : list pix * Z * Z) y =>
     let '(res, x, d) := st in
     if (0 <? d)%Z then (res ++ [(x, y)], (x + x_inc)%Z, (d + 2 * (dx - dy))%Z)
     else (res ++ [(x, y)], x, (d + 2 * dx)%Z)) (zrange orig.2 end_.2) ([], orig.1, (2 * dx - dy)%Z)).1.1.

(** line, bresenham.rs:12-26 *)
Definition bres_line (orig end_ : pix) : list pix :=
  if (Z.abs (end_.2 - orig.2) <? Z.abs (end_.1 - orig.1))%Z
  then if (end_.1 <? orig.1)%Z then line_low end_ orig else line_low orig end_
  else if (end_.2 <? orig.2)%Z then line_high end_ orig else line_high orig end_.

(** line_unsigned, bresenham.rs:1-10 *)
Definition line_unsigned (orig end_ : pix) : list pix :=
  List.filter (fun p => (0 <? p.1)%Z && (0 <? p.2)%Z) (bres_line orig end_).

(** dot_points, fill.rs:4-15, with DOT_SIZE = 1 (visual/mod.rs:14); u32 arithmetic panics on
    overflow in a debug build *)
Definition dot_points (cx cy : Z) : out (list pix) :=
  _ ← assert_ ((1 <=? cx)%Z && (cx + 1 <? 2 ^ 32)%Z);
  _ ← assert_ ((1 <=? cy)%Z && (cy + 1 <? 2 ^ 32)%Z);
  Ret (concat (map (fun x => map (fun y => (x, y)) (zrange (cy - 1) (cy + 1))) (zrange (cx - 1) (cx + 1)))).

Section visual.
Context {A : arith}.
Local Open Scope arith_scope.

(** triangle_interp, fill.rs:17-38 *)
Definition pix_pt (p : pix) : point A := pt2 (sz p.1) (sz p.2).
Definition triangle_interp (t : pix * pix * pix) (v : A * A * A) : out (list (pix * A)) :=
  let '(p, q, r) := t in
  let hi := Z.max (Z.max p.1 q.1) r.1 in let lo := Z.min (Z.min p.1 q.1) r.1 in
  let hi' := Z.max (Z.max p.2 q.2) r.2 in let lo' := Z.min (Z.min p.2 q.2) r.2 in
  foldM (fun x res =>
    foldM (fun y (res : list (pix * A)) =>
      inside ← in_triangle (pix_pt (x, y)) (pix_pt p) (pix_pt q) (pix_pt r);
      if (inside : bool) then
        w ← bary_coor (pix_pt (x, y)) (pix_pt p) (pix_pt q) (pix_pt r);
        Ret (res ++ [((x, y), w.1.1 * v.1.1 + w.1.2 * v.1.2 + w.2 * v.2)])
      else Ret res) (zrange lo' hi') res) (zrange lo hi) [].

(** [x.round() as u32] and [x.round() as u8] *)
Record raster := Raster { ra_u32 : A -> Z; ra_u8 : A -> Z }.

(** f64::min, f64::max (a NaN operand is passed over) and f64::clamp (NaN stays NaN) *)
Definition fmin (x y : A) : A := if sltb y x || negb (seqb x x) then y else x.
Definition fmax (x y : A) : A := if sltb x y || negb (seqb x x) then y else x.
Definition clamp (lo hi x : A) : A := if sltb x lo then lo else if sltb hi x then hi else x.

(** hot_map, color.rs:12-19 *)
Definition hot_map (ra : raster) (val : A) : rgb :=
  let val := fmax (fmin val 1) 0 in
  let r := clamp 0 (sz 255) (val * sz 3 * sz 255) in
  let g := clamp 0 (sz 255) ((val * sz 3 - 1) * sz 255) in
  let b := clamp 0 (sz 255) ((val * sz 3 - sz 2) * sz 255) in
  (ra_u8 ra r, ra_u8 ra g, ra_u8 ra b).

(** peak, color.rs:25-31; rgb_map, color.rs:33-39 *)
Definition peak (top : A * A) (slope val : A) : A :=
  if sltb val top.1 then slope * (val - top.1) + top.2 else sneg 1 * slope * (val - top.1) + top.2.
Definition rgb_map (ra : raster) (val : A) : rgb :=
  let r := clamp 0 (sz 255) (peak (slit 3 4, slit 3 2) (sz 4) val * sz 255) in
  let g := clamp 0 (sz 255) (peak (slit 1 2, slit 3 2) (sz 4) val * sz 255) in
  let b := clamp 0 (sz 255) (peak (slit 1 4, slit 3 2) (sz 4) val * sz 255) in
  (ra_u8 ra r, ra_u8 ra g, ra_u8 ra b).

(** Iterator::min_by and max_by with [partial_cmp().unwrap()], and the unwrap of the result *)
Definition min_by (l : list A) : out A :=
  match l with
  | [] => Panic
  | x :: l => foldM (fun y m => c ← unwrap (scmp m y); Ret (match c with Gt => y | _ => m end)) l x
  end.
Definition max_by (l : list A) : out A :=
  match l with
  | [] => Panic
  | x :: l => foldM (fun y m => c ← unwrap (scmp m y); Ret (match c with Gt => m | _ => y end)) l x
  end.

(** Visualizer, visual/mod.rs:53-63 *)
Record visual := Vis {
  vz_dim : nat;
  vz_size : Z;
  vz_points : list (point A);
  vz_colors : list nat;
  vz_edges : option (list (nat * nat));
  vz_tris : option (list (nat * nat * nat));
  vz_vals : option (list A);
  vz_range : option (A * A) }.

(** From<Vec<Point>>, visual/mod.rs:224-242 *)
Definition vis_new (points : list (point A)) : out visual :=
  p ← idx points 0;
  if existsb (fun q => negb (p_n q =? p_n p)) points then Panic
  else Ret (Vis (p_n p) 256 points (replicate (length points) 0%nat) None None None None).

(** add_points, visual/mod.rs:66-74 *)
Definition add_points (v : visual) (points : list (point A)) (color : nat) : out visual :=
  match vz_vals v with
  | Some _ => Panic
  | None => Ret (Vis (vz_dim v) (vz_size v) (vz_points v ++ points) (vz_colors v ++ replicate (length points) color)
                     (vz_edges v) (vz_tris v) (vz_vals v) (vz_range v))
  end.

(** set_vals, visual/mod.rs:76-99 *)
Definition scaled (lo hi : A) (x : A) : A := clamp 0 1 ((x - lo) / (hi - lo)).
Definition set_vals (v : visual) (vals : list A) : out visual :=
  if negb (length vals =? length (vz_points v)) then Panic else
  lo ← min_by vals; hi ← max_by vals;
  Ret (Vis (vz_dim v) (vz_size v) (vz_points v) (vz_colors v) (vz_edges v) (vz_tris v)
           (Some (map (scaled lo hi) vals)) (Some (lo, hi))).

(** set_edges and set_triangles, visual/mod.rs:101-107 *)
Definition set_edges (v : visual) (es : list (nat * nat)) : visual :=
  Vis (vz_dim v) (vz_size v) (vz_points v) (vz_colors v) (match es with [] => None | _ => Some es end) (vz_tris v) (vz_vals v) (vz_range v).
Definition set_triangles (v : visual) (ts : list (nat * nat * nat)) : visual :=
  Vis (vz_dim v) (vz_size v) (vz_points v) (vz_colors v) (vz_edges v) (match ts with [] => None | _ => Some ts end) (vz_vals v) (vz_range v).

(** rotation_matrix, visual/mod.rs:251-271, and project, visual/mod.rs:273-290 *)
Definition rotation_matrix (x_ang y_ang : A) : out (lm A) :=
  a ← from_rows (M := lm A) [[1; 0; 0]; [0; scos x_ang; - ssin x_ang]; [0; ssin x_ang; scos x_ang]];
  b ← from_rows (M := lm A) [[scos y_ang; 0; ssin y_ang]; [0; 1; 0]; [- ssin y_ang; 0; scos y_ang]];
  mmul a b.
Definition project3 (points : list (point A)) : out (list (A * A)) :=
  r ← rotation_matrix (slit 79 100) (slit 5 10);
  m ← from_points_row (M := lm A) points;
  let m := lm_transpose m in
  if negb ((mshape m).1 =? 3) then Panic else
  q ← mmul (M3 := lm A) r m;
  xs ← row q 0; ys ← row q 1;
  Ret (zip xs ys).

(** project, visual/mod.rs:109-130 *)
Definition vis_project (v : visual) : out (list (A * A)) :=
  match vz_dim v with
  | 1 => mapM_out (fun p => x ← pt_idx p 0; Ret (x, 0)) (vz_points v)
  | 2 => mapM_out (fun p => x ← pt_idx p 0; y ← pt_idx p 1; Ret (x, y)) (vz_points v)
  | 3 => project3 (vz_points v)
  | _ => Panic
  end.

(** enpixel, visual/mod.rs:132-162, on the projected points *)
Definition place (size : Z) (scaling mx my : A) (p : A * A) : A * A :=
  ((p.1 - mx) * scaling + sz size / sz 2, sneg 1 * (p.2 - my) * scaling + sz size / sz 2).
Definition enpixel (ra : raster) (size : Z) (coors : list (A * A)) : out (list pix) :=
  let xs := map fst coors in let ys := map snd coors in
  x_max ← max_by xs; x_min ← min_by xs; y_max ← max_by ys; y_min ← min_by ys;
  let x_range := x_max - x_min in let y_range := y_max - y_min in
  let max_range := if sltb y_range x_range then x_range else y_range in
  let scaling := slit 8 10 * sz size / max_range in
  let middle_x := (x_max + x_min) / sz 2 in let middle_y := (y_max + y_min) / sz 2 in
  Ret (map (fun p => let q := place size scaling middle_x middle_y p in (ra_u32 ra q.1, ra_u32 ra q.2)) coors).

(** put_pixel of the image crate: panics outside the image *)
Definition put_pixel (size : Z) (im : list (pix * rgb)) (p : pix) (c : rgb) : out (list (pix * rgb)) :=
  if (0 <=? p.1)%Z && (p.1 <? size)%Z && (0 <=? p.2)%Z && (p.2 <? size)%Z then Ret (im ++ [(p, c)]) else Panic.
Definition put_pixels (size : Z) (im : list (pix * rgb)) (l : list (pix * rgb)) : out (list (pix * rgb)) :=
  foldM (fun pc im => put_pixel size im pc.1 pc.2) l im.

(** STDCOL, color.rs:3-8 *)
Definition stdcol : list rgb := [(255, 0, 0); (255, 255, 0); (0, 0, 255); (255, 0, 255)]%Z.

(** draw, visual/mod.rs:164-221: the pixels written, in order, for an image of the given size;
    [cm] is the chosen colour map *)
Definition draw (ra : raster) (size : Z) (cm : option (A -> rgb)) (show_mesh : bool) (v : visual) : out (list (pix * rgb)) :=
  coors ← vis_project v;
  px ← enpixel ra size coors;
  im ← (match vz_tris v, vz_vals v with
        | Some ts, Some vals =>
            foldM (fun (t : nat * nat * nat) im =>
              p ← idx px t.1.1; q ← idx px t.1.2; r ← idx px t.2;
              a ← idx vals t.1.1; b ← idx vals t.1.2; c ← idx vals t.2;
              l ← triangle_interp (p, q, r) (a, b, c);
              put_pixels size im (map (fun pv : pix * A => (pv.1, default (hot_map ra) cm pv.2)) l)) ts []
        | _, _ => Ret []
        end);
  if show_mesh then
    im ← (match vz_edges v with
          | None => Ret im
          | Some es =>
              foldM (fun (e : nat * nat) im =>
                match px !! e.1, px !! e.2 with
                | Some o, Some e => put_pixels size im (map (fun p => (p, (0, 255, 0)%Z)) (line_unsigned o e))
                | _, _ => Ret im
                end) es im
          end);
    foldM (fun (pc : pix * nat) im =>
      l ← dot_points pc.1.1 pc.1.2;
      foldM (fun d im => c ← idx stdcol pc.2; put_pixel size im d c) l im) (zip px (vz_colors v)) im
  else Ret im.
End visual.
Global Arguments raster _ : clear implicits.
Global Arguments visual _ : clear implicits.
