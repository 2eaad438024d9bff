(** Model of the sparse storage layouts.  /repo/src/matrix/sparse.rs *)
From Verif Require Export Buffer Perm.

(** Entry<usize>, sparse.rs:9-14 *)
Inductive entry := EOob | EZero | EData (i : nat).

(** ** CompressedRow, sparse.rs:20-27 *)
Record crow (A : arith) := CR {
  cr_shape : nat * nat; cr_nz : nat; cr_data : list A; cr_cols : list nat; cr_starts : list nat }.
Global Arguments CR {A} _ _ _ _ _.
Global Arguments cr_shape {A} _.
Global Arguments cr_nz {A} _.
Global Arguments cr_data {A} _.
Global Arguments cr_cols {A} _.
Global Arguments cr_starts {A} _.

(** ** LowerRowEnvelope, sparse.rs:32-38 *)
Record lenv (A : arith) := LE {
  lev_n : nat; le_data : list A; le_nnz : list nat; le_starts : list nat }.
Global Arguments LE {A} _ _ _ _.
Global Arguments lev_n {A} _.
Global Arguments le_data {A} _.
Global Arguments le_nnz {A} _.
Global Arguments le_starts {A} _.

(** ** BiEnvelope, sparse.rs:43-49 *)
Record bienv (A : arith) := BE {
  be_n : nat; be_data : list A; be_bounds : list (nat * nat); be_starts : list nat }.
Global Arguments BE {A} _ _ _ _.
Global Arguments be_n {A} _.
Global Arguments be_data {A} _.
Global Arguments be_bounds {A} _.
Global Arguments be_starts {A} _.

(** ** Dictionary, sparse.rs:53-57.  Simplification: the HashMap is a finite map; every
    traversal takes the order in which the hash map happens to yield its entries as an
    explicit argument, and the theorems quantify over all such orders. *)
Record dict (A : arith) := Dict { d_shape : nat * nat; d_data : gmap (nat * nat) A }.
Global Arguments Dict {A} _ _.
Global Arguments d_shape {A} _.
Global Arguments d_data {A} _.

(** Vec::resize *)
Definition resize {B} (n : nat) (v : B) (l : list B) : list B :=
  take n l ++ replicate (n - length l) v.

Section crow.
Context {A : arith}.

(** the end of a row: the next row's start or the given default, sparse.rs:71-75 *)
Definition row_end (starts : list nat) (row dflt : nat) : nat := default dflt (starts !! (row + 1)).

(** the linear search of sparse.rs:78-84 *)
Fixpoint cr_find (cols : list nat) (col : nat) (l : list nat) : out entry :=
  match l with
  | [] => Ret EZero
  | i :: l' => ci ← idx cols i; if ci =? col then Ret (EData i) else cr_find cols col l'
  end.

(** pos, sparse.rs:62-85 *)
Definition cr_pos (m : crow A) (loc : nat * nat) : out entry :=
  if ((cr_shape m).2 <=? loc.2) || ((cr_shape m).1 <=? loc.1) then Ret EOob
  else rstart ← idx (cr_starts m) loc.1;
       cr_find (cr_cols m) loc.2 (range rstart (row_end (cr_starts m) loc.1 (cr_nz m))).

(** row_nzs, sparse.rs:93-107 with the iterator of sparse.rs:1076-1095, collected *)
Definition row_nzs (m : crow A) (row : nat) : out (list (nat * A)) :=
  rstart ← idx (cr_starts m) row;
  mapM_out (fun i => v ← idx (cr_data m) i; c ← idx (cr_cols m) i; Ret (c, v))
           (range rstart (row_end (cr_starts m) row (cr_nz m))).

(** from_labeled_vals, sparse.rs:109-145 *)
Definition label_starts (rows : list nat) : list nat * nat :=
  fold_left (fun (st : list nat * nat) (ir : nat * nat) =>
               (st.1 ++ replicate (ir.2 - st.2) ir.1, st.2 `max` ir.2))
            (zip (seq 0 (length rows)) rows) ([0], 0).
Definition from_labeled_vals (shape : nat * nat) (vals : list ((nat * nat) * A)) : crow A :=
  let vals := sort_by (fun x y => lex_le x.1 y.1) vals in
  CR shape (length vals) (map snd vals) (map (fun v => v.1.2) vals)
     (resize shape.1 (length vals) (label_starts (map (fun v => v.1.1) vals)).1).

(** get, sparse.rs:665-671 *)
Definition cr_get (m : crow A) (loc : nat * nat) : out (option A) :=
  e ← cr_pos m loc;
  match e with
  | EData i => x ← get_unchecked (cr_data m) i; Ret (Some x)
  | EZero => Ret (Some s0)
  | EOob => Ret None
  end.

(** get_mut, sparse.rs:673-679 *)
Definition cr_mut (m : crow A) (loc : nat * nat) (f : A -> A) : out (option (crow A)) :=
  e ← cr_pos m loc;
  match e with
  | EData i => d ← upd_unchecked (cr_data m) i f;
               Ret (Some (CR (cr_shape m) (cr_nz m) d (cr_cols m) (cr_starts m)))
  | _ => Ret None
  end.

(** zeros, sparse.rs:686-696 *)
Definition cr_zeros (shape : nat * nat) : crow A := CR shape 0 [] [] [].

(** from_flat, sparse.rs:698-730: the values beyond the shape are not looked at.
    The state is (remaining values, data, col_indices, row_starts); nz_count is the
    length of data. *)
Definition cr_from_flat (shape : nat * nat) (vals : list A) : out (crow A) :=
  st ← foldM (fun (_ : nat) (st : list A * list A * list nat * list nat) =>
         let '(vals, data, cols, starts) := st in
         vdc ← foldM (fun c (st : list A * list A * list nat) =>
                  let '(vals, data, cols) := st in
                  match vals with
                  | [] => Panic
                  | v :: vals' => Ret (if seqb v s0 then (vals', data, cols)
                                       else (vals', data ++ [v], cols ++ [c]))
                  end) (range 0 shape.2) (vals, data, cols);
         Ret (vdc.1.1, vdc.1.2, vdc.2, starts ++ [length data]))
       (range 0 shape.1) (vals, [], [], []);
  let '(_, data, cols, starts) := st in
  Ret (CR shape (length data) data cols starts).

Global Instance cr_like : MatrixLike A (crow A) := {|
  mshape := cr_shape;
  mget := cr_get;       (* Index, sparse.rs:965-974, has the same three cases *)
  mmut := cr_mut;       (* IndexMut, sparse.rs:976-984, panics where get_mut is None *)
  mtranspose := fun _ => Panic;       (* unimplemented!(), sparse.rs:681-684 *)
  mzeros := fun s => Ret (cr_zeros s);
  mfrom_flat := cr_from_flat |}.

(** mul, sparse.rs:734-766 *)
Definition cr_mul {T U} `{MatrixLike A T} `{MatrixLike A U} (m : crow A) (other : T) : out U :=
  if negb ((cr_shape m).2 =? (mshape other).1) then Panic
  else
    vals ← foldM (fun r acc =>
             foldM (fun c acc =>
               b ← idx (cr_starts m) r;
               l ← mapM_out (fun i => x ← idx (cr_data m) i; ci ← idx (cr_cols m) i;
                                      y ← index other (ci, c); Ret (smul x y))
                            (range b (row_end (cr_starts m) r (length (cr_data m))));
               Ret (acc ++ [ssum l])) (range 0 (mshape other).2) acc)
           (range 0 (cr_shape m).1) [];
    mfrom_flat ((cr_shape m).1, (mshape other).2) vals.
End crow.

Section lenv.
Context {A : arith}.

(** row_pos, sparse.rs:149-158 *)
Definition le_row_pos (m : lenv A) (row : nat) : out (nat * nat * nat) :=
  start ← idx (le_starts m) row;
  nnz ← idx (le_nnz m) row;
  dg ← usub (start + nnz) 1;
  sc ← usub (row + 1) nnz;
  Ret (start, dg, sc).

(** pos, sparse.rs:160-183 *)
Definition le_pos (m : lenv A) (loc : nat * nat) : out entry :=
  if (lev_n m <=? loc.1) || (lev_n m <=? loc.2) then Ret EOob
  else if loc.1 <? loc.2 then Ret EZero
  else nnz ← idx (le_nnz m) loc.1;
       sc ← usub (loc.1 + 1) nnz;
       if loc.2 <? sc then Ret EZero
       else start ← idx (le_starts m) loc.1; Ret (EData (start + (loc.2 - sc))).

(** from_envelope, sparse.rs:185-210 *)
Definition from_envelope (env : list nat) : out (lenv A) :=
  if existsb (fun rx : nat * nat => rx.1 + 1 <? rx.2) (zip (seq 0 (length env)) env) then Panic
  else
    starts ← foldM (fun x starts =>
                      if x =? 0 then Panic
                      else l ← unwrap (last starts); Ret (starts ++ [l + x])) env [0];
    Ret (LE (length env) (replicate (sum_list env) s0) env (take (length starts - 1) starts)).

(** envelope, sparse.rs:212-214 *)
Definition le_envelope (m : lenv A) : list nat := le_nnz m.

(** row_stored, sparse.rs:216-221 *)
Definition le_row_stored (m : lenv A) (row : nat) : out (nat * list A) :=
  p ← le_row_pos m row;
  let '(start, dg, sc) := p in
  s ← slice (le_data m) start (dg + 1);
  Ret (sc, s).

(** row_stored_nodiag, sparse.rs:228-233 *)
Definition le_row_stored_nodiag (m : lenv A) (row : nat) : out (nat * list A) :=
  p ← le_row_pos m row;
  let '(start, dg, sc) := p in
  s ← slice (le_data m) start dg;
  Ret (sc, s).

(** replacing the contents of the slice returned by row_stored_mut, sparse.rs:223-226;
    [row'] must have the slice's length *)
Definition le_row_write (m : lenv A) (row : nat) (row' : list A) : out (lenv A) :=
  p ← le_row_pos m row;
  let '(start, dg, sc) := p in
  s ← slice (le_data m) start (dg + 1);
  _ ← assert_ (length row' =? length s);
  Ret (LE (lev_n m) (take start (le_data m) ++ row' ++ drop (dg + 1) (le_data m))
          (le_nnz m) (le_starts m)).

(** [row.iter().zip(start..).map(|(val, col)| val * x[col]).sum()], sparse.rs:244-248 *)
Definition dot_at (row : list A) (start : nat) (x : list A) : out A :=
  l ← mapM_out (fun vc : A * nat => xc ← idx x vc.2; Ret (smul vc.1 xc))
               (zip row (seq start (length row)));
  Ret (ssum l).

(** solve, sparse.rs:235-252 *)
Definition le_solve (m : lenv A) (b x : list A) : out (list A) :=
  _ ← assert_ (lev_n m =? length b);
  _ ← assert_ (lev_n m =? length x);
  foldM (fun i x =>
           sr ← le_row_stored m i;
           dot ← dot_at sr.2 sr.1 x;
           bi ← idx b i;
           d ← unwrap (last sr.2);
           set x i (sdiv (ssub bi dot) d))
        (range 0 (lev_n m)) x.

(** solve_submatrix, sparse.rs:254-284 *)
Definition le_solve_sub (m : lenv A) (b x : list A) (lo hi : nat) : out (list A) :=
  _ ← assert_ (length b =? length x);
  w ← usub hi lo;
  _ ← assert_ (length b =? w);
  if lev_n m <? hi then Panic
  else
    foldM (fun (ii : nat * nat) x =>
             let '(sub_i, i) := ii in
             sr ← le_row_stored m i;
             let offset := if sr.1 <? lo then lo - sr.1 else 0 in
             rs ← slice sr.2 offset (length sr.2);
             ssc ← usub (sr.1 + offset) lo;
             dot ← dot_at rs ssc x;
             bi ← idx b sub_i;
             d ← unwrap (last rs);
             set x sub_i (sdiv (ssub bi dot) d))
          (zip (seq 0 (hi - lo)) (range lo hi)) x.

(** solve_transposed, sparse.rs:286-310 *)
Definition le_solve_t (m : lenv A) (y x : list A) : out (list A) :=
  _ ← assert_ (lev_n m =? length y);
  _ ← assert_ (lev_n m =? length x);
  foldM (fun i x =>
           xi ← idx x i;
           if seqb xi s0 then Ret x
           else
             sr ← le_row_stored m i;
             d ← unwrap (last sr.2);
             let s := sdiv xi d in
             x ← set x i s;
             let row := take (length sr.2 - 1) sr.2 in
             foldM (fun (vc : A * nat) x =>
                      xc ← idx x vc.2; set x vc.2 (ssub xc (smul s vc.1)))
                   (zip row (seq sr.1 (length row))) x)
        (rev (range 0 (lev_n m))) y.

(** from_bienv, sparse.rs:317-347 *)
Definition le_from_bienv (b : bienv A) : out (lenv A) :=
  st ← foldM (fun row (st : list A * list nat * list nat) =>
         let '(data, starts, nnzs) := st in
         be ← idx (be_bounds b) row;
         if (row <? be.1) || (be.2 <=? row) then Panic
         else
           nnz ← usub (row + 1) be.1;
           bs ← idx (be_starts b) row;
           s ← slice (be_data b) bs (bs + nnz);
           Ret (data ++ s, starts ++ [length data], nnzs ++ [nnz]))
       (range 0 (be_n b)) ([], [], []);
  Ret (LE (be_n b) st.1.1 st.2 st.1.2).

(** get, sparse.rs:774-780 *)
Definition le_get (m : lenv A) (loc : nat * nat) : out (option A) :=
  e ← le_pos m loc;
  match e with
  | EData i => x ← get_unchecked (le_data m) i; Ret (Some x)
  | EZero => Ret (Some s0)
  | EOob => Ret None
  end.

(** get_mut, sparse.rs:782-788 *)
Definition le_mut (m : lenv A) (loc : nat * nat) (f : A -> A) : out (option (lenv A)) :=
  e ← le_pos m loc;
  match e with
  | EData i => d ← upd_unchecked (le_data m) i f;
               Ret (Some (LE (lev_n m) d (le_nnz m) (le_starts m)))
  | _ => Ret None
  end.
End lenv.

Section bienv.
Context {A : arith}.

(** pos, sparse.rs:375-398 *)
Definition be_pos (m : bienv A) (loc : nat * nat) : out entry :=
  if (be_n m <=? loc.1) || (be_n m <=? loc.2) then Ret EOob
  else se ← idx (be_bounds m) loc.1;
       if loc.2 <? se.1 then Ret EZero
       else if se.2 <=? loc.2 then Ret EZero
       else start ← idx (be_starts m) loc.1; Ret (EData (start + (loc.2 - se.1))).

(** from_row_bounds, sparse.rs:400-420 (b - a with overflow check; see Overflow.v for
    the wrapping build) *)
Definition from_row_bounds (bnd : list (nat * nat)) : out (bienv A) :=
  starts ← foldM (fun (ab : nat * nat) starts =>
                    len ← usub ab.2 ab.1;
                    l ← unwrap (last starts); Ret (starts ++ [l + len])) bnd [0];
  l ← unwrap (last starts);
  Ret (BE (length bnd) (replicate l s0) bnd starts).

(** row_stored, sparse.rs:422-431 *)
Definition be_row_stored (m : bienv A) (row : nat) : out (nat * list A) :=
  se ← idx (be_bounds m) row;
  len ← usub se.2 se.1;
  start ← idx (be_starts m) row;
  s ← slice (be_data m) start (start + len);
  Ret (se.1, s).

(** mul_vec, sparse.rs:433-447 *)
Definition be_mul_vec (m : bienv A) (x y : list A) : out (list A) :=
  _ ← assert_ (length x =? length y);
  _ ← assert_ (be_n m =? length y);
  foldM (fun row y =>
           sr ← be_row_stored m row;
           xs ← slice x sr.1 (length x);
           set y row (ssum (zip_with smul xs sr.2)))
        (range 0 (be_n m)) y.

(** get, sparse.rs:867-873 *)
Definition be_get (m : bienv A) (loc : nat * nat) : out (option A) :=
  e ← be_pos m loc;
  match e with
  | EData i => x ← get_unchecked (be_data m) i; Ret (Some x)
  | EZero => Ret (Some s0)
  | EOob => Ret None
  end.

(** get_mut, sparse.rs:875-881 *)
Definition be_mut (m : bienv A) (loc : nat * nat) (f : A -> A) : out (option (bienv A)) :=
  e ← be_pos m loc;
  match e with
  | EData i => d ← upd_unchecked (be_data m) i f;
               Ret (Some (BE (be_n m) d (be_bounds m) (be_starts m)))
  | _ => Ret None
  end.

Global Instance be_like : MatrixLike A (bienv A) := {|
  mshape := fun m => (be_n m, be_n m);
  mget := be_get;       (* Index, sparse.rs:1019-1028 *)
  mmut := be_mut;       (* IndexMut, sparse.rs:1030-1038 *)
  mtranspose := fun _ => Panic;       (* unimplemented!(), sparse.rs:883-885 *)
  mzeros := fun _ => Panic;           (* unimplemented!(), sparse.rs:887-890 *)
  mfrom_flat := fun _ _ => Panic      (* unimplemented!(), sparse.rs:892-895 *) |}.

(** add_scaled_bienv, sparse.rs:349-371.  [zip_axpy] is the zip of the skipped
    iter_mut with the other row. *)
Fixpoint zip_axpy (s b : list A) (scale : A) : list A :=
  match s, b with
  | x :: s', y :: b' => sadd x (smul y scale) :: zip_axpy s' b' scale
  | _, _ => s
  end.
Definition add_scaled_bienv (m : lenv A) (b : bienv A) (scale : A) : out (lenv A) :=
  _ ← assert_ (lev_n m =? be_n b);
  foldM (fun row m =>
           br ← be_row_stored b row;
           sr ← le_row_stored m row;
           if br.1 <? sr.1 then Panic
           else let offset := br.1 - sr.1 in
                le_row_write m row (take offset sr.2 ++ zip_axpy (drop offset sr.2) br.2 scale))
        (range 0 (lev_n m)) m.

(** LowerRowEnvelope::from_flat, sparse.rs:799-859.  Inner state: (remaining values,
    in_env, row_nnz, to_set). *)
Definition le_flat_cell (row col : nat) (st : list A * bool * nat * list ((nat * nat) * A))
  : out (list A * bool * nat * list ((nat * nat) * A)) :=
  let '(vals, in_env, nnz, to_set) := st in
  match vals with
  | [] => Panic
  | v :: vals' =>
    if in_env then
      if row <? col then
        if seqb v s0 then Ret (vals', false, nnz, to_set) else Panic
      else Ret (vals', true, nnz + 1, to_set ++ [((row, col), v)])
    else
      if row <? col then
        if seqb v s0 then Ret (vals', false, nnz, to_set) else Panic
      else if seqb v s0 then Ret (vals', false, nnz, to_set)
      else Ret (vals', true, nnz + 1, to_set ++ [((row, col), v)])
  end.
End bienv.

Section lenv_like.
Context {A : arith}.

(** the part of the instance [from_flat] needs *)
Definition le_set (m : lenv A) (loc : nat * nat) (v : A) : out (lenv A) :=
  o ← le_mut m loc (fun _ => v); unwrap o.

Definition le_from_flat (shape : nat * nat) (vals : list A) : out (lenv A) :=
  if negb (shape.1 =? shape.2) then Panic
  else
    st ← foldM (fun row (st : list A * list nat * list ((nat * nat) * A)) =>
           let '(vals, env, to_set) := st in
           r ← foldM (le_flat_cell row) (range 0 shape.2) (vals, false, 0, to_set);
           let '(vals, _, nnz, to_set) := r in
           Ret (vals, env ++ [nnz], to_set))
         (range 0 shape.2) (vals, [], []);
    m ← from_envelope st.1.2;
    foldM (fun (lv : (nat * nat) * A) m => le_set m lv.1 lv.2) st.2 m.

Global Instance le_like : MatrixLike A (lenv A) := {|
  mshape := fun m => (lev_n m, lev_n m);
  mget := le_get;       (* Index, sparse.rs:992-1001 *)
  mmut := le_mut;       (* IndexMut, sparse.rs:1003-1011 *)
  mtranspose := fun _ => Panic;       (* unimplemented!(), sparse.rs:790-792 *)
  mzeros := fun _ => Panic;           (* unimplemented!(), sparse.rs:794-797 *)
  mfrom_flat := le_from_flat |}.
End lenv_like.

Section dict.
Context {A : arith}.
Notation entries := (list ((nat * nat) * A)).

(** in_bounds, sparse.rs:480-482 *)
Definition d_in (d : dict A) (loc : nat * nat) : bool :=
  (loc.1 <? (d_shape d).1) && (loc.2 <? (d_shape d).2).

(** get, sparse.rs:903-910 with get_unchecked, sparse.rs:484-488 *)
Definition d_get (d : dict A) (loc : nat * nat) : out (option A) :=
  if d_in d loc then Ret (Some (default s0 (d_data d !! loc))) else Ret None.

(** get_mut, sparse.rs:912-919 with get_unchecked_mut, sparse.rs:490-494: inserts a zero *)
Definition d_mut (d : dict A) (loc : nat * nat) (f : A -> A) : out (option (dict A)) :=
  if d_in d loc
  then Ret (Some (Dict (d_shape d) (<[loc := f (default s0 (d_data d !! loc))]> (d_data d))))
  else Ret None.

(** zeros, sparse.rs:925-930 *)
Definition d_zeros (shape : nat * nat) : dict A := Dict shape ∅.

(** from_flat, sparse.rs:932-950 *)
Definition d_from_flat (shape : nat * nat) (vals : list A) : out (dict A) :=
  st ← foldM (fun r (st : list A * gmap (nat * nat) A) =>
         foldM (fun c (st : list A * gmap (nat * nat) A) =>
                  match st.1 with
                  | [] => Panic
                  | v :: vals' => Ret (vals', if seqb v s0 then st.2 else <[(r, c) := v]> st.2)
                  end) (range 0 shape.2) st)
       (range 0 shape.1) (vals, ∅);
  Ret (Dict shape st.2).

Global Instance d_like : MatrixLike A (dict A) := {|
  mshape := d_shape;
  mget := d_get;        (* Index, sparse.rs:1046-1059 *)
  mmut := d_mut;        (* IndexMut, sparse.rs:1061-1074 *)
  mtranspose := fun _ => Panic;       (* unimplemented!(), sparse.rs:921-923 *)
  mzeros := fun s => Ret (d_zeros s);
  mfrom_flat := d_from_flat |}.

(** [ord] is the traversal order of the hash map. *)

(** nzs, sparse.rs:952-954: the override of the trait's method (Matrix.v, [nzs]) visits what
    is stored, zeros included *)
Definition d_nzs (ord : entries) : out entries := Ret ord.

(** envelope, sparse.rs:451-465 *)
Definition d_envelope (ord : entries) (d : dict A) : out (list nat) :=
  foldM (fun (kv : (nat * nat) * A) env =>
           let '(r, c) := kv.1 in
           if r <? c then Ret env
           else e ← idx env r; set env r (e `max` ((r - c) + 1)))
        ord (replicate (d_shape d).1 0).

(** row_bounds, sparse.rs:467-478 *)
Definition d_row_bounds (ord : entries) (d : dict A) : out (list (nat * nat)) :=
  foldM (fun (kv : (nat * nat) * A) bnd =>
           let '(r, c) := kv.1 in
           b ← idx bnd r; set bnd r (b.1 `min` c, b.2 `max` (c + 1)))
        ord (replicate (d_shape d).1 ((d_shape d).2, 0)).

(** permute, sparse.rs:496-507 *)
Definition d_permute (ord : entries) (d : dict A) (p : permutation) : out (dict A) :=
  data ← foldM (fun (kv : (nat * nat) * A) acc =>
                  r ← permute p kv.1.1; c ← permute p kv.1.2;
                  Ret (<[(r, c) := kv.2]> acc)) ord (∅ : gmap (nat * nat) A);
  Ret (Dict (d_shape d) data).

(** edges_lower, sparse.rs:515-519 *)
Definition d_edges_lower (ord : entries) : list (nat * nat) :=
  List.filter (fun rc : nat * nat => rc.1 <=? rc.2) (map fst ord).

(** transposed, sparse.rs:521-532: the shape is not swapped *)
Definition d_transposed (ord : entries) (d : dict A) : dict A :=
  Dict (d_shape d) (fold_left (fun acc (kv : (nat * nat) * A) => <[(kv.1.2, kv.1.1) := kv.2]> acc)
                              ord ∅).

(** the row slices of mul_dict, sparse.rs:548-557: [rest] is other_nzs[cur_start..] *)
Fixpoint take_row (i : nat) (rest : entries) : entries * entries :=
  match rest with
  | kv :: rest' => if kv.1.1 =? i then let '(a, b) := take_row i rest' in (kv :: a, b)
                   else ([], rest)
  | [] => ([], [])
  end.
Definition row_slices (n : nat) (nzs : entries) : list entries :=
  (fold_left (fun (st : list entries * entries) i =>
                let '(a, b) := take_row i st.2 in (st.1 ++ [a], b))
             (range 0 n) ([], nzs)).1.

(** mul_dict, sparse.rs:534-567.  [ord2] is the order in which the other map's entries
    come out of the unstable sort by row: any order sorted by row. *)
Definition mul_dict (ord1 ord2 : entries) (a b : dict A) : out (dict A) :=
  _ ← assert_ ((d_shape a).2 =? (d_shape b).1);
  let slices := row_slices (d_shape b).1 ord2 in
  foldM (fun (kv : (nat * nat) * A) res =>
           sl ← idx slices kv.1.2;
           foldM (fun (kv2 : (nat * nat) * A) res =>
                    _ ← assert_ (kv.1.2 =? kv2.1.1);
                    index_upd res (kv.1.1, kv2.1.2) (fun x => sadd x (smul kv.2 kv2.2)))
                 sl res)
        ord1 (d_zeros ((d_shape a).1, (d_shape b).2)).

(** mask, sparse.rs:569-603 *)
Definition mask_idxs (mask : list bool) : list (option nat) * nat :=
  fold_left (fun (st : list (option nat) * nat) (m : bool) =>
               if m then (st.1 ++ [Some st.2], st.2 + 1) else (st.1 ++ [None], st.2))
            mask ([], 0).
Definition d_mask (ord : entries) (d : dict A) (mask : list bool) : out (dict A) :=
  _ ← assert_ ((d_shape d).1 =? (d_shape d).2);
  _ ← assert_ ((d_shape d).1 =? length mask);
  let '(idxs, n) := mask_idxs mask in
  foldM (fun (kv : (nat * nat) * A) res =>
           i ← idx idxs kv.1.1; j ← idx idxs kv.1.2;
           match i, j with
           | Some i, Some j => index_set res (i, j) kv.2
           | _, _ => Ret res
           end) ord (d_zeros (n, n)).

(** From<Dictionary> for LowerRowEnvelope, sparse.rs:606-623 *)
Definition le_of_dict (ord1 ord2 : entries) (d : dict A) : out (lenv A) :=
  env ← d_envelope ord1 d;
  m ← from_envelope env;
  foldM (fun (kv : (nat * nat) * A) m =>
           if kv.1.1 <? kv.1.2 then Ret m else index_set m kv.1 kv.2) ord2 m.

(** From<Dictionary> for BiEnvelope, sparse.rs:625-636 *)
Definition be_of_dict (ord1 ord2 : entries) (d : dict A) : out (bienv A) :=
  bnd ← d_row_bounds ord1 d;
  m ← from_row_bounds bnd;
  foldM (fun (kv : (nat * nat) * A) m => index_set m kv.1 kv.2) ord2 m.

(** From<Dictionary> for CompressedRow, sparse.rs:638-642 *)
Definition cr_of_dict (ord : entries) (d : dict A) : crow A :=
  from_labeled_vals (d_shape d) ord.

(** From<Dictionary> for LinearMatrix, sparse.rs:644-656 *)
Definition lm_of_dict (d : dict A) : out (lm A) :=
  foldM (fun r m => foldM (fun c m => v ← index d (r, c); index_set m (r, c) v)
                          (range 0 (d_shape d).2) m)
        (range 0 (d_shape d).1) (lm_zeros (d_shape d)).
End dict.
