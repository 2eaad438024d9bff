(** Model of the [MatrixLike] trait: required methods as a class, provided methods as
    functions over the class.  /repo/src/matrix/mod.rs *)
From Verif Require Export Scalar.

(** Required methods, /repo/src/matrix/mod.rs:84-95.
    [get_mut] returns a mutable reference; it is modelled by [mmut m loc f], which
    applies [f] to the cell ([Ret None] when get_mut returns None).
    [MatrixShape] (mod.rs:49-82) is the pair (nrow, ncol); max_dim is their maximum. *)
Class MatrixLike (A : arith) (M : Type) := {
  mshape : M -> nat * nat;
  mget : M -> nat * nat -> out (option A);
  mmut : M -> nat * nat -> (A -> A) -> out (option M);
  mtranspose : M -> out M;
  mzeros : nat * nat -> out M;
  mfrom_flat : nat * nat -> list A -> out M;
}.

Section provided.
Context {A : arith} {M : Type} `{ML : MatrixLike A M}.
Implicit Types m : M.

(** Index<(usize,usize)>: every implementation is "get or panic"
    (buffer.rs:326-336, 412-424, 492-504, 571-579, 696-706; sparse.rs Index impls). *)
Definition index m (loc : nat * nat) : out A := o ← mget m loc; unwrap o.

(** IndexMut<(usize,usize)>: every implementation is "get_mut or panic"
    (buffer.rs:338-346, 426-434, 506-514, 591-598, 708-716). *)
Definition index_upd m (loc : nat * nat) (f : A -> A) : out M := o ← mmut m loc f; unwrap o.
Definition index_set m (loc : nat * nat) (v : A) : out M := index_upd m loc (fun _ => v).

(** put, mod.rs:99-103 *)
Definition put m loc (v : A) : out M := o ← mmut m loc (fun _ => v); Ret (default m o).

(** mutate, mod.rs:105-112 *)
Definition mutate m loc (f : A -> A) : out M := o ← mmut m loc f; Ret (default m o).

(** The row/column/diagonal iterators (mod.rs:397-434): call [next] until None.
    [Fuel] is returned only if more elements are produced than the given bound. *)
Fixpoint iter_while (next : nat -> out (option A)) (fuel pos : nat) : out (list A) :=
  match fuel with
  | O => Fuel
  | S f => x ← next pos;
           match x with
           | None => Ret []
           | Some v => vs ← iter_while next f (S pos); Ret (v :: vs)
           end
  end.

(** row, mod.rs:162-172 with MatrixRow::next, mod.rs:410-421 *)
Definition row m (i : nat) : out (list A) :=
  _ ← assert_ (i <? (mshape m).1);
  iter_while (fun p => mget m (i, p)) (S (mshape m).2) 0.

(** col, mod.rs:174-184 with MatrixCol::next, mod.rs:397-408 *)
Definition col m (i : nat) : out (list A) :=
  _ ← assert_ (i <? (mshape m).2);
  iter_while (fun p => mget m (p, i)) (S (mshape m).1) 0.

(** diag, mod.rs:186-191 with MatrixDiag::next, mod.rs:423-434 *)
Definition diag m : out (list A) :=
  iter_while (fun p => mget m (p, p)) (S ((mshape m).1 `min` (mshape m).2)) 0.

(** flat, mod.rs:193-196 with MatrixAll::next, mod.rs:436-451 *)
Fixpoint flat_while m (fuel r c : nat) : out (list A) :=
  match fuel with
  | O => Fuel
  | S f => x ← mget m (r, c);
           match x with
           | None => Ret []
           | Some v =>
             vs ← (if (mshape m).2 <=? S c then flat_while m f (S r) 0
                   else flat_while m f r (S c));
             Ret (v :: vs)
           end
  end.
Definition flat m : out (list A) := flat_while m (S ((mshape m).1 * (mshape m).2)) 0 0.

(** indices, mod.rs:210-213 with MatrixIndices::next, mod.rs:453-471 *)
Fixpoint indices_while (rows cols fuel r c : nat) : out (list (nat * nat)) :=
  match fuel with
  | O => Fuel
  | S f => if rows <=? r then Ret []
           else vs ← (if cols <=? S c then indices_while rows cols f (S r) 0
                      else indices_while rows cols f r (S c));
                Ret ((r, c) :: vs)
  end.
Definition indices m : out (list (nat * nat)) :=
  indices_while (mshape m).1 (mshape m).2 (S ((mshape m).1 * ((mshape m).2 `max` 1))) 0 0.

(** nzs, mod.rs:198-208 *)
Definition nzs m : out (list ((nat * nat) * A)) :=
  l ← mapM_out (fun i => x ← index m (i / (mshape m).2, i mod (mshape m).2);
                         Ret ((i / (mshape m).2, i mod (mshape m).2), x))
               (range 0 ((mshape m).1 * (mshape m).2));
  Ret (List.filter (fun p => negb (seqb p.2 s0)) l).

(** add_ass, mod.rs:114-123 *)
Definition add_ass m (o : M) : out M :=
  if decide (mshape m = mshape o) then
    foldM (fun r m => foldM (fun c m => y ← index o (r, c);
                                        index_upd m (r, c) (fun x => sadd x y))
                            (range 0 (mshape m).2) m)
          (range 0 (mshape m).1) m
  else Panic.

(** sub_ass, mod.rs:125-134 *)
Definition sub_ass m (o : M) : out M :=
  if decide (mshape m = mshape o) then
    foldM (fun r m => foldM (fun c m => y ← index o (r, c);
                                        index_upd m (r, c) (fun x => ssub x y))
                            (range 0 (mshape m).2) m)
          (range 0 (mshape m).1) m
  else Panic.

(** set_row, mod.rs:215-222 *)
Definition set_row m (i : nat) (new : list A) : out M :=
  _ ← assert_ (length new =? (mshape m).2);
  foldM (fun cv m => index_set m (i, cv.1) cv.2) (zip (seq 0 (length new)) new) m.

(** set_col, mod.rs:224-231 *)
Definition set_col m (i : nat) (new : list A) : out M :=
  _ ← assert_ (length new =? (mshape m).1);
  foldM (fun cv m => index_set m (cv.1, i) cv.2) (zip (seq 0 (length new)) new) m.

(** swap_rows, mod.rs:233-239 *)
Definition swap_rows m (i j : nat) : out M :=
  foldM (fun c m => temp ← index m (i, c);
                    v ← index m (j, c);
                    m1 ← index_set m (i, c) v;
                    index_set m1 (j, c) temp)
        (range 0 (mshape m).2) m.

(** swap_cols, mod.rs:241-247 *)
Definition swap_cols m (i j : nat) : out M :=
  foldM (fun r m => temp ← index m (r, i);
                    v ← index m (r, j);
                    m1 ← index_set m (r, i) v;
                    index_set m1 (r, j) temp)
        (range 0 (mshape m).1) m.

(** mutate_row, mod.rs:249-256 ([unwrap] on get_mut) *)
Definition mutate_row m (i : nat) (f : A -> A) : out M :=
  foldM (fun c m => index_upd m (i, c) f) (range 0 (mshape m).2) m.

(** mutate_col, mod.rs:258-265 *)
Definition mutate_col m (i : nat) (f : A -> A) : out M :=
  foldM (fun r m => index_upd m (r, i) f) (range 0 (mshape m).1) m.

(** eye, mod.rs:270-278 *)
Definition eye (shape : nat * nat) : out M :=
  let d := shape.1 `max` shape.2 in
  m ← mzeros (d, d);
  foldM (fun i m => put m (i, i) s1) (range 0 d) m.

(** rotation, mod.rs:280-293 *)
Definition rotation (n a b : nat) (theta : A) : out M :=
  _ ← assert_ (a <? n);
  _ ← assert_ (b <? n);
  _ ← assert_ (negb (a =? b));
  m ← eye (n, n);
  m ← index_set m (a, a) (scos theta);
  m ← index_set m (a, b) (smul (sneg s1) (ssin theta));
  m ← index_set m (b, a) (ssin theta);
  index_set m (b, b) (scos theta).

(** from_rows, mod.rs:295-310 *)
Definition from_rows (data : list (list A)) : out M :=
  match data with
  | [] => Panic
  | r0 :: _ =>
    _ ← assert_ (forallb (fun x => length x =? length r0) data);
    mfrom_flat (length data, length r0) (concat data)
  end.

(** row_vec, mod.rs:327-330 *)
Definition row_vec (data : list A) : out M := mfrom_flat (1, length data) data.

(** col_vec, mod.rs:332-336 *)
Definition col_vec (data : list A) : out M := m ← row_vec data; mtranspose m.

End provided.

(** dot, mod.rs:534-541 *)
Definition dot {A : arith} (x y : list A) : A :=
  ssum (zip_with smul x y).

(** mul, mod.rs:136-157; generic in both operand types and the result type *)
Definition mmul {A : arith} {M1 M2 M3 : Type}
  `{MatrixLike A M1} `{MatrixLike A M2} `{MatrixLike A M3} (a : M1) (b : M2) : out M3 :=
  _ ← assert_ ((mshape a).2 =? (mshape b).1);
  vals ← mapM_out (fun r => mapM_out (fun c => x ← row a r; y ← col b c; Ret (dot x y))
                                     (range 0 (mshape b).2))
                  (range 0 (mshape a).1);
  mfrom_flat ((mshape a).1, (mshape b).2) (concat vals).

(** Average, mod.rs:500-532.  Generic in the averaged type: scale, divide and add are
    parameters.  [n as f64] is [sz n]. *)
Section average.
Context {A : arith} {V : Type} (vdiv : V -> A -> V) (vmul : V -> A -> V) (vadd : V -> V -> V).
Record average := Average { av_n : nat; av_avg : option V }.
Definition average_new : average := Average 0 None.
Definition average_update (a : average) (v : V) : average :=
  match av_avg a with
  | Some avg => let temp := vadd (vmul avg (sz (Z.of_nat (av_n a)))) v in
                Average (S (av_n a)) (Some (vdiv temp (sz (Z.of_nat (S (av_n a))))))
  | None => Average 1 (Some v)
  end.
Definition average_consume (a : average) : option V := av_avg a.
End average.
Global Arguments average : clear implicits.
