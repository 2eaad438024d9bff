(** Model of the dense storage layouts.  /repo/src/matrix/buffer.rs *)
From Verif Require Export Matrix.

(** ** LinearMatrix, buffer.rs:6-11 *)
Record lm (A : arith) := LM { lm_r : nat; lm_c : nat; lm_rm : bool; lm_data : list A }.
Global Arguments LM {A} _ _ _ _.
Global Arguments lm_r {A} _.
Global Arguments lm_c {A} _.
Global Arguments lm_rm {A} _.
Global Arguments lm_data {A} _.

Section linear.
Context {A : arith}.

(** pos, buffer.rs:37-48 *)
Definition lm_pos (m : lm A) (loc : nat * nat) : option nat :=
  if (lm_c m <=? loc.2) || (lm_r m <=? loc.1) then None
  else if lm_rm m then Some (lm_c m * loc.1 + loc.2)
  else Some (lm_r m * loc.2 + loc.1).

(** get, buffer.rs:200-207 *)
Definition lm_get (m : lm A) (loc : nat * nat) : out (option A) :=
  match lm_pos m loc with
  | Some i => x ← get_unchecked (lm_data m) i; Ret (Some x)
  | None => Ret None
  end.

(** get_mut, buffer.rs:209-215 *)
Definition lm_mut (m : lm A) (loc : nat * nat) (f : A -> A) : out (option (lm A)) :=
  match lm_pos m loc with
  | Some i => d ← upd_unchecked (lm_data m) i f;
              Ret (Some (LM (lm_r m) (lm_c m) (lm_rm m) d))
  | None => Ret None
  end.

(** transpose, buffer.rs:217-220 *)
Definition lm_transpose (m : lm A) : lm A :=
  LM (lm_c m) (lm_r m) (negb (lm_rm m)) (lm_data m).

(** zeros, buffer.rs:222-231 (no wrap-around of the product: see Overflow.v) *)
Definition lm_zeros (shape : nat * nat) : lm A :=
  LM shape.1 shape.2 true (replicate (shape.1 * shape.2) s0).

(** from_flat, buffer.rs:233-246 *)
Definition lm_from_flat (shape : nat * nat) (data : list A) : out (lm A) :=
  if shape.1 * shape.2 =? length data then Ret (LM shape.1 shape.2 true data) else Panic.

Global Instance lm_like : MatrixLike A (lm A) := {|
  mshape := fun m => (lm_r m, lm_c m);
  mget := lm_get;
  mmut := lm_mut;
  mtranspose := fun m => Ret (lm_transpose m);
  mzeros := fun s => Ret (lm_zeros s);
  mfrom_flat := lm_from_flat |}.

(** PartialEq, buffer.rs:249-261.  Vec equality (line 256) compares lengths and
    elements. *)
Fixpoint data_eqb (x y : list A) : bool :=
  match x, y with
  | [], [] => true
  | a :: x', b :: y' => seqb a b && data_eqb x' y'
  | _, _ => false
  end.
Definition lm_eq (a b : lm A) : out bool :=
  if negb ((lm_r a =? lm_r b) && (lm_c a =? lm_c b)) then Ret false
  else if eqb (lm_rm a) (lm_rm b) then Ret (data_eqb (lm_data a) (lm_data b))
  else x ← flat a; y ← flat b; Ret (forallb (fun p => seqb p.1 p.2) (zip x y)).

(** Add, buffer.rs:277-285 *)
Definition lm_add (a b : lm A) : out (lm A) :=
  if negb ((lm_r a =? lm_r b) && (lm_c a =? lm_c b)) then Panic
  else x ← flat a; y ← flat b; lm_from_flat (lm_r a, lm_c a) (zip_with sadd x y).

(** Sub, buffer.rs:287-295 *)
Definition lm_sub (a b : lm A) : out (lm A) :=
  if negb ((lm_r a =? lm_r b) && (lm_c a =? lm_c b)) then Panic
  else x ← flat a; y ← flat b; lm_from_flat (lm_r a, lm_c a) (zip_with ssub x y).

(** AddAssign<f64>, buffer.rs:297-301 *)
Definition lm_add_scalar (a : lm A) (v : A) : lm A :=
  LM (lm_r a) (lm_c a) (lm_rm a) (map (fun x => sadd x v) (lm_data a)).

(** AddAssign<Self>, buffer.rs:303-318.  The zip of iter_mut with a shorter vector
    leaves the tail unchanged. *)
Fixpoint zip_add (x y : list A) : list A :=
  match x, y with
  | a :: x', b :: y' => sadd a b :: zip_add x' y'
  | _, _ => x
  end.
Definition lm_add_assign (a b : lm A) : out (lm A) :=
  if negb ((lm_r a =? lm_r b) && (lm_c a =? lm_c b)) then Panic
  else if eqb (lm_rm a) (lm_rm b)
       then Ret (LM (lm_r a) (lm_c a) (lm_rm a) (zip_add (lm_data a) (lm_data b)))
       else add_ass a b.

(** MulAssign<f64>, buffer.rs:320-324 *)
Definition lm_scale (a : lm A) (v : A) : lm A :=
  LM (lm_r a) (lm_c a) (lm_rm a) (map (fun x => smul x v) (lm_data a)).

(** From<Vec<f64>>, buffer.rs:348-353 *)
Definition lm_of_vec (v : list A) : out (lm A) := lm_from_flat (length v, 1) v.
End linear.

(** ** LowerTriangular, buffer.rs:13-17 *)
Record ltm (A : arith) := LT { lt_dim : nat; lt_data : list A }.
Global Arguments LT {A} _ _.
Global Arguments lt_dim {A} _.
Global Arguments lt_data {A} _.

(** ** UpperTriangular, buffer.rs:19-23 *)
Record utm (A : arith) := UT { ut_dim : nat; ut_data : list A }.
Global Arguments UT {A} _ _.
Global Arguments ut_dim {A} _.
Global Arguments ut_data {A} _.

(** ** Diagonal, buffer.rs:25-28 *)
Record dg (A : arith) := DG { dg_data : list A }.
Global Arguments DG {A} _.
Global Arguments dg_data {A} _.

Section triangular.
Context {A : arith}.

(** LowerTriangular::pos, buffer.rs:52-64 *)
Definition lt_pos (m : ltm A) (loc : nat * nat) : option nat :=
  if (lt_dim m <=? loc.1) || (lt_dim m <=? loc.2) then None
  else if loc.1 <? loc.2 then None
  else Some (loc.1 * (loc.1 + 1) / 2 + loc.2).

(** get, buffer.rs:364-373 *)
Definition lt_get (m : ltm A) (loc : nat * nat) : out (option A) :=
  match lt_pos m loc with
  | Some i => x ← get_unchecked (lt_data m) i; Ret (Some x)
  | None => if (loc.1 <? lt_dim m) && (loc.2 <? lt_dim m) then Ret (Some s0) else Ret None
  end.

(** get_mut, buffer.rs:375-381 *)
Definition lt_mut (m : ltm A) (loc : nat * nat) (f : A -> A) : out (option (ltm A)) :=
  match lt_pos m loc with
  | Some i => d ← upd_unchecked (lt_data m) i f; Ret (Some (LT (lt_dim m) d))
  | None => Ret None
  end.

(** zeros, buffer.rs:387-392 *)
Definition lt_zeros (shape : nat * nat) : ltm A :=
  let d := shape.1 `max` shape.2 in LT d (replicate ((d + 1) * (d + 2) / 2) s0).

Global Instance lt_like : MatrixLike A (ltm A) := {|
  mshape := fun m => (lt_dim m, lt_dim m);
  mget := lt_get;
  mmut := lt_mut;
  mtranspose := fun _ => Panic;       (* unimplemented!(), buffer.rs:383-385 *)
  mzeros := fun s => Ret (lt_zeros s);
  mfrom_flat := fun _ _ => Panic      (* unimplemented!(), buffer.rs:394-397 *) |}.

(** forward_sub, buffer.rs:66-78.  The row iterator is collected before zipping. *)
Definition forward_sub (m : ltm A) (b : list A) : out (list A) :=
  _ ← assert_ (lt_dim m =? length b);
  foldM (fun i x => r ← row m i;
                    let temp := ssum (take i (zip_with smul r x)) in
                    bi ← idx b i;
                    d ← index m (i, i);
                    set x i (sdiv (ssub bi temp) d))
        (range 0 (lt_dim m)) (replicate (lt_dim m) s0).

(** tri_inv, buffer.rs:80-95 *)
Definition lt_tri_inv (m : ltm A) : out (ltm A) :=
  p ← foldM (fun i (bres : list A * ltm A) =>
         b ← set bres.1 i s1;
         x ← forward_sub m b;
         res ← foldM (fun jv r => index_set r (jv.1, i) jv.2)
                     (drop i (zip (seq 0 (length x)) x)) bres.2;
         b ← set b i s0;
         Ret (b, res))
      (range 0 (lt_dim m)) (replicate (lt_dim m) s0, lt_zeros (lt_dim m, lt_dim m));
  Ret p.2.

(** PartialEq, buffer.rs:400-404 *)
Definition lt_eq (a b : ltm A) : bool := data_eqb (lt_data a) (lt_data b).

(** UpperTriangular::pos, buffer.rs:99-108 *)
Definition ut_pos (m : utm A) (loc : nat * nat) : option nat :=
  if (ut_dim m <=? loc.2) || (ut_dim m <=? loc.1) then None
  else if loc.2 <? loc.1 then None
  else Some (loc.2 * (loc.2 + 1) / 2 + loc.1).

(** get, buffer.rs:445-454 *)
Definition ut_get (m : utm A) (loc : nat * nat) : out (option A) :=
  match ut_pos m loc with
  | Some i => x ← get_unchecked (ut_data m) i; Ret (Some x)
  | None => if (loc.1 <? ut_dim m) && (loc.2 <? ut_dim m) then Ret (Some s0) else Ret None
  end.

(** get_mut, buffer.rs:456-462 *)
Definition ut_mut (m : utm A) (loc : nat * nat) (f : A -> A) : out (option (utm A)) :=
  match ut_pos m loc with
  | Some i => d ← upd_unchecked (ut_data m) i f; Ret (Some (UT (ut_dim m) d))
  | None => Ret None
  end.

(** zeros, buffer.rs:468-473 *)
Definition ut_zeros (shape : nat * nat) : utm A :=
  let d := shape.1 `max` shape.2 in UT d (replicate ((d + 1) * (d + 2) / 2) s0).

Global Instance ut_like : MatrixLike A (utm A) := {|
  mshape := fun m => (ut_dim m, ut_dim m);
  mget := ut_get;
  mmut := ut_mut;
  mtranspose := fun _ => Panic;       (* unimplemented!(), buffer.rs:464-466 *)
  mzeros := fun s => Ret (ut_zeros s);
  mfrom_flat := fun _ _ => Panic      (* unimplemented!(), buffer.rs:475-477 *) |}.

(** backward_sub, buffer.rs:110-125 *)
Definition backward_sub (m : utm A) (b : list A) : out (list A) :=
  _ ← assert_ (ut_dim m =? length b);
  foldM (fun i x =>
           temp ← foldM (fun j t => u ← index m (i, j); xj ← idx x j;
                                    Ret (sadd t (smul u xj)))
                        (range (i + 1) (ut_dim m)) s0;
           bi ← idx b i;
           d ← index m (i, i);
           set x i (sdiv (ssub bi temp) d))
        (rev (range 0 (ut_dim m))) (replicate (ut_dim m) s0).

(** tri_inv, buffer.rs:127-142 *)
Definition ut_tri_inv (m : utm A) : out (utm A) :=
  p ← foldM (fun i (bres : list A * utm A) =>
         b ← set bres.1 i s1;
         x ← backward_sub m b;
         res ← foldM (fun jv r => index_set r (jv.1, i) jv.2)
                     (take (i + 1) (zip (seq 0 (length x)) x)) bres.2;
         b ← set b i s0;
         Ret (b, res))
      (range 0 (ut_dim m)) (replicate (ut_dim m) s0, ut_zeros (ut_dim m, ut_dim m));
  Ret p.2.

(** PartialEq, buffer.rs:480-484 *)
Definition ut_eq (a b : utm A) : bool := data_eqb (ut_data a) (ut_data b).

(** Diagonal::get, buffer.rs:525-533 *)
Definition dg_get (m : dg A) (loc : nat * nat) : out (option A) :=
  if (loc.1 =? loc.2) && (loc.1 <? length (dg_data m))
  then x ← get_unchecked (dg_data m) loc.1; Ret (Some x)
  else if (loc.1 <? length (dg_data m)) && (loc.2 <? length (dg_data m)) then Ret (Some s0)
  else Ret None.

(** Diagonal::get_mut, buffer.rs:535-541 *)
Definition dg_mut (m : dg A) (loc : nat * nat) (f : A -> A) : out (option (dg A)) :=
  if (loc.1 =? loc.2) && (loc.1 <? length (dg_data m))
  then d ← upd_unchecked (dg_data m) loc.1 f; Ret (Some (DG d))
  else Ret None.

(** zeros, buffer.rs:545-551 *)
Definition dg_zeros (shape : nat * nat) : out (dg A) :=
  if shape.1 =? shape.2 then Ret (DG (replicate shape.1 s0)) else Panic.

Global Instance dg_like : MatrixLike A (dg A) := {|
  mshape := fun m => (length (dg_data m), length (dg_data m));
  mget := dg_get;
  mmut := dg_mut;
  mtranspose := fun m => Ret m;       (* buffer.rs:543 *)
  mzeros := dg_zeros;
  mfrom_flat := fun _ _ => Panic      (* unimplemented!(), buffer.rs:553-556 *) |}.

(** num_neg, buffer.rs:146-149 *)
Definition num_neg (m : dg A) : nat := length (List.filter (fun x => sltb x s0) (dg_data m)).

(** product, buffer.rs:151-153 *)
Definition dg_product (m : dg A) : A := sprod (dg_data m).

(** Diagonal::solve, buffer.rs:163-170 *)
Definition dg_solve (m : dg A) (x : list A) : out (list A) :=
  _ ← assert_ (length x =? length (dg_data m));
  foldM (fun i x => xi ← idx x i; d ← idx (dg_data m) i; set x i (sdiv xi d))
        (range 0 (length (dg_data m))) x.
End triangular.

(** ** ConstMatrix<SIZE>, buffer.rs:30-34 *)
Record cm (A : arith) := CM { cm_r : nat; cm_c : nat; cm_data : list A }.
Global Arguments CM {A} _ _ _.
Global Arguments cm_r {A} _.
Global Arguments cm_c {A} _.
Global Arguments cm_data {A} _.

Section const.
Context {A : arith} (size : nat).

(** pos, buffer.rs:174-179 *)
Definition cm_pos (m : cm A) (loc : nat * nat) : option nat :=
  if (cm_c m <=? loc.2) || (cm_r m <=? loc.1) then None else Some (cm_c m * loc.1 + loc.2).

(** get, buffer.rs:624-631: the second index is checked and panics *)
Definition cm_get (m : cm A) (loc : nat * nat) : out (option A) :=
  match cm_pos m loc with
  | Some i => x ← idx (cm_data m) i; Ret (Some x)
  | None => Ret None
  end.

(** get_mut, buffer.rs:633-639 *)
Definition cm_mut (m : cm A) (loc : nat * nat) (f : A -> A) : out (option (cm A)) :=
  match cm_pos m loc with
  | Some i => x ← idx (cm_data m) i;
              Ret (Some (CM (cm_r m) (cm_c m) (<[i := f x]> (cm_data m))))
  | None => Ret None
  end.

(** zeros, buffer.rs:646-655 *)
Definition cm_zeros (shape : nat * nat) : out (cm A) :=
  _ ← assert_ (shape.1 * shape.2 =? size);
  Ret (CM shape.1 shape.2 (replicate size s0)).

(** from_flat, buffer.rs:657-677; [last] starts at 0, SIZE - 1 may underflow *)
Definition cm_from_flat (shape : nat * nat) (data : list A) : out (cm A) :=
  st ← foldM (fun (ix : nat * A) (st : list A * nat) =>
                _ ← assert_ (ix.1 <? size);
                d ← set st.1 ix.1 ix.2;
                Ret (d, ix.1))
             (zip (seq 0 (length data)) data) (replicate size s0, 0);
  sz1 ← usub size 1;
  _ ← assert_ (st.2 =? sz1);
  Ret (CM shape.1 shape.2 st.1).

Definition cm_like : MatrixLike A (cm A) := {|
  mshape := fun m => (cm_r m, cm_c m);
  mget := cm_get;
  mmut := cm_mut;
  mtranspose := fun _ => Panic;       (* unimplemented!(), buffer.rs:641-644 *)
  mzeros := cm_zeros;
  mfrom_flat := cm_from_flat |}.

(** from_flat_array, buffer.rs:181-188 (the array has SIZE elements by type) *)
Definition cm_from_flat_array (shape : nat * nat) (data : list A) : out (cm A) :=
  _ ← assert_ (shape.1 * shape.2 =? size);
  Ret (CM shape.1 shape.2 data).
End const.
