(** Model of the [Inverse] trait.  /repo/src/matrix/inverse.rs *)
From Verif Require Export Buffer.

(** Result<_, MatrixError>, /repo/src/matrix/mod.rs:26-30; the message text of
    SolveError is not modelled. *)
Inductive merr := SolveError | Pivot.
Inductive result (E A : Type) := Ok (a : A) | Err (e : E).
Global Arguments Ok {E A} _.
Global Arguments Err {E A} _.

(** Iterator::max_by with a fallible comparison: the later element wins ties. *)
Definition max_by {B} (cmp : B -> B -> out comparison) (l : list B) : out (option B) :=
  match l with
  | [] => Ret None
  | x :: l' => m ← foldM (fun y acc => c ← cmp acc y;
                                       Ret (match c with Gt => acc | _ => y end)) l' x;
               Ret (Some m)
  end.

(** Iterator::min_by: the earlier element wins ties. *)
Definition min_by {B} (cmp : B -> B -> out comparison) (l : list B) : out (option B) :=
  match l with
  | [] => Ret None
  | x :: l' => m ← foldM (fun y acc => c ← cmp acc y;
                                       Ret (match c with Gt => y | _ => acc end)) l' x;
               Ret (Some m)
  end.

(** [x.partial_cmp(y).unwrap()] *)
Definition cmp_unwrap {A : arith} (x y : A) : out comparison := unwrap (scmp x y).

(** a literal power of ten with negative exponent: 1e-k *)
Definition small_num {A : arith} : A := slit 1 (10 ^ 100).

Section inverse.
Context {A : arith} {M : Type} `{ML : MatrixLike A M}.

(** the elimination of one row, inverse.rs:59-65 *)
Definition gauss_row (col row dim : nat) (ab : M * M) : out (M * M) :=
  scaling ← index ab.1 (row, col);
  a ← foldM (fun i a => x ← index a (col, i);
                        index_upd a (row, i) (fun y => ssub y (smul x scaling)))
            (range col dim) ab.1;
  x ← index ab.2 (col, 0);
  b ← index_upd ab.2 (row, 0) (fun y => ssub y (smul x scaling));
  Ret (a, b).

(** the work on one column, inverse.rs:38-66 *)
Definition gauss_col (dim col : nat) (ab : M * M) : out (result merr (M * M)) :=
  c ← Matrix.col ab.1 col;
  max ← max_by (fun p q => cmp_unwrap p.2 q.2) (drop col (zip (seq 0 (length c)) c));
  match max with
  | None => Ret (Err SolveError)
  | Some (max_idx, _) =>
    a ← swap_rows ab.1 col max_idx;
    b ← swap_rows ab.2 col max_idx;
    scaling ← index a (col, col);
    a ← mutate_row a col (fun x => sdiv x scaling);
    b ← mutate_row b col (fun x => sdiv x scaling);
    ab ← foldM (fun row ab => gauss_row col row dim ab) (range (col + 1) dim) (a, b);
    Ret (Ok ab)
  end.

(** solve_gausselim, inverse.rs:22-79; returns the solution (the destroyed A is not
    observable by callers that own it, direct.rs:62-64) *)
Definition solve_gausselim (a b : M) : out (result merr M) :=
  if negb ((mshape a).1 =? (mshape a).2) then Ret (Err SolveError) else
  let dim := (mshape a).1 in
  if negb ((mshape b).2 =? 1) || negb ((mshape b).1 =? dim) then Ret (Err SolveError) else
  r ← foldM (fun col r => match r with
                          | Err e => Ret (Err e)
                          | Ok ab => gauss_col dim col ab
                          end) (range 0 dim) (Ok (a, b));
  match r with
  | Err e => Ret (Err e)
  | Ok ab =>
    x ← mzeros (dim, 1);
    x ← foldM (fun row x =>
           temp ← foldM (fun j t => u ← index ab.1 (row, j); v ← index x (j, 0);
                                    Ret (sadd t (smul u v))) (range (row + 1) dim) s0;
           v ← index ab.2 (row, 0);
           index_set x (row, 0) (ssub v temp)) (rev (range 0 dim)) x;
    Ret (Ok x)
  end.

(** lu_decompose, inverse.rs:81-106 *)
Definition lu_decompose (m : M) : out (ltm A * utm A) :=
  if negb ((mshape m).1 =? (mshape m).2) then Panic else
  let dim := (mshape m).1 in
  foldM (fun i (lu : ltm A * utm A) =>
    u ← foldM (fun k u => x ← Matrix.col u k; y ← row lu.1 i;
                          v ← index m (i, k);
                          index_set u (i, k) (ssub v (dot x y))) (range i dim) lu.2;
    l ← foldM (fun k l => if i =? k then index_set l (i, i) s1
                          else x ← row l k; y ← Matrix.col u i;
                               v ← index m (k, i); d ← index u (i, i);
                               index_set l (k, i) (sdiv (ssub v (dot x y)) d)) (range i dim) lu.1;
    Ret (l, u)) (range 0 dim) (lt_zeros (dim, dim), ut_zeros (dim, dim)).

(** det_lu, inverse.rs:108-111 *)
Definition det_lu (m : M) : out A :=
  lu ← lu_decompose m; d ← diag lu.2; Ret (sprod d).

(** the work on one column of det_lu_pivot, inverse.rs:126-148.  The permutation vector
    [p] (line 123) is written but never read and is not modelled. *)
Definition det_col (n i : nat) (ac : M * nat) : out (result merr (M * nat)) :=
  cands ← mapM_out (fun k => x ← index ac.1 (k, i); Ret (k, sabs x)) (range i n);
  max ← max_by (fun x y => cmp_unwrap x.2 y.2) cands;
  match max with
  | None => Ret (Err Pivot)
  | Some (max_i, max_a) =>
    if sltb max_a small_num then Ret (Err Pivot) else
    ac ← (if negb (max_i =? i)
          then a ← swap_rows ac.1 i max_i; Ret (a, ac.2 + 1)
          else Ret ac);
    a ← foldM (fun j a =>
           d ← index a (i, i);
           a ← index_upd a (j, i) (fun x => sdiv x d);
           foldM (fun k a => x ← index a (j, i); y ← index a (i, k);
                             index_upd a (j, k) (fun z => ssub z (smul x y)))
                 (range (i + 1) n) a) (range (i + 1) n) ac.1;
    Ret (Ok (a, ac.2))
  end.

(** det_lu_pivot, inverse.rs:113-152.  [swap_count] is an i32 and does not overflow below
    2^31 columns; here a nat. *)
Definition det_lu_pivot (m : M) : out (result merr A) :=
  if negb ((mshape m).1 =? (mshape m).2) then Ret (Err SolveError) else
  let n := (mshape m).1 in
  r ← foldM (fun i r => match r with Err e => Ret (Err e) | Ok ac => det_col n i ac end)
            (range 0 n) (Ok (m, 0));
  match r with
  | Err e => Ret (Err e)
  | Ok ac => d ← diag ac.1;
             Ret (Ok (smul (sprod d) (if Nat.even ac.2 then s1 else sneg s1)))
  end.

(** determinant, inverse.rs:154-163 *)
Definition determinant (m : M) : out (result merr A) :=
  if decide (mshape m = (2, 2)) then
    a ← index m (0, 0); d ← index m (1, 1); c ← index m (1, 0); b ← index m (0, 1);
    Ret (Ok (ssub (smul a d) (smul c b)))
  else det_lu_pivot m.

(** inv_lu, inverse.rs:165-172 *)
Definition inv_lu (m : M) : out M :=
  lu ← lu_decompose m;
  l_inv ← lt_tri_inv lu.1;
  u_inv ← ut_tri_inv lu.2;
  mmul u_inv l_inv.

(** inverse, inverse.rs:174-193 *)
Definition inverse (m : M) : out M :=
  if decide (mshape m = (1, 1)) then
    x ← index m (0, 0); mfrom_flat (1, 1) [sdiv s1 x]
  else if decide (mshape m = (2, 2)) then
    r ← determinant m;
    match r with
    | Err _ => Panic
    | Ok det =>
      a ← index m (0, 0); b ← index m (0, 1); c ← index m (1, 0); d ← index m (1, 1);
      let a := sdiv a det in let b := sdiv b det in let c := sdiv c det in let d := sdiv d det in
      mfrom_flat (2, 2) [d; smul (sneg s1) b; smul (sneg s1) c; a]
    end
  else inv_lu m.

(** frobenius, /repo/src/matrix/norm.rs:11-15 *)
Definition frobenius (m : M) : out A := l ← flat m; Ret (ssqrt (ssum (map ssq l))).
End inverse.
