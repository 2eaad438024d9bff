(** Model of the linear solvers.  /repo/src/matrix/solve/{mod,direct,iterative}.rs *)
From Verif Require Export Sparse Inverse.

(** ** Factorisations, direct.rs *)
Section direct.
Context {A : arith}.

(** one row of cholesky_envelope, direct.rs:111-137.  [u.len() - 1] is checked; the
    scratch vector [w] is cleared and refilled with zeros every round (126-127). *)
Definition chol_row (a : lenv A) (i : nat) (l : lenv A) : out (lenv A) :=
  su ← le_row_stored a i;
  nondiag ← usub (length su.2) 1;
  if nondiag =? 0 then
    u0 ← idx su.2 0;
    index_set l (i, i) (ssqrt u0)
  else
    s ← idx su.2 nondiag;
    u ← slice su.2 0 nondiag;
    w ← le_solve_sub l u (replicate nondiag s0) su.1 i;
    let t := ssqrt (ssub s (ssum (map (fun x => smul x x) w))) in
    le_row_write l i (w ++ [t]).

(** cholesky_envelope, direct.rs:92-140 *)
Definition cholesky_envelope (a : lenv A) : out (lenv A) :=
  l ← from_envelope (le_envelope a);
  a00 ← index a (0, 0);
  l ← index_set l (0, 0) (ssqrt a00);
  foldM (chol_row a) (range 1 (mshape a).1) l.

(** solve_ll, direct.rs:142-156; [x] is the caller's output slice *)
Definition solve_ll (l : lenv A) (b x : list A) : out (list A) :=
  let n := (mshape l).1 in
  _ ← assert_ (n =? length b);
  _ ← assert_ (n =? length x);
  y ← le_solve l b (replicate n s0);
  le_solve_t l y x.

(** the sum over [(start..i).zip(u.iter())] of [x * x * d[j]], direct.rs:167-170 *)
Definition ldl_dot1 (start i : nat) (u : list A) (d : dg A) : out A :=
  l ← mapM_out (fun jx : nat * A => dj ← idx (dg_data d) jx.1; Ret (smul (smul jx.2 jx.2) dj))
               (zip (range start i) u);
  Ret (ssum l).

(** the sum of [x * y * d[k]], direct.rs:186-189 *)
Definition ldl_dot2 (start i : nat) (u v : list A) (d : dg A) : out A :=
  l ← mapM_out (fun kxy : nat * (A * A) =>
                  dk ← idx (dg_data d) kxy.1; Ret (smul (smul kxy.2.1 kxy.2.2) dk))
               (zip (range start i) (zip u v));
  Ret (ssum l).

(** the inner loop body, direct.rs:173-192 *)
Definition ldl_entry (a : lenv A) (d : dg A) (i j : nat) (l : lenv A) : out (lenv A) :=
  sj ← le_row_stored l j;
  if i <? sj.1 then Ret l
  else
    su ← le_row_stored l i;
    sv ← le_row_stored l j;
    let start := su.1 `max` sv.1 in
    u ← slice su.2 (start - su.1) (length su.2);
    v ← slice sv.2 (start - sv.1) (length sv.2);
    dot ← ldl_dot2 start i u v d;
    aji ← index a (j, i);
    di ← idx (dg_data d) i;
    index_set l (j, i) (sdiv (ssub aji dot) di).

(** the outer loop body, direct.rs:165-195 *)
Definition ldl_col (a : lenv A) (n i : nat) (ld : lenv A * dg A) : out (lenv A * dg A) :=
  su ← le_row_stored ld.1 i;
  dot ← ldl_dot1 su.1 i su.2 ld.2;
  aii ← index a (i, i);
  d ← index_set ld.2 (i, i) (ssub aii dot);
  l ← foldM (ldl_entry a d i) (range (i + 1) n) ld.1;
  l ← index_set l (i, i) s1;
  Ret (l, d).

(** cholesky_envelope_no_root, direct.rs:158-198 *)
Definition cholesky_envelope_no_root (a : lenv A) : out (lenv A * dg A) :=
  let n := (mshape a).1 in
  l ← from_envelope (le_envelope a);
  d ← dg_zeros (n, n);
  foldM (ldl_col a n) (range 0 n) (l, d).

(** solve_ldl, direct.rs:200-217 *)
Definition solve_ldl (l : lenv A) (d : dg A) (b x : list A) : out (list A) :=
  let n := (mshape l).1 in
  _ ← assert_ (bool_decide (mshape l = mshape d));
  _ ← assert_ (n =? length b);
  _ ← assert_ (n =? length x);
  z ← le_solve l b (replicate n s0);
  z ← dg_solve d z;
  le_solve_t l z x.
End direct.

(** ** System, mod.rs:15-22 *)
Record system (A : arith) := Sys {
  sy_dofs : nat; sy_k : option (dict A); sy_m : option (dict A);
  sy_rhs : option (list A); sy_perm : option permutation }.
Global Arguments Sys {A} _ _ _ _ _.
Global Arguments sy_dofs {A} _.
Global Arguments sy_k {A} _.
Global Arguments sy_m {A} _.
Global Arguments sy_rhs {A} _.
Global Arguments sy_perm {A} _.

(** The order in which the t-th traversal of a hash map yields its entries. *)
Definition hash_oracle (A : arith) : Type :=
  nat -> gmap (nat * nat) A -> list ((nat * nat) * A).

Section system.
Context {A : arith}.

(** System::new, mod.rs:25-33 *)
Definition sys_new (dofs : nat) : system A := Sys dofs None None None None.

(** k_envelope, mod.rs:39-45 *)
Definition k_envelope (ho : hash_oracle A) (t : nat) (s : system A) : out (list nat) :=
  k ← unwrap (sy_k s); d_envelope (ho t (d_data k)) k.

(** add_k_coefficient, mod.rs:55-63 *)
Definition add_k (s : system A) (loc : nat * nat) (v : A) : out (system A) :=
  match sy_k s with
  | Some k => k ← index_upd k loc (fun x => sadd x v);
              Ret (Sys (sy_dofs s) (Some k) (sy_m s) (sy_rhs s) (sy_perm s))
  | None => k ← index_set (d_zeros (sy_dofs s, sy_dofs s)) loc v;
            Ret (Sys (sy_dofs s) (Some k) (sy_m s) (sy_rhs s) (sy_perm s))
  end.

(** add_m_coefficient, mod.rs:65-73 *)
Definition add_m (s : system A) (loc : nat * nat) (v : A) : out (system A) :=
  match sy_m s with
  | Some m => m ← index_upd m loc (fun x => sadd x v);
              Ret (Sys (sy_dofs s) (sy_k s) (Some m) (sy_rhs s) (sy_perm s))
  | None => m ← index_set (d_zeros (sy_dofs s, sy_dofs s)) loc v;
            Ret (Sys (sy_dofs s) (sy_k s) (Some m) (sy_rhs s) (sy_perm s))
  end.

(** add_rhs_val, mod.rs:75-83 *)
Definition add_rhs (s : system A) (loc : nat) (v : A) : out (system A) :=
  match sy_rhs s with
  | Some r => x ← idx r loc; r ← set r loc (sadd x v);
              Ret (Sys (sy_dofs s) (sy_k s) (sy_m s) (Some r) (sy_perm s))
  | None => r ← set (replicate (sy_dofs s) s0) loc v;
            Ret (Sys (sy_dofs s) (sy_k s) (sy_m s) (Some r) (sy_perm s))
  end.

(** copying the non-zero entries into a dictionary, mod.rs:105-107; [nz] is the method nzs of
    the matrix type at hand: [nzs] or, for dictionaries, [d_nzs] *)
Definition dict_of_nzs {M} (nz : M -> out (list ((nat * nat) * A))) (n : nat) (k : M) : out (dict A) :=
  l ← nz k; foldM (fun (kv : (nat * nat) * A) d => index_set d kv.1 kv.2) l (d_zeros (n, n)).

(** from_kr, mod.rs:85-113 *)
Definition from_kr {M N} `{MatrixLike A M} `{MatrixLike A N} (nz : M -> out (list ((nat * nat) * A))) (k : M) (r : N) : out (system A) :=
  let dofs := (mshape k).1 in
  if negb (dofs =? (mshape k).2) || negb (dofs =? (mshape r).1) || negb ((mshape r).2 =? 1)
  then Panic
  else rv ← foldM (fun row rv => x ← index r (row, 0); set rv row x)
                  (range 0 dofs) (replicate dofs s0);
       km ← dict_of_nzs nz dofs k;
       Ret (Sys dofs (Some km) None (Some rv) None).

(** from_km, mod.rs:115-141 *)
Definition from_km {M N} `{MatrixLike A M} `{MatrixLike A N} (nz : M -> out (list ((nat * nat) * A)))
  (nz' : N -> out (list ((nat * nat) * A))) (k : M) (m : N) : out (system A) :=
  let dofs := (mshape k).1 in
  _ ← assert_ ((mshape k).1 =? (mshape k).2);
  _ ← assert_ ((mshape m).1 =? (mshape m).2);
  km ← dict_of_nzs nz dofs k;
  mm ← dict_of_nzs nz' dofs m;
  Ret (Sys dofs (Some km) (Some mm) None None).

(** [opt.map(f)] for an f that may panic *)
Definition opt_mapM {B C} (f : B -> out C) (o : option B) : out (option C) :=
  match o with Some b => c ← f b; Ret (Some c) | None => Ret None end.

(** reduce_envelope, mod.rs:143-170; traversals t, t+1, t+2 of the hash oracle *)
Definition reduce_envelope (ho : hash_oracle A) (t : nat) (s : system A) : out (system A) :=
  match sy_perm s with
  | Some _ => Panic
  | None =>
    k ← unwrap (sy_k s);
    g ← from_edges (sy_dofs s) (d_edges_lower (ho t (d_data k)));
    p ← rcm g;
    k' ← d_permute (ho (t + 1) (d_data k)) k p;
    m' ← opt_mapM (fun m => d_permute (ho (t + 2) (d_data m)) m p) (sy_m s);
    r' ← opt_mapM (permute_slice p) (sy_rhs s);
    Ret (Sys (sy_dofs s) (Some k') m' r' (Some p))
  end.

(** into_krp, mod.rs:172-182, with the conversions T::from and U::from as arguments *)
Definition into_krp {T U} (fk : dict A -> out T) (fr : list A -> out U) (s : system A)
  : out (T * U * option permutation) :=
  kd ← unwrap (sy_k s); k ← fk kd;
  rd ← unwrap (sy_rhs s); r ← fr rd;
  Ret (k, r, option_map invert (sy_perm s)).

(** DenseGaussSolver::{new,solve}, direct.rs:14-27 *)
Definition dense_gauss (s : system A) : out (result unit (list A)) :=
  krp ← into_krp lm_of_dict lm_of_vec s;
  r ← solve_gausselim krp.1.1 krp.1.2;
  match r with
  | Err _ => Ret (Err tt)
  | Ok x => l ← flat x; Ret (Ok l)
  end.

(** CholeskyEnvelopeSolver::{new,solve}, direct.rs:37-90.  The timing and progress output
    is left out; the sum of the initial envelope it prints is kept because computing it
    can panic. *)
Definition cholesky_solver (ho : hash_oracle A) (s : system A) : out (result unit (list A)) :=
  _ ← k_envelope ho 0 s;
  s' ← reduce_envelope ho 1 s;
  krp ← into_krp (fun d => le_of_dict (ho 4 (d_data d)) (ho 5 (d_data d)) d) Ret s';
  perm ← unwrap krp.2;
  chol ← cholesky_envelope krp.1.1;
  x ← solve_ll chol krp.1.2 (replicate (sy_dofs s) s0);
  x ← permute_slice perm x;
  Ret (Ok x).

(** ** Gauss-Seidel, iterative.rs *)

(** one row of a sweep, iterative.rs:59-79 *)
Definition gs_beta : A := slit 13 10.
Definition gs_row (k : crow A) (r u : lm A) (i : nat) (new_u : lm A) : out (lm A) :=
  rn ← row_nzs k i;
  acc ← foldM (fun (cv : nat * A) (acc : option A * A * A) =>
           let '(diag, lo, up) := acc in
           if cv.1 <? i then x ← index new_u (cv.1, 0); Ret (diag, sadd lo (smul x cv.2), up)
           else if i <? cv.1 then x ← index u (cv.1, 0); Ret (diag, lo, sadd up (smul x cv.2))
           else Ret (Some cv.2, lo, up)) rn (None, s0, s0);
  let '(diag, lo, up) := acc in
  dg ← unwrap diag;
  ui ← index u (i, 0);
  ri ← index r (i, 0);
  index_set new_u (i, 0)
    (sadd ui (sdiv (smul gs_beta (ssub (ssub (ssub ri lo) (smul dg ui)) up)) dg)).

(** one sweep, iterative.rs:57-79 *)
Definition gs_sweep (k : crow A) (r u : lm A) : out (lm A) :=
  foldM (gs_row k r u) (range 0 (cr_shape k).1) (lm_zeros ((cr_shape k).1, 1)).

(** the loop, iterative.rs:56-94.  [rounds] counts the rounds up to and including round
    max_iter + 1, in which the loop either breaks or panics. *)
Fixpoint gs_loop (k : crow A) (r : lm A) (tol : A) (rounds : nat) (u : lm A) : out (lm A) :=
  new_u ← gs_sweep k r u;
  df ← lm_sub u new_u;
  dn ← frobenius df;
  un ← frobenius new_u;
  if sleb (sdiv dn un) tol then Ret new_u
  else match rounds with
       | O => Panic                     (* round > max_iter, lines 91-93 *)
       | S rounds => gs_loop k r tol rounds new_u
       end.

(** gauss_seidel, iterative.rs:36-97 *)
Definition gauss_seidel (k : crow A) (r : lm A) (tol : A) (max_iter : nat) : out (lm A) :=
  _ ← assert_ ((cr_shape k).1 =? (cr_shape k).2);
  _ ← assert_ (lm_c r =? 1);
  _ ← assert_ (lm_r r =? (cr_shape k).1);
  gs_loop k r tol (S max_iter) (lm_zeros ((cr_shape k).1, 1)).

(** GaussSeidelSolver::{new,solve}, iterative.rs:12-34 *)
Definition gauss_seidel_solver (ho : hash_oracle A) (s : system A) : out (result unit (list A)) :=
  krp ← into_krp (fun d => Ret (cr_of_dict (ho 0 (d_data d)) d)) lm_of_vec s;
  x ← gauss_seidel krp.1.1 krp.1.2 (slit 1 1000) 200;
  l ← flat x;
  Ret (Ok l).
End system.
