(** Model of the eigenvalue search.  /repo/src/matrix/solve/eigen.rs

    Loops whose number of rounds is not fixed by their input take a bound and answer
    [Fuel] when it is used up: [fi] bounds the rounds of one inverse iteration, [fs] the
    rounds of the search loops and the depth of the bracket recursion.  The pseudo-random
    start vector (fastrand, seed 1337, re-created for every call: 343-344, 399-400) is the
    argument [rnd], one number per degree of freedom. *)
From Verif Require Export Solve.

(** OneEigenRange (eigen.rs:8-11), ManyEigenRange (26-34), EigenRange (81-86) *)
Inductive erange (A : arith) : Type :=
| ROne (lower upper : A)
| RMany (lower upper : A) (low_i next_i : nat)
| REmpty.
Global Arguments ROne {A} _ _.
Global Arguments RMany {A} _ _ _ _.
Global Arguments REmpty {A}.

(** EigenPair, eigen.rs:100-104 *)
Record epair (A : arith) := EPair { ep_value : A; ep_vec : list A }.
Global Arguments EPair {A} _ _.
Global Arguments ep_value {A} _.
Global Arguments ep_vec {A} _.

(** EigenSystem, eigen.rs:124-136 *)
Record esys (A : arith) := ESys {
  es_dofs : nat; es_k : lenv A; es_m : bienv A; es_kfull : bienv A; es_perm : permutation }.
Global Arguments ESys {A} _ _ _ _ _.
Global Arguments es_dofs {A} _.
Global Arguments es_k {A} _.
Global Arguments es_m {A} _.
Global Arguments es_kfull {A} _.
Global Arguments es_perm {A} _.

(** DeterminantSearcher, eigen.rs:168-173 *)
Record searcher (A : arith) := Searcher {
  se_sys : esys A; se_pairs : list (epair A); se_mus : option (A * A) }.
Global Arguments Searcher {A} _ _ _.
Global Arguments se_sys {A} _.
Global Arguments se_pairs {A} _.
Global Arguments se_mus {A} _.

Section eigen.
Context {A : arith}.

(** mid_val, eigen.rs:20-22 and 50-52 *)
Definition mid_val (lower upper : A) : A := sdiv (sadd lower upper) (sz 2).

(** OneEigenRange::new, eigen.rs:14-18 *)
Definition one_new (lower upper : A) : out (erange A) :=
  _ ← assert_ (sltb lower upper); Ret (ROne lower upper).

(** ManyEigenRange::new, eigen.rs:37-48 *)
Definition many_new (lower upper : A) (low_i next_i : nat) : out (erange A) :=
  _ ← assert_ (sltb lower upper);
  _ ← assert_ (low_i <? next_i);
  c ← usub next_i low_i;
  _ ← assert_ (1 <? c);
  Ret (RMany lower upper low_i next_i).

(** the matches of split, eigen.rs:64-74 *)
Definition part_new (lower upper : A) (low_i next_i count : nat) : out (erange A) :=
  match count with
  | 0 => Ret REmpty
  | 1 => one_new lower upper
  | _ => many_new lower upper low_i next_i
  end.

(** split, eigen.rs:54-77 *)
Definition many_split (lower upper : A) (low_i next_i n : nat) : out (erange A * erange A) :=
  let mid := mid_val lower upper in
  l_count ← usub n low_i;
  u_count ← usub next_i n;
  l ← part_new lower mid low_i n l_count;
  u ← part_new mid upper n next_i u_count;
  Ret (l, u).

(** EigenRange::new, eigen.rs:89-97 *)
Definition range_new (lower upper : A) (under_lower under_upper : nat) : out (erange A) :=
  _ ← assert_ (under_lower <? under_upper);
  c ← usub under_upper under_lower;
  if c =? 1 then one_new lower upper else many_new lower upper under_lower under_upper.

(** EigenPair::permute, eigen.rs:118-120 *)
Definition ep_permute (p : permutation) (e : epair A) : out (epair A) :=
  v ← permute_slice p (ep_vec e); Ret (EPair (ep_value e) v).

(** m_envelope, mod.rs:47-53 *)
Definition m_envelope (ho : hash_oracle A) (t : nat) (s : system A) : out (list nat) :=
  m ← unwrap (sy_m s); d_envelope (ho t (d_data m)) m.

(** EigenSystem::new, eigen.rs:139-162, with System::into_parts, mod.rs:184-197 *)
Definition eigen_new (ho : hash_oracle A) (s : system A) : out (esys A) :=
  s' ← reduce_envelope ho 0 s;
  ke ← k_envelope ho 3 s';
  me ← m_envelope ho 4 s';
  _ ← assert_ (forallb (fun km : nat * nat => km.2 <=? km.1) (zip ke me));
  k_full ← opt_mapM (fun d => be_of_dict (ho 5 (d_data d)) (ho 6 (d_data d)) d) (sy_k s');
  m_mat ← opt_mapM (fun d => be_of_dict (ho 7 (d_data d)) (ho 8 (d_data d)) d) (sy_m s');
  _ ← opt_mapM lm_of_vec (sy_rhs s');
  let perm := option_map invert (sy_perm s') in
  k_full ← unwrap k_full;
  k_mat ← le_from_bienv k_full;
  m_mat ← unwrap m_mat;
  Ret (ESys (sy_dofs s) k_mat m_mat k_full (default (perm_identity (sy_dofs s)) perm)).

(** K - l M, eigen.rs:189-190 and 331-332 *)
Definition shifted (k : lenv A) (m : bienv A) (l : A) : out (lenv A) :=
  add_scaled_bienv k m (smul (sneg s1) l).

(** eigenvalues_under, eigen.rs:185-195 *)
Definition eigenvalues_under (es : esys A) (l : A) : out nat :=
  a ← shifted (es_k es) (es_m es) l;
  ld ← cholesky_envelope_no_root a;
  Ret (num_neg ld.2).

(** gram_schmidt_orthogonalize, eigen.rs:451-467 *)
Definition gs_axpy (n : nat) (w : A) (v x : list A) : out (list A) :=
  foldM (fun i x => xi ← idx x i; vi ← idx v i; set x i (ssub xi (smul w vi))) (range 0 n) x.
Definition gram_schmidt (m : bienv A) (eigs : list (epair A)) (x : list A) : out (list A) :=
  foldM (fun e x =>
           temp ← be_mul_vec m x (replicate (length x) s0);
           gs_axpy (length x) (dot (ep_vec e) temp) (ep_vec e) x) eigs x.

(** [for i in 0..n { y[i] = x[i] / mag }], eigen.rs:372-374, 385-387, 421-423, 426-428 *)
Definition scaled (n : nat) (x : list A) (mag : A) (y : list A) : out (list A) :=
  foldM (fun i y => xi ← idx x i; set y i (sdiv xi mag)) (range 0 n) y.

(** the loop of inverse_iterate, eigen.rs:356-388.  The scratch vectors [x_bar] and [y_bar] are
    overwritten completely by the calls they are passed to; here they start as zeros. *)
Definition inv_tol : A := slit 1 1000000.
Fixpoint inv_loop (fi n : nat) (l : lenv A) (d : dg A) (m : bienv A) (shift : A)
    (old : option A) (x y : list A) : out (epair A) :=
  match fi with
  | 0 => Fuel
  | S fi =>
    x_bar ← solve_ldl l d y (replicate n s0);
    y_bar ← be_mul_vec m x_bar (replicate n s0);
    let rho := sdiv (dot x_bar y) (dot x_bar y_bar) in
    let mag := ssqrt (dot x_bar y_bar) in
    if match old with Some r => sleb (sabs (sdiv (ssub rho r) rho)) inv_tol | None => false end
    then v ← scaled n x_bar mag x; Ret (EPair (sadd rho shift) v)
    else y ← scaled n y_bar mag y; inv_loop fi n l d m shift (Some rho) x y
  end.

(** inverse_iterate, eigen.rs:313-388 *)
Definition inverse_iterate (fi : nat) (rnd : list A) (k : lenv A) (m : bienv A) (shift : A)
    (eigs : option (list (epair A))) : out (epair A) :=
  _ ← assert_ (lev_n k =? be_n m);
  let n := lev_n k in
  k ← shifted k m shift;
  ld ← cholesky_envelope_no_root k;
  x ← match eigs with Some e => gram_schmidt m e rnd | None => Ret rnd end;
  y ← be_mul_vec m x (replicate n s0);
  inv_loop fi n ld.1 ld.2 m shift None x y.

(** inverse_iterate_times, eigen.rs:390-431 *)
Definition inverse_iterate_times (rnd : list A) (k : lenv A) (m : bienv A) (times : nat)
  : out (list A) :=
  _ ← assert_ (lev_n k =? be_n m);
  let n := lev_n k in
  ld ← cholesky_envelope_no_root k;
  y ← be_mul_vec m rnd (replicate n s0);
  st ← foldM (fun _ (st : list A * list A * A) =>
          x_bar ← solve_ldl ld.1 ld.2 st.1.2 st.1.1;
          y_bar ← be_mul_vec m x_bar (replicate n s0);
          let mag := ssqrt (dot x_bar y_bar) in
          y ← scaled n y_bar mag st.1.2;
          Ret (x_bar, y, mag)) (range 0 times) (replicate n s0, y, s0);
  scaled n st.1.1 st.2 rnd.

(** rayleigh_quotient, eigen.rs:433-449 *)
Definition rayleigh_quotient (x : list A) (k m : bienv A) : out A :=
  let n := be_n k in
  _ ← assert_ (be_n k =? be_n m);
  _ ← assert_ (n =? length x);
  kx ← be_mul_vec k x (replicate n s0);
  mx ← be_mul_vec m x kx;
  Ret (sdiv (dot x kx) (dot x mx)).

(** process_one, eigen.rs:197-221 *)
Definition gso_slice (pairs : list (epair A)) : option (list (epair A)) :=
  match pairs with
  | [] => None
  | _ => Some (drop (if length pairs <? 6 then 0 else length pairs - 6) pairs)
  end.
Definition process_one (fi : nat) (rnd : list A) (s : searcher A) (lower upper : A)
  : out (searcher A) :=
  p ← inverse_iterate fi rnd (es_k (se_sys s)) (es_m (se_sys s)) (mid_val lower upper)
        (gso_slice (se_pairs s));
  Ret (Searcher (se_sys s) (se_pairs s ++ [p]) (se_mus s)).

(** process_eigenrange, eigen.rs:223-237; [depth] bounds the recursion *)
Fixpoint process_eigenrange (fi depth : nat) (rnd : list A) (s : searcher A) (r : erange A)
  : out (searcher A) :=
  match r with
  | ROne lo up => process_one fi rnd s lo up
  | RMany lo up low_i next_i =>
    match depth with
    | 0 => Fuel
    | S depth =>
      under ← eigenvalues_under (se_sys s) (mid_val lo up);
      rr ← many_split lo up low_i next_i under;
      s ← process_eigenrange fi depth rnd s rr.1;
      process_eigenrange fi depth rnd s rr.2
    end
  | REmpty => Ret s
  end.

(** secant_starts, eigen.rs:239-253 *)
Fixpoint starts_loop (fs : nat) (es : esys A) (new : A) : out (A * A) :=
  match fs with
  | 0 => Fuel
  | S fs => p ← eigenvalues_under es new;
            if p =? 0 then Ret (s0, new)
            else starts_loop fs es (sdiv new (sz (Z.of_nat (p + 1))))
  end.
Definition secant_starts (fs : nat) (rnd : list A) (es : esys A) : out (A * A) :=
  x ← inverse_iterate_times rnd (es_k es) (es_m es) 3;
  q ← rayleigh_quotient x (es_kfull es) (es_m es);
  starts_loop fs es (smul (slit 99 100) q).

(** the doubling loop of secant_iterate_one, eigen.rs:269-279; answers the bracket and the last
    two sample points *)
Fixpoint double_loop (fs : nat) (es : esys A) (eigens_under : nat) (mu_new : A)
  : out (erange A * A * A) :=
  match fs with
  | 0 => Fuel
  | S fs =>
    let mu_old := mu_new in
    let mu_new := smul mu_new (sz 2) in
    new_under ← eigenvalues_under es mu_new;
    if eigens_under <? new_under
    then r ← range_new mu_old mu_new eigens_under new_under; Ret (r, mu_old, mu_new)
    else double_loop fs es eigens_under mu_new
  end.

(** secant_iterate_one, eigen.rs:255-286 *)
Definition secant_iterate_one (fi fs : nat) (rnd : list A) (s : searcher A) : out (searcher A) :=
  if es_dofs (se_sys s) <=? length (se_pairs s) then Ret s
  else
    mus ← match se_mus s with Some m => Ret m | None => secant_starts fs rnd (se_sys s) end;
    rmm ← double_loop fs (se_sys s) (length (se_pairs s)) mus.2;
    s ← process_eigenrange fi fs rnd s rmm.1.1;
    Ret (Searcher (se_sys s) (se_pairs s) (Some (rmm.1.2, rmm.2))).

(** find_eigens, eigen.rs:288-299, and eigenpairs, eigen.rs:301-310 *)
Fixpoint find_loop (fl fi fs n : nat) (rnd : list A) (s : searcher A) : out (searcher A) :=
  if length (se_pairs s) <? n then
    match fl with
    | 0 => Fuel
    | S fl => s ← secant_iterate_one fi fs rnd s; find_loop fl fi fs n rnd s
    end
  else Ret s.
Definition find_eigens (fl fi fs n : nat) (rnd : list A) (s : searcher A)
  : out (searcher A * list (epair A)) :=
  _ ← assert_ (n <=? es_dofs (se_sys s));
  s ← find_loop fl fi fs n rnd s;
  l ← mapM_out (ep_permute (es_perm (se_sys s))) (se_pairs s);
  Ret (s, take n l).

(** DeterminantSearcher::new, eigen.rs:176-182 *)
Definition searcher_new (es : esys A) : searcher A := Searcher es [] None.
End eigen.
