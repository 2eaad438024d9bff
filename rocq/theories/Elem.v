(** Model of the triangular element.
    /repo/src/element/{element,strain,stress,integrate,material}.rs *)
From Coq Require Import String.
From Verif Require Export Spatial Buffer Inverse.

(** ** Material, material.rs:11-16 *)
Record material (A : arith) := Mat { m_name : string; m_youngs : A; m_poisson : A; m_density : A }.
Global Arguments Mat {A} _ _ _ _.
Global Arguments m_name {A} _.
Global Arguments m_youngs {A} _.
Global Arguments m_poisson {A} _.
Global Arguments m_density {A} _.

(** AL6061 and TEST, material.rs:18-29 *)
Definition AL6061 {A : arith} : material A :=
  Mat "AL6061" (sz 68900000000) (slit 33 100) (sz 2700).
Definition TEST {A : arith} : material A := Mat "TEST" s1 s0 s1.

(** Material::from_str, material.rs:31-42 *)
Definition material_from_str {A : arith} (s : string) : option (material A) :=
  if String.eqb s "AL6061" then Some AL6061
  else if String.eqb s "TEST" then Some TEST else None.

(** ** Condition, strain.rs:8-12 *)
Inductive strain_cond (A : arith) := PlaneStrain (t : A) | PlaneStress (t : A) | Axisymmetric.
Global Arguments PlaneStrain {A} _.
Global Arguments PlaneStress {A} _.
Global Arguments Axisymmetric {A}.

Section condition.
Context {A : arith}.
Local Open Scope arith_scope.

(** thickness, strain.rs:15-21 *)
Definition cond_thickness (c : strain_cond A) (p : point A) : out A :=
  match c with
  | PlaneStress t => Ret t
  | PlaneStrain t => Ret t
  | Axisymmetric => pt_idx p 0%nat
  end.

(** vec_len, strain.rs:24-29 *)
Definition vec_len (c : strain_cond A) : nat :=
  match c with PlaneStrain _ | PlaneStress _ => 3 | Axisymmetric => 4 end.

(** one round of the loop in build_b for the plane conditions, strain.rs:43-54 *)
Definition build_b_plane (hg : lm A) (i : nat) (b : lm A) : out (lm A) :=
  dx ← index hg (0, i)%nat;
  dy ← index hg (1, i)%nat;
  b ← index_set b (0, 2 * i)%nat dx;
  b ← index_set b (1, 2 * i + 1)%nat dy;
  b ← index_set b (2, 2 * i)%nat dy;
  index_set b (2, 2 * i + 1)%nat dx.

(** build_b, strain.rs:31-81; [h] is the array of interpolation weights *)
Definition build_b (c : strain_cond A) (h : list A) (hg : lm A) (p : point A) : out (lm A) :=
  match c with
  | PlaneStress _ | PlaneStrain _ =>
    foldM (build_b_plane hg) (range 0%nat 3) (lm_zeros (3, 6)%nat)
  | Axisymmetric =>
    r ← pt_idx p 0%nat;
    foldM (fun i b => b ← build_b_plane hg i b;
                      hi ← idx h i;
                      index_set b (3, 2 * i)%nat (hi / r)) (range 0%nat 3) (lm_zeros (4, 6)%nat)
  end.

(** build_c, strain.rs:83-121.  [LinearMatrix::eye(3)] is [eye (3,3)]. *)
Definition build_c (c : strain_cond A) (m : material A) : out (lm A) :=
  let v := m_poisson m in
  let e := m_youngs m in
  match c with
  | PlaneStress _ =>
    r ← eye (3, 3)%nat;
    r ← index_set r (1, 0)%nat v;
    r ← index_set r (0, 1)%nat v;
    r ← index_set r (2, 2)%nat ((1 - v) / s2);
    Ret (lm_scale r (e / (1 - v * v)))
  | PlaneStrain _ =>
    r ← eye (3, 3)%nat;
    r ← index_set r (1, 0)%nat (v / (1 - v));
    r ← index_set r (0, 1)%nat (v / (1 - v));
    r ← index_set r (2, 2)%nat ((1 - s2 * v) / (s2 * (1 - v)));
    Ret (lm_scale r ((e * (1 - v)) / ((1 + v) * (1 - s2 * v))))
  | Axisymmetric =>
    r ← eye (4, 4)%nat;
    let x := v / (1 - v) in
    r ← foldM (fun ij r => r ← index_set r ij x; index_set r (ij.2, ij.1) x)
              [(0, 1); (0, 3); (3, 1)]%nat r;
    r ← index_set r (2, 2)%nat ((1 - s2 * v) / (s2 * (1 - v)));
    Ret (lm_scale r ((e * (1 - v)) / ((1 + v) * (1 - s2 * v))))
  end.
End condition.

(** ** Quadrature, integrate.rs *)
Section integrate.
Context {A : arith}.
Local Open Scope arith_scope.

(** the tables GAUSS_POINTS and GAUSS_WEIGHTS, integrate.rs:12-37, zipped; decimal
    literals as quotients of integers *)
Definition gauss_table (order : nat) : out (list (A * A)) :=
  idx [ [];
        [(s0, s2)];
        [(slit (-577350269189626) (10 ^ 15), s1); (slit 577350269189626 (10 ^ 15), s1)];
        [(slit (-774596669241483) (10 ^ 15), slit 555555555555555 (10 ^ 15));
         (s0, slit 888888888888888 (10 ^ 15));
         (slit 774596669241483 (10 ^ 15), slit 555555555555555 (10 ^ 15))];
        [(slit (-861136311594053) (10 ^ 15), slit 347854845137454 (10 ^ 15));
         (slit (-339981043584856) (10 ^ 15), slit 652145154862546 (10 ^ 15));
         (slit 339981043584856 (10 ^ 15), slit 652145154862546 (10 ^ 15));
         (slit 861136311594053 (10 ^ 15), slit 347854845137454 (10 ^ 15))] ] order.

(** GAUSS_TRI_R_1 and GAUSS_TRI_R_2, integrate.rs:41-47 *)
Definition tri_a : A := s1 / sz 6.
Definition tri_b : A := s2 / sz 3.

(** GAUSS_TRI_SAMPLES, integrate.rs:49-53 *)
Definition tri_samples : list (A * A) := [(tri_a, tri_a); (tri_b, tri_a); (tri_a, tri_b)].

(** gauss_tri, integrate.rs:55-66; [+=] and [*=] of the integrand type are parameters *)
Definition gauss_tri {U} (add : U -> U -> out U) (scale : U -> A -> U)
  (f : point A -> out U) : out U :=
  r ← f (pt2 tri_a tri_a);
  t ← f (pt2 tri_b tri_a);
  r ← add r t;
  t ← f (pt2 tri_a tri_b);
  r ← add r t;
  Ret (scale r (s1 / sz 6)).

(** the map of [-1,1] onto the segment, integrate.rs:76; 0.5 is exactly 1/2 *)
Definition seg_point (a b : point A) (t : A) : out (point A) :=
  let half := s1 / s2 in
  q ← pt_add (pt_mid a b) (pt_scale (pt_scale b t) half);
  pt_sub q (pt_scale (pt_scale a t) half).

(** gauss_segment_mat, integrate.rs:69-99 *)
Definition gauss_segment_mat (f : point A -> out (lm A)) (a b : point A) (order : nat)
  : out (lm A) :=
  d ← pt_dist a b;
  tab ← gauss_table order;
  match tab with
  | [] => Panic
  | (p0, w0) :: rest =>
    q ← seg_point a b p0;
    m ← f q;
    s ← foldM (fun pw s => q ← seg_point a b pw.1; t ← f q; add_ass s (lm_scale t pw.2))
              rest (lm_scale m w0);
    Ret (lm_scale s (d / s2))
  end.
End integrate.

(** ** Element, element.rs:25-31.  [NodeId] is a nat. *)
Record element (A : arith) := El {
  e_ids : nat * nat * nat;
  e_pts : point A * point A * point A;
  e_mat : material A;
  e_cond : strain_cond A }.
Global Arguments El {A} _ _ _ _.
Global Arguments e_ids {A} _.
Global Arguments e_pts {A} _.
Global Arguments e_mat {A} _.
Global Arguments e_cond {A} _.

(** ElementMats, element.rs:363-370 *)
Record emats (A : arith) := EMats {
  em_b : lm A; em_h : lm A; em_j : lm A; em_jinv : lm A; em_det : A; em_th : A }.
Global Arguments EMats {A} _ _ _ _ _ _.
Global Arguments em_b {A} _.
Global Arguments em_h {A} _.
Global Arguments em_j {A} _.
Global Arguments em_jinv {A} _.
Global Arguments em_det {A} _.
Global Arguments em_th {A} _.

(** ** StressState, stress.rs:6-17 *)
Inductive stress_type := Bar | Plane | AxiSym | ThreeD.
Global Instance stress_type_eq : EqDecision stress_type.
Proof. solve_decision. Defined.
Record stress (A : arith) := Stress { st_type : stress_type; st_data : list A }.
Global Arguments Stress {A} _ _.
Global Arguments st_type {A} _.
Global Arguments st_data {A} _.

Section stress.
Context {A : arith}.
Local Open Scope arith_scope.

(** loc, stress.rs:20-53 *)
Definition st_loc (t : stress_type) (a b : nat) : out nat :=
  match t, a, b with
  | Bar, 0, 0 => Ret 0
  | Plane, 0, 0 => Ret 0
  | Plane, 1, 1 => Ret 1
  | Plane, 0, 1 | Plane, 1, 0 => Ret 2
  | AxiSym, 0, 0 => Ret 0
  | AxiSym, 1, 1 => Ret 1
  | AxiSym, 0, 1 | AxiSym, 1, 0 => Ret 2
  | AxiSym, 2, 2 => Ret 3
  | ThreeD, 0, 0 => Ret 0
  | ThreeD, 1, 1 => Ret 1
  | ThreeD, 2, 2 => Ret 2
  | ThreeD, 0, 1 | ThreeD, 1, 0 => Ret 3
  | ThreeD, 1, 2 | ThreeD, 2, 1 => Ret 4
  | ThreeD, 0, 2 | ThreeD, 2, 0 => Ret 5
  | _, _, _ => Panic
  end%nat.

(** from_vector, stress.rs:55-82: the loop over [flat()] panics at index 6 *)
Definition st_from_vector (v : lm A) : out (stress A) :=
  let '(r, c) := mshape v in
  if negb ((r =? 1) || (c =? 1))%nat then Panic else
  l ← flat v;
  data ← foldM (fun ix data => if (6 <=? ix.1)%nat then Panic else set data ix.1 ix.2)
               (imap pair l) (replicate 6 s0);
  match (r `max` c)%nat with
  | 1 => Ret (Stress Bar data)
  | 3 => Ret (Stress Plane data)
  | 4 => Ret (Stress AxiSym data)
  | 6 => Ret (Stress ThreeD data)
  | _ => Panic
  end%nat.

(** to_cauchy, stress.rs:84-100; [unimplemented!()] panics *)
Definition to_cauchy (s : stress A) : out (lm A) :=
  dim ← match st_type s with Bar => Ret 1 | Plane => Ret 2 | ThreeD => Ret 3 | AxiSym => Panic end%nat;
  foldM (fun r m => foldM (fun c m => i ← st_loc (st_type s) r c; x ← idx (st_data s) i;
                                       index_set m (r, c) x) (range r dim) m)
        (range 0%nat dim) (lm_zeros (dim, dim)).

(** von_mises, stress.rs:102-126; [data] is an array of length 6, so indexing cannot fail *)
Definition von_mises (s : stress A) : A :=
  let d i := nth i (st_data s) s0 in
  match st_type s with
  | Bar => d 0%nat
  | Plane => ssqrt (ssq (d 0%nat - d 1%nat) + sz 3 * ssq (d 2%nat))
  | ThreeD =>
    let normals := ssq (d 0%nat - d 1%nat) + ssq (d 1%nat - d 2%nat) + ssq (d 0%nat - d 2%nat) in
    let shears := ssq (d 3%nat) + ssq (d 4%nat) + ssq (d 5%nat) in
    ssqrt (s1 / s2 * normals + sz 3 * shears)
  | AxiSym =>
    let normals := ssq (d 0%nat - d 1%nat) + ssq (d 1%nat - d 3%nat) + ssq (d 0%nat - d 3%nat) in
    let shear := ssq (d 2%nat) in
    ssqrt (s1 / s2 * normals + sz 3 * shear)
  end.

(** Add, stress.rs:129-147 *)
Definition st_add (a b : stress A) : out (stress A) :=
  if decide (st_type a = st_type b)
  then Ret (Stress (st_type a) (zip_with sadd (st_data a) (st_data b))) else Panic.
(** Mul<f64> and Div<f64>, stress.rs:149-181 *)
Definition st_mul (a : stress A) (k : A) : stress A := Stress (st_type a) (map (fun x => x * k) (st_data a)).
Definition st_div (a : stress A) (k : A) : stress A := Stress (st_type a) (map (fun x => x / k) (st_data a)).
End stress.

Section element.
Context {A : arith}.
Implicit Types e : element A.
Local Open Scope arith_scope.

(** node_ids as a list, element.rs:62-64 *)
Definition e_id_list e : list nat := [(e_ids e).1.1; (e_ids e).1.2; (e_ids e).2].
(** node_points as a list, element.rs:58-60 *)
Definition e_pt_list e : list (point A) := [(e_pts e).1.1; (e_pts e).1.2; (e_pts e).2].

(** nodes_connect, element.rs:66-72 *)
Definition nodes_connect e (a b : nat) : bool :=
  let '(x, y, z) := e_ids e in
  existsb (fun q => (q.1 =? a)%nat && (q.2 =? b)%nat) [(x, y); (y, x); (y, z); (z, y); (x, z); (z, x)].

(** node_natural, element.rs:74-88 *)
Definition node_natural e (a : nat) : option (point A) :=
  let '(x, y, z) := e_ids e in
  if (a =? x)%nat then Some (pt2 s0 s0)
  else if (a =? y)%nat then Some (pt2 s1 s0)
  else if (a =? z)%nat then Some (pt2 s0 s1) else None.

(** node, element.rs:90-102 *)
Definition e_node e (a : nat) : option (point A) :=
  let '(x, y, z) := e_ids e in
  if (a =? x)%nat then Some (e_pts e).1.1
  else if (a =? y)%nat then Some (e_pts e).1.2
  else if (a =? z)%nat then Some (e_pts e).2 else None.

(** map_dof, element.rs:104-112 *)
Definition map_dof e (i : nat) : out (nat * nat) := n ← idx (e_id_list e) (i / 2)%nat; Ret (n, (i mod 2)%nat).

(** get_isopar_mats, element.rs:114-176 *)
Definition get_isopar_mats e (c : point A) : out (emats A) :=
  rs ← pt_pair c;
  let r := rs.1 in let s := rs.2 in
  let h := [1 - r - s; r; s] in
  h_grads ← lm_from_flat (2, 3)%nat [-(1); 1; 0; -(1); 0; 1];
  h_mat ← lm_from_flat (2, 6)%nat [1 - r - s; 0; r; 0; s; 0; 0; 1 - r - s; 0; r; 0; s];
  pm ← from_points_row (M := lm A) (e_pt_list e);
  j ← mmul (M3 := lm A) h_grads pm;
  _ ← assert_ (bool_decide (mshape j = (2, 2)%nat));
  j_inv ← inverse j;
  rdet ← determinant j;
  det ← match rdet with Ok d => Ret d | Err _ => Panic end;
  hv ← row_vec (M := lm A) h;
  coords ← mmul (M3 := lm A) hv pm;
  cx ← index coords (0, 0)%nat;
  cy ← index coords (0, 1)%nat;
  th ← cond_thickness (e_cond e) (pt2 cx cy);
  hg ← mmul (M3 := lm A) j_inv h_grads;
  b ← build_b (e_cond e) h hg (pt2 cx cy);
  Ret (EMats b h_mat j j_inv det th).

(** edges, element.rs:178-184 *)
Definition e_edges e : list (nat * nat) :=
  let '(x, y, z) := e_ids e in [(x, y); (y, z); (z, x)].

(** triangles, element.rs:186-189 *)
Definition e_triangles e : list (nat * nat * nat) := [e_ids e].

(** map_matrix, element.rs:193-197 *)
Definition map_matrix e (m : lm A) : out (list ((nat * nat) * (nat * nat) * A)) :=
  ix ← indices m;
  mapM_out (fun i => a ← map_dof e i.1; b ← map_dof e i.2; v ← index m i; Ret (a, b, v)) ix.

(** map_vec, element.rs:199-204 *)
Definition map_vec e (v : list A) : out (list ((nat * nat) * A)) :=
  mapM_out (fun ix => a ← map_dof e ix.1; Ret (a, ix.2)) (imap pair v).

(** the integrand of K, element.rs:211-222 *)
Definition k_integrand e (c : lm A) (p : point A) : out (lm A) :=
  m ← get_isopar_mats e p;
  inter ← mmul (M3 := lm A) (lm_transpose (em_b m)) c;
  mmul (lm_scale (lm_scale inter (em_det m)) (em_th m)) (lm_transpose (lm_transpose (em_b m))).

(** calc_k, element.rs:208-228 *)
Definition calc_k e : out (list ((nat * nat) * (nat * nat) * A)) :=
  c ← build_c (e_cond e) (e_mat e);
  k ← gauss_tri lm_add_assign lm_scale (k_integrand e c);
  map_matrix e k.

(** the integrand of M, element.rs:231-241 *)
Definition m_integrand e (p : point A) : out (lm A) :=
  m ← get_isopar_mats e p;
  mmul (lm_scale (lm_transpose (em_h m)) (m_density (e_mat e) * em_th m)) (em_h m).

(** calc_m, element.rs:230-247 *)
Definition calc_m e : out (list ((nat * nat) * (nat * nat) * A)) :=
  k ← gauss_tri lm_add_assign lm_scale (m_integrand e);
  map_matrix e k.

(** int_f_l, element.rs:249-296 *)
Definition int_f_l e (edge : nat * nat) (f : point A) : out (option (list ((nat * nat) * A))) :=
  if negb (nodes_connect e edge.1 edge.2) then Ret None else
  _ ← assert_ (p_n f =? 2)%nat;
  fv ← pt_to_vec f;
  f ← col_vec (M := lm A) fv;
  a ← unwrap (node_natural e edge.1);
  b ← unwrap (node_natural e edge.2);
  res ← gauss_segment_mat (fun q => m ← get_isopar_mats e q; mmul (lm_transpose (em_h m)) f) a b 2;
  nat_len ← pt_dist a b;
  a_real ← unwrap (e_node e edge.1);
  b_real ← unwrap (e_node e edge.2);
  real_len ← pt_dist a_real b_real;
  l ← flat (lm_scale res (real_len / nat_len));
  r ← map_vec e l;
  Ret (Some r).

(** stresses, element.rs:298-329; [disps] is the boxed closure *)
Definition e_stresses e (disps : nat -> out (point A)) : out (list (nat * stress A)) :=
  us ← mapM_out (fun n => d ← disps n; mapM_out (pt_idx d) (range 0%nat 2)) (e_id_list e);
  u ← col_vec (M := lm A) (concat us);
  c ← build_c (e_cond e) (e_mat e);
  mapM_out (fun n =>
    p ← unwrap (node_natural e n);
    m ← get_isopar_mats e p;
    st ← mmul (M3 := lm A) c (em_b m);
    st ← mmul (M3 := lm A) st u;
    s ← st_from_vector st;
    Ret (n, s)) (e_id_list e).

(** jacobian_ratio, element.rs:331-359 *)
Definition jacobian_ratio e : out A :=
  js ← mapM_out (fun rs => m ← get_isopar_mats e (pt2 rs.1 rs.2); Ret (em_det m)) tri_samples;
  a ← max_by cmp_unwrap js; a ← unwrap a;
  b ← min_by cmp_unwrap js; b ← unwrap b;
  if sltb (sabs a) (sabs b) then Ret (a / b) else Ret (b / a).
End element.
