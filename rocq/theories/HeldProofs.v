(** Which supports hold a mesh: exactly those that admit no rigid motion. *)
From Coq Require Import Ascii String.
From Verif Require Export StudyProofs CliStudy.
From Verif Require Import CliProofs CliMesh.
From Verif Require Import Cli.
Local Close Scope string_scope.
Local Open Scope nat_scope.
Local Open Scope list_scope.

(** an infinitesimal rigid motion: translation (tx, ty) and rotation om *)
Definition rigid {A : arith} (t : A * A * A) (x y : A) : A * A := (ssub t.1.1 (smul t.2 y), sadd t.1.2 (smul t.2 x)).
(** in an axisymmetric study only the axial translation is a rigid motion *)
Definition rigid_for {A : arith} (c : strain_cond A) (t : A * A * A) : Prop :=
  match c with Axisymmetric => t.1.1 = s0 /\ t.2 = s0 | _ => True end.
(** two elements have two corners in common *)
Definition share_edge {A : arith} (e f : element A) : Prop :=
  exists m n, m <> n /\ m ∈ e_id_list e /\ n ∈ e_id_list e /\ m ∈ e_id_list f /\ n ∈ e_id_list f.
(** the elements cover all nodes and form one piece, joined edge to edge *)
Definition one_piece {A : arith} (a : elas A) : Prop :=
  ea_elems a <> [] /\
  (forall n, n < node_count a -> exists e, e ∈ ea_elems a /\ n ∈ e_id_list e) /\
  (forall e f, e ∈ ea_elems a -> f ∈ ea_elems a -> rtc (fun e f => e ∈ ea_elems a /\ f ∈ ea_elems a /\ share_edge e f) e f).
(** the elements have material: positive thickness, or lie on the positive side of the axis *)
Definition solid {A : arith} (e : element A) : Prop :=
  match e_cond e with
  | PlaneStrain t | PlaneStress t => lts s0 t
  | Axisymmetric => les s0 (p_x (e_pts e).1.1) /\ les s0 (p_x (e_pts e).1.2) /\ les s0 (p_x (e_pts e).2)
  end.
(** no rigid motion but rest is compatible with the supports *)
Definition rigidly_held {A : arith} (a : elas A) : Prop :=
  forall t, rigid_for (ea_cond a) t -> respects (ea_cons a) (motion (ea_nodes a) (rigid t)) -> t = (s0, s0, s0).

Section held.
Context {A : arith} (OL : ord_laws A).
Let FL : field_laws A := ol_field A OL.
Add Field Afield52 : (fl_field A FL).
Local Open Scope arith_scope.
Implicit Types (e : element A) (a : elas A) (p q : point A).

Lemma nonneg_sum_0 (x y : A) : les 0 x -> les 0 y -> x + y = 0 -> x = 0 /\ y = 0.
Proof.
  intros Hx Hy E. assert (x = 0) as Ex.
  { apply (les_antisym OL); [|exact Hx]. apply (les_sub0 OL). replace (0 - x) with y; [exact Hy|].
    transitivity (x + y - x); [ring|]. rewrite E. ring. }
  split; [exact Ex|]. rewrite Ex in E. rewrite <- E. ring.
Qed.
Lemma sq_0 (x : A) : x * x = 0 -> x = 0.
Proof. intros E. apply (mul_eq_0 OL) in E. tauto. Qed.
Lemma scaled_0 (c x : A) : lts 0 c -> c * x = 0 -> x = 0.
Proof. intros Hc E. apply (mul_eq_0 OL) in E as [E|E]; [|exact E]. exfalso. rewrite E in Hc. exact (lts_irr OL 0 Hc). Qed.

(** strain without energy is no strain *)
Lemma energy_zero c (m : material A) x : admissible c m -> energy (vec_len c) (c_c c m) x x = 0 ->
  forall k, (k < vec_len c)%nat -> x k = 0.
Proof.
  intros Ha. pose proof (poisson_pos OL c m Ha) as Hp. destruct Ha as (He & Hv & Hc).
  assert (Hdiv : forall a b : A, lts 0 a -> lts 0 b -> lts 0 (a / b)) by (intros; now apply (div_pos OL)).
  assert (N : forall a b : A, lts 0 a -> les 0 b -> les 0 (a * b)) by (intros; apply (mul_nonneg OL); [now apply (lts_les OL)|assumption]).
  pose proof (two_pos OL) as P2. pose proof (three_pos OL) as P3. pose proof (two_neq OL) as N2. pose proof (three_neq OL) as N3.
  assert (D : forall c, match c : strain_cond A with PlaneStress _ => False | _ => True end ->
     lts 0 (1 - (1 + 1) * m_poisson m) -> energy (vec_len c) (c_c c m) x x = 0 -> forall k, (k < vec_len c)%nat -> x k = 0).
  { clear c Hc. intros c Hc H2. rewrite (energy_solid OL) by (try exact Hc; now apply (pos_neq OL)).
    cbv zeta.
    set (c1 := m_youngs m / ((1 + (1 + 1)) * (1 + m_poisson m))). set (c2 := m_youngs m / ((1 + (1 + 1)) * (1 - (1 + 1) * m_poisson m))).
    set (c3 := m_youngs m / ((1 + 1) * (1 + m_poisson m))).
    assert (C1 : lts 0 c1) by (apply Hdiv; [exact He|apply (mul_pos OL); assumption]).
    assert (C2 : lts 0 c2) by (apply Hdiv; [exact He|apply (mul_pos OL); assumption]).
    assert (C3 : lts 0 c3) by (apply Hdiv; [exact He|apply (mul_pos OL); assumption]).
    assert (Q : forall y0 y1 y2 y3 : A, c1 * ((y0 - y1) * (y0 - y1) + (y1 - y3) * (y1 - y3) + (y0 - y3) * (y0 - y3)) +
       c2 * ((y0 + y1 + y3) * (y0 + y1 + y3)) + c3 * (y2 * y2) = 0 -> y0 = 0 /\ y1 = 0 /\ y2 = 0 /\ y3 = 0).
    { intros y0 y1 y2 y3 E. apply nonneg_sum_0 in E as [E E3];
        [|repeat apply (add_nonneg OL); apply N; try assumption; repeat apply (add_nonneg OL); apply (sq_nonneg OL)|apply N; [assumption|apply (sq_nonneg OL)]].
      apply nonneg_sum_0 in E as [E1 E2];
        [|apply N; try assumption; repeat apply (add_nonneg OL); apply (sq_nonneg OL)|apply N; [assumption|apply (sq_nonneg OL)]].
      apply scaled_0, sq_0 in E3; [|exact C3]. apply scaled_0, sq_0 in E2; [|exact C2]. apply scaled_0 in E1; [|exact C1].
      apply nonneg_sum_0 in E1 as [E1 E13]; [|apply (add_nonneg OL); apply (sq_nonneg OL)|apply (sq_nonneg OL)].
      apply nonneg_sum_0 in E1 as [E11 E12]; [|apply (sq_nonneg OL)..]. apply sq_0 in E11, E12, E13.
      assert (Y0 : y0 = 0).
      { apply (scaled_0 (1 + (1 + 1)) _ P3).
        transitivity ((y0 + y1 + y3) + (y0 - y1) + (y0 - y3)); [ring|]. rewrite E2, E11, E13. ring. }
      split; [exact Y0|]. split; [transitivity (y0 - (y0 - y1)); [ring|]; rewrite E11, Y0; ring|].
      split; [exact E3|]. transitivity (y0 - (y0 - y3)); [ring|]; rewrite E13, Y0; ring. }
    intros E k Hk. destruct c as [t|t| ]; [|contradiction|]; cbn [vec_len] in Hk; apply Q in E as (Y0 & Y1 & Y2 & Y3);
      do 4 (destruct k as [|k]; [first [assumption|lia]|]); lia. }
  destruct c as [t|t| ].
  - apply (D (PlaneStrain t)); [exact I|exact Hc].
  - cbn [vec_len]. rewrite (energy_plane_stress OL) by now apply (pos_neq OL).
    set (c1 := m_youngs m / ((1 + 1) * (1 - m_poisson m))). set (c2 := m_youngs m / ((1 + 1) * (1 + m_poisson m))).
    assert (C1 : lts 0 c1) by (apply Hdiv; [exact He|apply (mul_pos OL); assumption]).
    assert (C2 : lts 0 c2) by (apply Hdiv; [exact He|apply (mul_pos OL); assumption]).
    intros E. apply nonneg_sum_0 in E as [E1 E2];
      [|apply N; [assumption|apply (sq_nonneg OL)]|apply N; [assumption|apply (add_nonneg OL); apply (sq_nonneg OL)]].
    apply scaled_0, sq_0 in E1; [|exact C1]. apply scaled_0 in E2; [|exact C2].
    apply nonneg_sum_0 in E2 as [E2 E3]; [|apply (sq_nonneg OL)..]. apply sq_0 in E2, E3.
    assert (Y0 : x 0%nat = 0).
    { apply (scaled_0 (1 + 1) _ P2). transitivity ((x 0%nat + x 1%nat) + (x 0%nat - x 1%nat)); [ring|]. rewrite E1, E2. ring. }
    assert (Y1 : x 1%nat = 0) by (transitivity (x 0%nat - (x 0%nat - x 1%nat)); [ring|]; rewrite E2, Y0; ring).
    intros k Hk. do 3 (destruct k as [|k]; [assumption|]). lia.
  - apply (D Axisymmetric); [exact I|exact Hc].
Qed.

(** any three nodal values are those of one affine field *)
Lemma interpolate (p q w : A * A) (u0 u1 u2 : A) : det_c p q w <> 0 ->
  exists a : A * A * A, a.1.1 + a.1.2 * p.1 + a.2 * p.2 = u0 /\ a.1.1 + a.1.2 * q.1 + a.2 * q.2 = u1 /\ a.1.1 + a.1.2 * w.1 + a.2 * w.2 = u2.
Proof.
  intros Hd. rewrite (det_area FL) in Hd.
  set (D := (q.1 - p.1) * (w.2 - p.2) - (w.1 - p.1) * (q.2 - p.2)) in *.
  set (a1 := ((u1 - u0) * (w.2 - p.2) - (u2 - u0) * (q.2 - p.2)) / D).
  set (a2 := ((q.1 - p.1) * (u2 - u0) - (w.1 - p.1) * (u1 - u0)) / D).
  exists (u0 - a1 * p.1 - a2 * p.2, a1, a2). cbn [fst snd]. unfold a1, a2. split; [ring|].
  split; unfold D in *; field; exact Hd.
Qed.

Lemma ccw_det e : ccw e -> det_c (ElemProofs.xy (e_pts e).1.1) (ElemProofs.xy (e_pts e).1.2) (ElemProofs.xy (e_pts e).2) <> 0.
Proof. intros H E. rewrite (det_area FL) in E. unfold ccw in H. cbn [ElemProofs.xy fst snd] in E. rewrite E in H. exact (lts_irr OL 0 H). Qed.

(** an affine function that is zero at the corners of a triangle is zero *)
Lemma affine_zero (p q w : A * A) (a : A * A * A) : det_c p q w <> 0 ->
  a.1.1 + a.1.2 * p.1 + a.2 * p.2 = 0 -> a.1.1 + a.1.2 * q.1 + a.2 * q.2 = 0 -> a.1.1 + a.1.2 * w.1 + a.2 * w.2 = 0 ->
  a = (0, 0, 0).
Proof.
  intros Hd H0 H1 H2. rewrite (det_area FL) in Hd. destruct a as [[a0 a1] a2]. cbn [fst snd] in *.
  set (D := (q.1 - p.1) * (w.2 - p.2) - (w.1 - p.1) * (q.2 - p.2)) in *.
  assert (E1 : D * a1 = 0).
  { transitivity (((a0 + a1 * q.1 + a2 * q.2) - (a0 + a1 * p.1 + a2 * p.2)) * (w.2 - p.2) -
                  ((a0 + a1 * w.1 + a2 * w.2) - (a0 + a1 * p.1 + a2 * p.2)) * (q.2 - p.2)); [unfold D; ring|]. rewrite H0, H1, H2. ring. }
  assert (E2 : D * a2 = 0).
  { transitivity (((a0 + a1 * w.1 + a2 * w.2) - (a0 + a1 * p.1 + a2 * p.2)) * (q.1 - p.1) -
                  ((a0 + a1 * q.1 + a2 * q.2) - (a0 + a1 * p.1 + a2 * p.2)) * (w.1 - p.1)); [unfold D; ring|]. rewrite H0, H1, H2. ring. }
  apply (mul_eq_0 OL) in E1 as [E1|E1]; [contradiction|]. apply (mul_eq_0 OL) in E2 as [E2|E2]; [contradiction|].
  subst. f_equal. f_equal. rewrite <- H0. ring.
Qed.

Lemma solid_thick e : solid e -> thick e.
Proof. unfold solid, thick. destruct (e_cond e); [apply (lts_les OL)..|auto]. Qed.

Lemma th_pos e : ccw e -> solid e -> forall rs, rs ∈ tri_samples -> lts 0 (em_th (mats_c e rs.1 rs.2)).
Proof.
  intros Hd Ht rs Hrs. pose proof (ccw_det e Hd) as Hd0. unfold solid in Ht. unfold mats_c. cbn [em_th]. unfold th_c.
  destruct (e_cond e); [exact Ht|exact Ht|]. destruct Ht as (H0 & H1 & H2).
  destruct (tri_rest OL) as (R1 & R2 & R3).
  assert (Pa : lts 0 (tri_a : A)) by (unfold tri_a; apply (inv_pos OL); exact (sz_pos OL 6)).
  assert (Pb : lts 0 (tri_b : A)) by (unfold tri_b; apply (div_pos OL); [exact (two_pos OL)|exact (sz_pos OL 3)]).
  rewrite (det_area FL) in Hd0. rewrite (coord_lin FL). unfold ElemProofs.xy in *. cbn [fst snd] in *.
  set (x0 := p_x (e_pts e).1.1) in *. set (x1 := p_x (e_pts e).1.2) in *. set (x2 := p_x (e_pts e).2) in *.
  assert (G : forall c0 c1 c2 : A, lts 0 c0 -> lts 0 c1 -> lts 0 c2 -> lts 0 (c0 * x0 + c1 * x1 + c2 * x2)).
  { intros c0 c1 c2 C0 C1 C2.
    assert (N : forall c x : A, lts 0 c -> les 0 x -> les 0 (c * x)) by (intros; apply (mul_nonneg OL); [now apply (lts_les OL)|assumption]).
    assert (Hn : les 0 (c0 * x0 + c1 * x1 + c2 * x2)) by (repeat apply (add_nonneg OL); now apply N).
    apply (les_iff OL) in Hn as [Hn|Hn]; [exact Hn|]. exfalso. symmetry in Hn.
    apply nonneg_sum_0 in Hn as [Hn E2]; [|apply (add_nonneg OL); now apply N|now apply N].
    apply nonneg_sum_0 in Hn as [E0 E1]; [|now apply N..].
    apply scaled_0 in E0, E1, E2; try assumption. apply Hd0. rewrite E0, E1, E2. ring. }
  repeat (apply elem_of_cons in Hrs as [->|Hrs]); [| | |now apply elem_of_nil in Hrs]; cbn [fst snd];
    rewrite ?R1, ?R2, ?R3; now apply G.
Qed.

(** an element that stores no energy moves rigidly *)
Lemma el_zero_rigid e u : ccw e -> solid e -> admissible (e_cond e) (e_mat e) -> el_form (K_c e) u u = 0 ->
  exists t, rigid_for (e_cond e) t /\ forall i, (i < 6)%nat -> u i = nodal (rigid t) (ElemProofs.xy (e_pts e).1.1) (ElemProofs.xy (e_pts e).1.2) (ElemProofs.xy (e_pts e).2) i.
Proof.
  intros Hd Ht Ha E. rewrite (K_form FL) in E. unfold at_samples in E.
  set (p := ElemProofs.xy (e_pts e).1.1) in *. set (q := ElemProofs.xy (e_pts e).1.2) in *. set (w := ElemProofs.xy (e_pts e).2) in *.
  pose proof (ccw_det e Hd) as Hd0. fold p q w in Hd0.
  set (en := fun r s => energy (vec_len (e_cond e)) (c_c (e_cond e) (e_mat e)) (strain (b_c p q w r s) u) (strain (b_c p q w r s) u)).
  assert (Dp : forall r s, lts 0 (em_det (mats_c e r s))).
  { intros r s. unfold mats_c. cbn [em_det]. rewrite (det_area FL). exact Hd. }
  assert (Pt : forall rs, rs ∈ tri_samples -> les 0 (em_det (mats_c e rs.1 rs.2) * em_th (mats_c e rs.1 rs.2) * en rs.1 rs.2)).
  { intros rs Hrs. apply (mul_nonneg OL); [|now apply (energy_nonneg OL)].
    apply (lts_les OL), (mul_pos OL); [apply Dp|now apply th_pos]. }
  pose proof (Pt (tri_a, tri_a) ltac:(left)) as P1. pose proof (Pt (tri_b, tri_a) ltac:(right; left)) as P2.
  pose proof (Pt (tri_a, tri_b) ltac:(right; right; left)) as P3. cbn [fst snd] in P1, P2, P3.
  apply (mul_eq_0 OL) in E as [E|E]; [|exfalso; exact (pos_neq OL _ (inv_pos OL _ (sz_pos OL 6)) E)].
  apply nonneg_sum_0 in E as [E E3]; [|apply (add_nonneg OL); assumption|exact P3].
  apply nonneg_sum_0 in E as [E1 E2]; [|assumption..].
  assert (St : forall rs, rs ∈ tri_samples -> forall k, (k < vec_len (e_cond e))%nat -> strain (b_c p q w rs.1 rs.2) u k = 0).
  { intros rs Hrs. apply (energy_zero _ _ _ Ha). apply (scaled_0 (em_det (mats_c e rs.1 rs.2) * em_th (mats_c e rs.1 rs.2))).
    - apply (mul_pos OL); [apply Dp|now apply th_pos].
    - repeat (apply elem_of_cons in Hrs as [->|Hrs]); [| | |now apply elem_of_nil in Hrs]; assumption. }
  destruct (interpolate p q w (u 0%nat) (u 2%nat) (u 4%nat) Hd0) as (a & A0 & A1 & A2).
  destruct (interpolate p q w (u 1%nat) (u 3%nat) (u 5%nat) Hd0) as (b & B0 & B1 & B2).
  assert (Hu : forall i, (i < 6)%nat -> u i = nodal (affine a b) p q w i).
  { intros i Hi. do 6 (destruct i as [|i]; [unfold nodal, affine; cbn [fst snd]; congruence|]). lia. }
  assert (Sx : forall r s k, strain (b_c p q w r s) u k = strain (b_c p q w r s) (nodal (affine a b) p q w) k).
  { intros r s k. unfold strain. apply bigsum_ext. intros j Hj. now rewrite <- Hu. }
  assert (Hv : (3 <= vec_len (e_cond e))%nat) by (destruct (e_cond e); cbn; lia).
  destruct (strain_affine FL a b p q w tri_a tri_a Hd0) as (F0 & F1 & F2 & _).
  rewrite <- Sx in F0, F1, F2.
  pose proof (St (tri_a, tri_a) ltac:(left)) as St0. cbn [fst snd] in St0.
  rewrite St0 in F0, F1, F2 by lia.
  assert (Hrig : a.2 = - b.1.2) by (transitivity ((a.2 + b.1.2) - b.1.2); [ring|]; rewrite <- F2; ring).
  assert (Hall : forall i, (i < 6)%nat -> u i = nodal (rigid (a.1.1, b.1.1, b.1.2)) p q w i).
  { intros i Hi. rewrite Hu by exact Hi. unfold nodal, affine, rigid. cbn [fst snd]. rewrite <- F0, <- F1, Hrig.
    do 6 (destruct i as [|i]; [ring|]). reflexivity. }
  destruct (e_cond e) eqn:Ec; [exists (a.1.1, b.1.1, b.1.2); split; [exact I|exact Hall]..|].
  exists (a.1.1, b.1.1, b.1.2). split; [|exact Hall].
  (* hoop strain at the three sample points *)
  set (P := fun rs : A * A => (coord_c rs.1 rs.2 p.1 q.1 w.1, coord_c rs.1 rs.2 p.2 q.2 w.2)).
  assert (Hoop : forall rs, rs ∈ tri_samples -> a.1.1 + a.1.2 * (P rs).1 + a.2 * (P rs).2 = 0).
  { intros rs Hrs. pose proof (St rs Hrs 3%nat ltac:(cbn; lia)) as H3.
    destruct (strain_affine FL a b p q w rs.1 rs.2 Hd0) as (_ & _ & _ & F3). rewrite <- Sx, H3 in F3.
    pose proof (th_pos e Hd Ht rs Hrs) as Hth. unfold mats_c in Hth. cbn [em_th] in Hth. unfold th_c in Hth. rewrite Ec in Hth. fold p q w in Hth.
    unfold affine in F3. cbn [fst snd] in F3. unfold P. cbn [fst snd].
    set (c := coord_c rs.1 rs.2 p.1 q.1 w.1) in *. set (z := a.1.1 + a.1.2 * c + a.2 * coord_c rs.1 rs.2 p.2 q.2 w.2) in *.
    transitivity (z / c * c); [field; exact (pos_neq OL _ Hth)|]. rewrite <- F3. ring. }
  assert (Hz : a = (0, 0, 0)).
  { apply (affine_zero (P (tri_a, tri_a)) (P (tri_b, tri_a)) (P (tri_a, tri_b))).
    - unfold P. cbn [fst snd]. rewrite (det_area FL), !(coord_lin FL). cbn [fst snd]. rewrite (det_area FL) in Hd0.
      destruct (tri_rest OL) as (R1 & R2 & R3). rewrite R1, R2, R3. intros Z. apply Hd0.
      assert (Hab : (tri_b - tri_a : A) <> 0).
      { pose proof (two_neq OL) as N2. pose proof (three_neq OL) as N3.
        assert (H : (tri_b - tri_a : A) = 1 / (1 + 1)) by (unfold tri_a, tri_b; rewrite s2_eq, sz6_eq, sz3_eq; field; auto using (six_neq OL)).
        rewrite H. apply (pos_neq OL), (inv_pos OL), (two_pos OL). }
      assert (Z2 : (tri_b - tri_a) * (tri_b - tri_a) * ((q.1 - p.1) * (w.2 - p.2) - (w.1 - p.1) * (q.2 - p.2)) = 0).
      { rewrite <- Z. ring. }
      apply (mul_eq_0 OL) in Z2 as [Z2|Z2]; [|exact Z2]. apply sq_0 in Z2. contradiction.
    - apply Hoop. left.
    - apply Hoop. right. left.
    - apply Hoop. right. right. left. }
  rewrite Hz in Hrig |- *. cbn [fst snd] in Hrig |- *. split; [reflexivity|].
  change (b.1.2 = 0). transitivity (0 - (- (b.1.2))); [ring|]. rewrite <- Hrig. ring.
Qed.


(** the nodes of an element move with the rigid motion t *)
Definition moves (a : elas A) (u : nat -> A) (t : A * A * A) (n : nat) : Prop :=
  forall p, ea_nodes a !! n = Some p -> u (n * 2)%nat = (rigid t (p_x p) (p_y p)).1 /\ u (n * 2 + 1)%nat = (rigid t (p_x p) (p_y p)).2.

Lemma el_moves a e u t : el_of a e ->
  (forall i, (i < 6)%nat -> loc e u i = nodal (rigid t) (ElemProofs.xy (e_pts e).1.1) (ElemProofs.xy (e_pts e).1.2) (ElemProofs.xy (e_pts e).2) i) ->
  forall n, n ∈ e_id_list e -> moves a u t n.
Proof.
  intros (_ & _ & _ & H0 & H1 & H2) H n Hn p Hp.
  pose proof (H 0%nat ltac:(lia)) as L0. pose proof (H 1%nat ltac:(lia)) as L1. pose proof (H 2%nat ltac:(lia)) as L2.
  pose proof (H 3%nat ltac:(lia)) as L3. pose proof (H 4%nat ltac:(lia)) as L4. pose proof (H 5%nat ltac:(lia)) as L5.
  unfold loc, e_dof, to_dof in *. cbn [fst snd Nat.div Nat.divmod Nat.modulo Nat.sub nth e_id_list nodal] in *.
  change (e_id_list e) with [(e_ids e).1.1; (e_ids e).1.2; (e_ids e).2] in *. cbn [nth] in *.
  rewrite ?Nat.add_0_r in *.
  repeat (apply elem_of_cons in Hn as [->|Hn]); [| | |now apply elem_of_nil in Hn].
  - assert (p = (e_pts e).1.1) as -> by congruence. split; [exact L0|exact L1].
  - assert (p = (e_pts e).1.2) as -> by congruence. split; [exact L2|exact L3].
  - assert (p = (e_pts e).2) as -> by congruence. split; [exact L4|exact L5].
Qed.

Lemma corner_node a e n : el_of a e -> n ∈ e_id_list e -> exists p, ea_nodes a !! n = Some p.
Proof.
  intros (_ & _ & _ & H0 & H1 & H2) Hn. change (e_id_list e) with [(e_ids e).1.1; (e_ids e).1.2; (e_ids e).2] in Hn.
  repeat (apply elem_of_cons in Hn as [->|Hn]); [eauto..|now apply elem_of_nil in Hn].
Qed.
Lemma corners_apart a e m n p q : el_of a e -> ccw e -> m ∈ e_id_list e -> n ∈ e_id_list e -> m <> n ->
  ea_nodes a !! m = Some p -> ea_nodes a !! n = Some q -> ~ (p_x p = p_x q /\ p_y p = p_y q).
Proof.
  intros (_ & _ & _ & H0 & H1 & H2) Hd Hm Hn Hne Hp Hq [Ex Ey]. pose proof (ccw_det e Hd) as Hd0. rewrite (det_area FL) in Hd0.
  unfold ElemProofs.xy in Hd0. cbn [fst snd] in Hd0. apply Hd0.
  change (e_id_list e) with [(e_ids e).1.1; (e_ids e).1.2; (e_ids e).2] in *.
  repeat (apply elem_of_cons in Hm as [->|Hm]); [| | |now apply elem_of_nil in Hm];
    (repeat (apply elem_of_cons in Hn as [->|Hn]); [| | |now apply elem_of_nil in Hn]); try congruence;
    (let G := fresh in first [pose proof (eq_trans (eq_sym Hp) H0) as G|pose proof (eq_trans (eq_sym Hp) H1) as G|pose proof (eq_trans (eq_sym Hp) H2) as G];
     injection G as ->);
    (let G := fresh in first [pose proof (eq_trans (eq_sym Hq) H0) as G|pose proof (eq_trans (eq_sym Hq) H1) as G|pose proof (eq_trans (eq_sym Hq) H2) as G];
     injection G as ->); rewrite Ex, Ey; ring.
Qed.

Lemma rigid_two (t t' : A * A * A) (x y x' y' : A) : ~ (x = x' /\ y = y') ->
  rigid t x y = rigid t' x y -> rigid t x' y' = rigid t' x' y' -> t = t'.
Proof.
  intros Hne H1 H2. destruct t as [[a b] o], t' as [[a' b'] o']. unfold rigid in *. cbn [fst snd] in *.
  injection H1 as X1 Y1. injection H2 as X2 Y2.
  assert (Ey : (o - o') * (y - y') = 0).
  { transitivity ((a - o * y') - (a - o * y) - ((a' - o' * y') - (a' - o' * y))); [ring|]. rewrite X1, X2. ring. }
  assert (Ex : (o - o') * (x - x') = 0).
  { transitivity ((b + o * x) - (b + o * x') - ((b' + o' * x) - (b' + o' * x'))); [ring|]. rewrite Y1, Y2. ring. }
  assert (Eo : o - o' = 0).
  { apply (mul_eq_0 OL) in Ey as [Ey|Ey]; [exact Ey|]. apply (mul_eq_0 OL) in Ex as [Ex|Ex]; [exact Ex|].
    exfalso. apply Hne. split; [transitivity (x - x' + x'); [ring|]; rewrite Ex; ring|transitivity (y - y' + y'); [ring|]; rewrite Ey; ring]. }
  assert (o = o') as -> by (transitivity (o - o' + o'); [ring|]; rewrite Eo; ring).
  assert (a = a') as -> by (transitivity (a - o' * y + o' * y); [ring|]; rewrite X1; ring).
  assert (b = b') as -> by (transitivity (b + o' * x - o' * x); [ring|]; rewrite Y1; ring).
  reflexivity.
Qed.

(** zero energy spreads one rigid motion over the whole piece *)
Lemma piece_rigid a u : ea_ok a -> one_piece a -> (forall e, e ∈ ea_elems a -> ccw e /\ solid e) -> admissible (ea_cond a) (ea_mat a) ->
  (forall e, e ∈ ea_elems a -> el_form (K_c e) (loc e u) (loc e u) = 0) ->
  exists t, rigid_for (ea_cond a) t /\ forall n, (n < node_count a)%nat -> moves a u t n.
Proof.
  intros Hok (Hne & Hcov & Hcon) Hel Ha Hz.
  assert (R : forall e, e ∈ ea_elems a -> exists t, rigid_for (ea_cond a) t /\ forall n, n ∈ e_id_list e -> moves a u t n).
  { intros e He. destruct (Hel e He) as [Hd Hs]. pose proof (proj2 Hok e He) as Ho. pose proof Ho as (_ & Hm & Hc & _).
    destruct (el_zero_rigid e (loc e u) Hd Hs) as (t & T1 & T2); [now rewrite Hm, Hc|now apply Hz|].
    exists t. split; [now rewrite <- Hc|]. exact (el_moves a e u t Ho T2). }
  destruct (ea_elems a) as [|e0 es] eqn:Ees; [congruence|]. rewrite <- Ees in *. clear Ees es.
  assert (He0 : exists e0, e0 ∈ ea_elems a).
  { destruct (ea_elems a) as [|e1 es]; [congruence|]. exists e1. left. }
  clear e0. destruct He0 as (e0 & He0). destruct (R e0 He0) as (t & T1 & T2). exists t. split; [exact T1|].
  assert (S : forall f, f ∈ ea_elems a -> forall n, n ∈ e_id_list f -> moves a u t n).
  { intros f Hf. pose proof (Hcon e0 f He0 Hf) as Hp. clear Hf. revert T2.
    induction Hp as [e|e g f (He & Hg & m & n & Hmn & M1 & N1 & M2 & N2) _ IH]; intros T2; [exact T2|].
    apply IH; [exact Hg|]. destruct (R g Hg) as (t' & _ & T').
    assert (t' = t) as ->; [|exact T'].
    pose proof (proj2 Hok e He) as Ho. destruct (corner_node a e m Ho M1) as (p & Hp). destruct (corner_node a e n Ho N1) as (q & Hq).
    apply (rigid_two t' t (p_x p) (p_y p) (p_x q) (p_y q)).
    - exact (corners_apart a e m n p q Ho (proj1 (Hel e He)) M1 N1 Hmn Hp Hq).
    - destruct (T2 m M1 p Hp) as [Q1 Q2]. destruct (T' m M2 p Hp) as [Q3 Q4]. rewrite Q1 in Q3. rewrite Q2 in Q4.
      rewrite (surjective_pairing (rigid t' _ _)), (surjective_pairing (rigid t _ _)). congruence.
    - destruct (T2 n N1 q Hq) as [Q1 Q2]. destruct (T' n N2 q Hq) as [Q3 Q4]. rewrite Q1 in Q3. rewrite Q2 in Q4.
      rewrite (surjective_pairing (rigid t' _ _)), (surjective_pairing (rigid t _ _)). congruence. }
  intros n Hn. destruct (Hcov n Hn) as (f & Hf & Hin). exact (S f Hf n Hin).
Qed.

Lemma motion_moves a t n : moves a (motion (ea_nodes a) (rigid t)) t n.
Proof.
  intros p Hp. unfold motion.
  replace ((n * 2) / 2)%nat with n by (symmetry; apply Nat.div_mul; lia).
  replace ((n * 2 + 1) / 2)%nat with n by (rewrite Nat.div_add_l by lia; cbn; lia).
  rewrite Hp. replace (Nat.even (n * 2)) with true by (symmetry; rewrite Nat.mul_comm; apply Nat.even_spec; now exists n).
  replace (Nat.even (n * 2 + 1)) with false; [split; reflexivity|].
  rewrite <- Nat.negb_odd, (proj2 (Nat.odd_spec _)); [reflexivity|]. exists n. lia.
Qed.

Lemma ssum_zero {B} (g : B -> A) l : (forall x, x ∈ l -> les 0 (g x)) -> ssum (map g l) = 0 -> forall x, x ∈ l -> g x = 0.
Proof.
  induction l as [|y l IH]; intros Hn E x Hx; [now apply elem_of_nil in Hx|]. cbn [map] in E. rewrite (ssum_cons FL) in E.
  apply nonneg_sum_0 in E as [E1 E2]; [|apply Hn; left|apply (ssum_nonneg OL); intros z Hz; apply Hn; now right].
  apply elem_of_cons in Hx as [->|Hx]; [exact E1|]. apply IH; [intros z Hz; apply Hn; now right|exact E2|exact Hx].
Qed.

(** the stored energy is the sum of the element energies *)
Lemma energy_sum a K u : ea_ok a -> ea_calc_k a = Ret K ->
  bigsum (node_count a * 2) (fun i => u i * mv (node_count a * 2) (el K) u i) = ssum (map (fun e => el_form (K_c e) (loc e u) (loc e u)) (ea_elems a)).
Proof.
  intros Hok EK. destruct (assembled_k FL a Hok) as (K' & EK' & _ & _ & VK). assert (K' = K) as -> by congruence.
  rewrite <- (assembled_form FL a K_c u u Hok). apply bigsum_ext. intros i _. unfold mv. rewrite <- (bigsum_scale_l FL).
  apply bigsum_ext. intros j _. rewrite VK. ring.
Qed.

Lemma node_dof n i : (i < n * 2)%nat -> exists m, (m < n)%nat /\ (i = m * 2 \/ i = m * 2 + 1)%nat.
Proof.
  intros H. exists (i / 2)%nat. pose proof (Nat.div_mod i 2 ltac:(lia)) as D. pose proof (Nat.mod_upper_bound i 2 ltac:(lia)) as M.
  split; [apply Nat.div_lt_upper_bound; lia|]. destruct (i mod 2)%nat as [|[|k]]; [left|right|]; lia.
Qed.

Lemma held_iff a : ea_ok a -> one_piece a -> (forall e, e ∈ ea_elems a -> ccw e /\ solid e) -> admissible (ea_cond a) (ea_mat a) ->
  held a <-> rigidly_held a.
Proof.
  intros Hok Hone Hel Ha.
  assert (Hnn : forall u e, e ∈ ea_elems a -> les 0 (el_form (K_c e) (loc e u) (loc e u))).
  { intros u e He. destruct (Hel e He) as [Hd Hs]. destruct (proj2 Hok e He) as (_ & Hm & Hc & _).
    apply (el_form_nonneg OL); [exact Hd|now apply solid_thick|now rewrite Hm, Hc]. }
  split.
  - intros Hh t Ht Hr. destruct (assembled_k FL a Hok) as (K & EK & _ & _ & _).
    set (u := motion (ea_nodes a) (rigid t)).
    assert (Z : bigsum (node_count a * 2) (fun i => u i * mv (node_count a * 2) (el K) u i) = 0).
    { apply (bigsum_0 FL). intros i _. unfold mv, u. 
      destruct (motion_force FL a (rigid t) i Hok) as (K' & EK' & _ & V).
      - intros e r s k He Hk. destruct (proj2 Hok e He) as (_ & _ & Hc & _). rewrite Hc in Hk. unfold rigid_for in Ht.
        destruct (ea_cond a); cbn [vec_len] in Hk; [exact (strain_rigid FL _ _ _ _ _ _ _ _ _ Hk)..|].
        destruct Ht as [T1 T2]. replace (strain _ _ k) with (strain (b_c (ElemProofs.xy (e_pts e).1.1) (ElemProofs.xy (e_pts e).1.2) (ElemProofs.xy (e_pts e).2) r s)
          (nodal (fun x y => (0, t.1.2)) (ElemProofs.xy (e_pts e).1.1) (ElemProofs.xy (e_pts e).1.2) (ElemProofs.xy (e_pts e).2)) k);
          [exact (strain_axial FL _ _ _ _ _ _ _ Hk)|].
        unfold strain. apply bigsum_ext. intros j Hj. f_equal. unfold nodal, rigid. cbn [fst snd]. rewrite T1, T2.
        do 6 (destruct j as [|j]; [ring|]). reflexivity.
      - assert (K' = K) as -> by congruence. rewrite V. ring. }
    assert (Hzero : forall i, (i < node_count a * 2)%nat -> u i = 0).
    { intros i Hi. destruct (seqb (u i) 0) eqn:Es; [now apply (fl_eqb A FL)|]. exfalso.
      pose proof (Hh K EK u Hr) as Hp. cbv beta in Hp. rewrite Z in Hp. apply (lts_irr OL 0), Hp. exists i. split; [exact Hi|].
      intros E0. apply (fl_eqb A FL) in E0. congruence. }
    destruct Hone as (Hne & Hcov & _).
    assert (He : exists e, e ∈ ea_elems a) by (destruct (ea_elems a) as [|e1 es]; [congruence|]; exists e1; left).
    destruct He as (e & He). destruct (Hel e He) as [Hd _]. pose proof (proj2 Hok e He) as Ho.
    assert (Hin : (e_ids e).1.1 ∈ e_id_list e /\ (e_ids e).1.2 ∈ e_id_list e).
    { change (e_id_list e) with [(e_ids e).1.1; (e_ids e).1.2; (e_ids e).2]. split; [left|right; left]. }
    destruct Ho as (O1 & O2 & O3 & P0 & P1 & P2).
    assert (Hz : forall n p, ea_nodes a !! n = Some p -> rigid t (p_x p) (p_y p) = (0, 0)).
    { intros n p Hp. pose proof (lookup_lt_Some _ _ _ Hp) as Hn. change (length (ea_nodes a)) with (node_count a) in Hn.
      destruct (motion_moves a t n p Hp) as [M1 M2]. fold u in M1, M2.
      rewrite Hzero in M1, M2 by lia. now rewrite (surjective_pairing (rigid t _ _)), <- M1, <- M2. }
    apply (rigid_two t (0, 0, 0) (p_x (e_pts e).1.1) (p_y (e_pts e).1.1) (p_x (e_pts e).1.2) (p_y (e_pts e).1.2)).
    + intros [Ex Ey]. apply (ccw_det e Hd). rewrite (det_area FL). unfold ElemProofs.xy. cbn [fst snd]. rewrite Ex, Ey. ring.
    + rewrite (Hz _ _ P0). unfold rigid. cbn [fst snd]. f_equal; ring.
    + rewrite (Hz _ _ P1). unfold rigid. cbn [fst snd]. f_equal; ring.
  - intros Hr K EK u Hu (i & Hi & Hui). rewrite (energy_sum a K u Hok EK).
    assert (Hn : les 0 (ssum (map (fun e => el_form (K_c e) (loc e u) (loc e u)) (ea_elems a)))) by (apply (ssum_nonneg OL); apply Hnn).
    apply (les_iff OL) in Hn as [Hn|Hn]; [exact Hn|]. exfalso. symmetry in Hn.
    destruct (piece_rigid a u Hok Hone Hel Ha) as (t & T1 & T2).
    { intros e He. exact (ssum_zero (fun e => el_form (K_c e) (loc e u) (loc e u)) _ (Hnn u) Hn e He). }
    assert (Hagree : forall n p, ea_nodes a !! n = Some p ->
       motion (ea_nodes a) (rigid t) (n * 2)%nat = u (n * 2)%nat /\ motion (ea_nodes a) (rigid t) (n * 2 + 1)%nat = u (n * 2 + 1)%nat).
    { intros n p Hp. pose proof (lookup_lt_Some _ _ _ Hp) as Hlt. change (length (ea_nodes a)) with (node_count a) in Hlt.
      destruct (motion_moves a t n p Hp) as [M1 M2]. destruct (T2 n Hlt p Hp) as [N1 N2]. split; congruence. }
    assert (Ez : t = (0, 0, 0)).
    { apply Hr; [exact T1|]. intros n c Hc. specialize (Hu n c Hc).
      assert (Hlt : (n < length (ea_nodes a))%nat) by (rewrite <- (proj1 Hok); exact (lookup_lt_Some _ _ _ Hc)).
      destruct (lookup_lt_is_Some_2 _ _ Hlt) as (p & Hp). destruct (Hagree n p Hp) as [-> ->]. exact Hu. }
    destruct (node_dof _ i Hi) as (n & Hlt & Hin). destruct (lookup_lt_is_Some_2 (ea_nodes a) n Hlt) as (p & Hp).
    destruct (T2 n Hlt p Hp) as [N1 N2]. rewrite Ez in N1, N2. unfold rigid in N1, N2. cbn [fst snd] in N1, N2. apply Hui.
    destruct Hin as [-> | ->]; [rewrite N1|rewrite N2]; ring.
Qed.

(** two nodes at different points held in both directions *)
Lemma two_fixed a m n p q : ea_nodes a !! m = Some p -> ea_nodes a !! n = Some q -> ~ (p_x p = p_x q /\ p_y p = p_y q) ->
  ea_cons a !! m = Some XYFixed -> ea_cons a !! n = Some XYFixed -> rigidly_held a.
Proof.
  intros Hp Hq Hne Cm Cn t _ Hr. pose proof (Hr m _ Cm) as [R1 R2]. pose proof (Hr n _ Cn) as [R3 R4].
  destruct (motion_moves a t m p Hp) as [M1 M2]. destruct (motion_moves a t n q Hq) as [N1 N2].
  rewrite R1 in M1. rewrite R2 in M2. rewrite R3 in N1. rewrite R4 in N2.
  apply (rigid_two t (0, 0, 0) (p_x p) (p_y p) (p_x q) (p_y q) Hne).
  - rewrite (surjective_pairing (rigid t _ _)), <- M1, <- M2. unfold rigid. cbn [fst snd]. f_equal; ring.
  - rewrite (surjective_pairing (rigid t _ _)), <- N1, <- N2. unfold rigid. cbn [fst snd]. f_equal; ring.
Qed.

(** one node held in both directions and another, at a different height, held sideways; or
    at a different abscissa, held vertically *)
Lemma pin_roller a m n p q : ea_nodes a !! m = Some p -> ea_nodes a !! n = Some q -> ea_cons a !! m = Some XYFixed ->
  (ea_cons a !! n = Some XFixed /\ p_y p <> p_y q) \/ (ea_cons a !! n = Some YFixed /\ p_x p <> p_x q) -> rigidly_held a.
Proof.
  intros Hp Hq Cm Cn t _ Hr. pose proof (Hr m _ Cm) as [R1 R2].
  destruct (motion_moves a t m p Hp) as [M1 M2]. destruct (motion_moves a t n q Hq) as [N1 N2].
  rewrite R1 in M1. rewrite R2 in M2. destruct t as [[tx ty] om]. unfold rigid in *. cbn [fst snd] in *.
  assert (Eo : om = 0).
  { destruct Cn as [[Cn Hne]|[Cn Hne]]; pose proof (Hr n _ Cn) as R3; cbv beta iota in R3; [rewrite R3 in N1|rewrite R3 in N2].
    - assert (E : om * (p_y q - p_y p) = 0) by (transitivity ((tx - om * p_y p) - (tx - om * p_y q)); [ring|]; rewrite <- M1, <- N1; ring).
      apply (mul_eq_0 OL) in E as [E|E]; [exact E|]. exfalso. apply Hne. transitivity (p_y q - (p_y q - p_y p)); [ring|]. rewrite E. ring.
    - assert (E : om * (p_x q - p_x p) = 0) by (transitivity ((ty + om * p_x q) - (ty + om * p_x p)); [ring|]; rewrite <- M2, <- N2; ring).
      apply (mul_eq_0 OL) in E as [E|E]; [exact E|]. exfalso. apply Hne. transitivity (p_x q - (p_x q - p_x p)); [ring|]. rewrite E. ring. }
  subst om. assert (tx = 0) as -> by (rewrite M1; ring). assert (ty = 0) as -> by (rewrite M2; ring). reflexivity.
Qed.

(** an axisymmetric body held axially at one node *)
Lemma axial_fixed a m p : ea_cond a = Axisymmetric -> ea_nodes a !! m = Some p ->
  ea_cons a !! m = Some YFixed \/ ea_cons a !! m = Some XYFixed -> rigidly_held a.
Proof.
  intros Hc Hp Cm t Ht Hr. rewrite Hc in Ht. destruct Ht as [T1 T2]. destruct (motion_moves a t m p Hp) as [_ M2].
  assert (R : motion (ea_nodes a) (rigid t) (m * 2 + 1)%nat = 0).
  { destruct Cm as [Cm|Cm]; [exact (Hr m _ Cm)|exact (proj2 (Hr m _ Cm))]. }
  rewrite R in M2. destruct t as [[tx ty] om]. unfold rigid in M2. cbn [fst snd] in *. subst.
  assert (ty = 0) as -> by (rewrite M2; ring). reflexivity.
Qed.

(** a body held at a single point turns about it *)
Lemma one_pin a m p : ea_cond a <> Axisymmetric ->
  ea_nodes a !! m = Some p -> (forall n c, ea_cons a !! n = Some c -> n = m \/ c = Free) -> ~ rigidly_held a.
Proof.
  intros Hc Hp Hf Hr. assert (E : (p_y p, - p_x p, 1) = (0, 0, 0) :> A * A * A).
  { apply Hr; [unfold rigid_for; destruct (ea_cond a); [exact I..|congruence]|].
    intros n c Hn. destruct (Hf n c Hn) as [->|Hfree]; [|subst c; exact I].
    destruct (motion_moves a (p_y p, - p_x p, 1) m p Hp) as [M1 M2].
    assert (Z1 : motion (ea_nodes a) (rigid (p_y p, - p_x p, 1)) (m * 2)%nat = 0) by (rewrite M1; unfold rigid; cbn [fst snd]; ring).
    assert (Z2 : motion (ea_nodes a) (rigid (p_y p, - p_x p, 1)) (m * 2 + 1)%nat = 0) by (rewrite M2; unfold rigid; cbn [fst snd]; ring).
    destruct c; rewrite ?Z1, ?Z2; auto. ring. }
  injection E as _ _ E. exact (one_neq_0 OL E).
Qed.
End held.

(** ** the study of a held mesh returns *)
Section returns.
Context {A : arith} (OL : ord_laws A).
Let FL : field_laws A := ol_field A OL.
Add Field Afield53 : (fl_field A FL).
Local Open Scope arith_scope.
Context (Trig : forall th : A, scos th * scos th + ssin th * ssin th = 1).

(** the unknowns left free by the supports are at least two and stored coefficients link them *)
Definition reduced_connected (ho : hash_oracle A) (a : elas A) : Prop := forall K t Kb n,
  ea_calc_k a = Ret K -> from_constraints (ea_cons a) = Ret t -> bar_matrix ho 0 t K = Ret Kb -> d_shape Kb = (n, n) ->
  (2 <= n)%nat /\ linked n Kb.

Lemma calc_disp_ret (a : elas A) ho oc ol r : ea_ok a -> oracle_ok ho -> calc_load a oc ol = Ret r ->
  exists K t Kb s k rv, ea_calc_k a = Ret K /\ from_constraints (ea_cons a) = Ret t /\ bar_matrix ho 0 t K = Ret Kb /\
    d_shape Kb = (sy_dofs s, sy_dofs s) /\
    sys_wf s /\ sy_perm s = None /\ sy_k s = Some k /\ sy_rhs s = Some rv /\ length rv = sy_dofs s /\
    (forall i j, el k i j = el Kb i j) /\ (forall i j, is_Some (d_data k !! (i, j)) <-> is_Some (d_data Kb !! (i, j))) /\
    (forall solver disp, calc_displacements ho oc ol solver a = Ret disp -> exists raw, solver s = Ret (Ok raw)) /\
    forall solver raw, solver s = Ret (Ok raw) -> length raw = sy_dofs s -> exists disp, calc_displacements ho oc ol solver a = Ret disp.
Proof.
  intros Hok Ho Er. pose proof (proj1 Hok) as Hl. change (length (ea_nodes a)) with (node_count a) in Hl.
  destruct (from_constraints_ret (ea_cons a)) as (t & Et & Hf).
  destruct (assembled_k FL a Hok) as (K & EK & WK & SK & VK).
  pose proof (load_length a oc ol r Er) as Lr. rewrite <- Hl in SK, Lr.
  destruct (bar_matrix_ret FL (ea_cons a) t ho 0 K Hf Ho WK SK) as (Kb & EKb & WKb & SKb & VKb).
  destruct (bar_ret (ea_cons a) t r Hf Lr) as (r0 & Eb & Lr0 & _). set (rb := map (vel r0) (kept (dt_mask t))) in *.
  assert (Lrb : length rb = length (kept (dt_mask t))) by apply map_length.
  destruct (col_vec_ret rb) as (m & Em & Wm & Sm & Vm). rewrite Lrb in Sm, Vm.
  destruct (from_kr_dict FL _ _ lm_laws (fun k => d_nzs (ho 12%nat (d_data k))) Kb m _ _ eq_refl (Ho _ _) WKb Wm SKb Sm) as (s & Es & Ws & Ds & Ps & _ & (d & Ed & Vd & Std) & (rv & Erv & Lrv & Vrv)).
  exists K, t, Kb, s, d, rv. split; [exact EK|]. split; [exact Et|]. split; [exact EKb|]. split; [rewrite Ds; exact SKb|].
  split; [exact Ws|]. split; [exact Ps|]. split; [exact Ed|]. split; [exact Erv|]. split; [congruence|]. split; [exact Vd|]. split; [exact Std|].
  split.
  { intros solver disp E. unfold calc_displacements in E. rewrite Et in E. cbn [mbind out_bind] in E. rewrite EK in E. cbn [mbind out_bind] in E.
    rewrite Er in E. cbn [mbind out_bind] in E. rewrite EKb in E. cbn [mbind out_bind] in E. rewrite Eb in E. cbn [mbind out_bind] in E.
    rewrite Em in E. cbn [mbind out_bind] in E. rewrite Es in E. cbn [mbind out_bind] in E. apply bind_ret_inv in E as ([raw|] & Ex & E); [eauto|discriminate]. }
  intros solver raw Hs Hlen. destruct (disp_total a raw t Hl Et) as (disp & Edisp); [lia|]. exists disp.
  unfold calc_displacements. rewrite Et. cbn [mbind out_bind]. rewrite EK. cbn [mbind out_bind]. rewrite Er. cbn [mbind out_bind].
  rewrite EKb. cbn [mbind out_bind]. rewrite Eb. cbn [mbind out_bind]. rewrite Em. cbn [mbind out_bind]. rewrite Es. cbn [mbind out_bind].
  rewrite Hs. exact Edisp.
Qed.

(** the reduced matrix is symmetric, and positive definite if the mesh is held *)
Lemma reduced_spd (a : elas A) ho oc ol r K t Kb n : ea_ok a -> oracle_ok ho -> calc_load a oc ol = Ret r ->
  ea_calc_k a = Ret K -> from_constraints (ea_cons a) = Ret t -> bar_matrix ho 0 t K = Ret Kb -> d_shape Kb = (n, n) ->
  (forall i j, el Kb i j = el Kb j i) /\ (held a -> posdef n (el Kb)).
Proof.
  intros Hok Ho Er EK Et EKb SKb.
  destruct (calc_disp_ret a ho oc ol r Hok Ho Er) as (_ & _ & _ & s0' & _ & _ & _ & _ & _ & _ & _ & _ & _ & _ & _ & _ & _ & _ & Hret).
  set (dummy := fun s : system A => Ret (Ok (replicate (sy_dofs s) (s0 : A))) : out (result unit (list A))).
  destruct (Hret dummy _ eq_refl (replicate_length _ _)) as (disp & E).
  destruct (calc_disp_unique OL Trig a ho oc ol dummy disp Hok Ho E)
    as (K1 & r1 & s & k & rv & raw & H1 & H2 & H3 & H4 & H5 & H6 & H7 & H8 & H10 & H11 & H12 & H13 & (t1 & Kb1 & T1 & T2 & T3 & T4 & _) & _).
  assert (K1 = K) as -> by congruence. assert (t1 = t) as -> by congruence. assert (Kb1 = Kb) as -> by congruence.
  assert (sy_dofs s = n) as Hn by congruence. split.
  - intros i j. rewrite <- !T4. apply H10.
  - intros Hh. specialize (H13 (Hh K EK)). rewrite Hn in H13. apply (posdef_ext n (el k)); [|exact H13]. intros x y _ _. symmetry. apply T4.
Qed.

(** each direct method returns the equilibrium under its own condition *)
Lemma study_returns (h : hashes A) name a oc ol solver r : hashes_ok h -> ea_ok a -> solver_of h name = Some solver -> calc_load a oc ol = Ret r ->
  (default (txt "densegauss") name = txt "densegauss" /\ reduced_pivots (h_k h) a) \/
  (default (txt "densegauss") name = txt "cholesky" /\ sqrt_law A /\ held a /\ reduced_connected (h_k h) a) ->
  exists disp, calc_displacements (h_k h) oc ol solver a = Ret disp /\ the_solution a oc ol disp.
Proof.
  intros Hh Hok Hs Er Hap.
  assert (E : exists disp, calc_displacements (h_k h) oc ol solver a = Ret disp).
  { destruct (calc_disp_ret a (h_k h) oc ol r Hok (ho_k _ Hh) Er)
      as (K & t & Kb & s & k & rv & EK & Et & EKb & SKb & Ws & Ps & Ek & Erv & Lrv & Hel & Hst & _ & Hret).
    destruct (reduced_spd a (h_k h) oc ol r K t Kb _ Hok (ho_k _ Hh) Er EK Et EKb SKb) as [Hsym HP].
    destruct Hap as [[Hn Hp]|(Hn & SQ & Hhe & Hc)].
    - rewrite (solver_dense _ _ _ Hs Hn). destruct Ws as (Wk & _ & _). rewrite Ek in Wk. destruct Wk as [Wk Sk].
      pose proof (Hp K t Kb _ EK Et EKb SKb) as (Ms & P1 & P2).
      destruct (dense_gauss_ret OL s k rv (sy_dofs s) Wk Sk Ek Erv Lrv) as (x & Ex & Lx & _).
      { exists Ms. split; [|exact P2]. intros i j Hi Hj. rewrite Hel. auto. }
      exact (Hret _ x Ex Lx).
    - rewrite (solver_cholesky _ _ _ Hs Hn). destruct (Hc K t Kb _ EK Et EKb SKb) as [H2 Hcon].
      assert (Hcon' : linked (sy_dofs s) k).
      { intros i j Hi Hj. eapply rtc_subrel; [|exact (Hcon i j Hi Hj)]. intros x y. unfold paired. now rewrite Hst. }
      destruct (cholesky_solver_linked OL SQ (h_sys h) s k rv (sy_dofs s) (ho_sys _ Hh) Ws eq_refl Ps Ek Erv H2) as (x & Ex & Lx & _).
      { intros i j _ _. rewrite !Hel. apply Hsym. }
      { exact Hcon'. }
      { apply (posdef_ext (sy_dofs s) (el Kb)); [intros; apply Hel|exact (HP Hhe)]. }
      exact (Hret _ x Ex Lx). }
  destruct E as (disp & E). exists disp. split; [exact E|].
  apply (study_solution OL Trig h name a oc ol solver disp Hh Hok Hs); [|exact E].
  unfold applies. destruct Hap as [H|(H1 & H2 & H3 & _)]; [now left|right; auto].
Qed.
End returns.

(** ** checking concrete meshes *)
Section check.
Context {A : arith}.
Local Open Scope arith_scope.
Definition on_b (n : nat) (e : element A) : bool := existsb (Nat.eqb n) (e_id_list e).
Definition edge_b (e f : element A) : bool := (2 <=? length (List.filter (fun n => on_b n f) (nodup Nat.eq_dec (e_id_list e))))%nat.
Fixpoint chain_b (seen l : list (element A)) : bool :=
  match l with [] => true | e :: l => (bool_decide (seen = []) || existsb (edge_b e) seen) && chain_b (e :: seen) l end.
Definition piece_b (a : elas A) : bool :=
  match ea_elems a with [] => false | _ => true end &&
  forallb (fun n => existsb (on_b n) (ea_elems a)) (seq 0 (node_count a)) && chain_b [] (ea_elems a).
Definition ccw_b (e : element A) : bool :=
  let p := (e_pts e).1.1 in let q := (e_pts e).1.2 in let w := (e_pts e).2 in
  sltb 0 ((p_x q - p_x p) * (p_y w - p_y p) - (p_x w - p_x p) * (p_y q - p_y p)).
Definition solid_b (e : element A) : bool :=
  match e_cond e with
  | PlaneStrain t | PlaneStress t => sltb s0 t
  | Axisymmetric => negb (sltb (p_x (e_pts e).1.1) 0) && negb (sltb (p_x (e_pts e).1.2) 0) && negb (sltb (p_x (e_pts e).2) 0)
  end.
Definition admissible_b (c : strain_cond A) (m : material A) : bool :=
  sltb 0 (m_youngs m) && sltb 0 (1 + m_poisson m) &&
  match c with PlaneStress _ => sltb 0 (1 - m_poisson m) | _ => sltb 0 (1 - (1 + 1) * m_poisson m) end.
Definition mesh_b (a : elas A) : bool :=
  piece_b a && forallb (fun e => ccw_b e && solid_b e) (ea_elems a) && admissible_b (ea_cond a) (ea_mat a).

Lemma on_b_spec n e : on_b n e = true -> n ∈ e_id_list e.
Proof. unfold on_b. intros H. apply existsb_exists in H as (m & Hm & E). apply Nat.eqb_eq in E as ->. now apply elem_of_list_In. Qed.
Lemma edge_b_spec e f : edge_b e f = true -> share_edge e f.
Proof.
  unfold edge_b. intros H. apply Nat.leb_le in H.
  set (l := List.filter (fun n => on_b n f) (nodup Nat.eq_dec (e_id_list e))) in *.
  assert (Hl : forall n, In n l -> n ∈ e_id_list e /\ n ∈ e_id_list f).
  { intros n Hn. apply List.filter_In in Hn as [Hn Hf]. apply nodup_In in Hn. split; [now apply elem_of_list_In|now apply on_b_spec]. }
  assert (Hd : List.NoDup l) by (apply List.NoDup_filter, NoDup_nodup).
  destruct l as [|m [|n l]]; cbn in H; [lia|lia|]. exists m, n. split.
  - intros ->. inversion Hd as [|x y Hx _]. apply Hx. now left.
  - destruct (Hl m (or_introl eq_refl)), (Hl n (or_intror (or_introl eq_refl))). auto.
Qed.
Lemma share_edge_sym (e f : element A) : share_edge e f -> share_edge f e.
Proof. intros (m & n & H). exists m, n. tauto. Qed.
Lemma chain_b_spec (R : element A -> element A -> Prop) (els : list (element A)) : (forall e f, e ∈ els -> f ∈ els -> share_edge e f -> R e f) ->
  forall l seen, (forall e, e ∈ l -> e ∈ els) -> (forall e, e ∈ seen -> e ∈ els) -> (forall e f, e ∈ seen -> f ∈ seen -> rtc R e f) ->
  chain_b seen l = true -> forall e f, e ∈ rev l ++ seen -> f ∈ rev l ++ seen -> rtc R e f.
Proof.
  intros HR. induction l as [|x l IH]; intros seen Hl Hs Hrt Hc; [exact Hrt|]. cbn [chain_b] in Hc. apply andb_true_iff in Hc as [Hx Hc].
  cbn [rev]. rewrite <- app_assoc. cbn [app]. apply IH; [intros e He; apply Hl; now right| |  |exact Hc].
  - intros e He. apply elem_of_cons in He as [->|He]; [apply Hl; left|now apply Hs].
  - assert (Hxs : forall e, e ∈ seen -> rtc R x e /\ rtc R e x).
    { intros e He. apply orb_true_iff in Hx as [Hx|Hx]; [apply bool_decide_eq_true in Hx; subst; now apply elem_of_nil in He|].
      apply existsb_exists in Hx as (y & Hy & Hsh). apply elem_of_list_In in Hy. apply edge_b_spec in Hsh.
      assert (Hxe : x ∈ els) by (apply Hl; left). split.
      - apply (rtc_l _ x y e); [apply HR; [exact Hxe|now apply Hs|exact Hsh]|]. now apply Hrt.
      - apply (rtc_r e y x); [now apply Hrt|]. apply HR; [now apply Hs|exact Hxe|now apply share_edge_sym]. }
    intros e f He Hf. apply elem_of_cons in He as [->|He]; apply elem_of_cons in Hf as [->|Hf];
      [apply rtc_refl|now apply Hxs|now apply Hxs|now apply Hrt].
Qed.
Lemma piece_b_spec a : piece_b a = true -> one_piece a.
Proof.
  unfold piece_b. intros H. apply andb_true_iff in H as [H Hc]. apply andb_true_iff in H as [Hne Hcov]. split; [|split].
  - intros E. rewrite E in Hne. discriminate.
  - intros n Hn. rewrite forallb_forall in Hcov. specialize (Hcov n). rewrite in_seq in Hcov. specialize (Hcov ltac:(lia)).
    apply existsb_exists in Hcov as (e & He & Hon). exists e. split; [now apply elem_of_list_In|now apply on_b_spec].
  - intros e f He Hf. eapply (chain_b_spec _ (ea_elems a)); [|intros x Hx; exact Hx| | |exact Hc| |].
    + intros x y Hx Hy Hsh. split; [exact Hx|]. split; [exact Hy|exact Hsh].
    + intros x Hx. now apply elem_of_nil in Hx.
    + intros x y Hx. now apply elem_of_nil in Hx.
    + rewrite app_nil_r. apply elem_of_list_In; rewrite <- in_rev; now apply elem_of_list_In.
    + rewrite app_nil_r. apply elem_of_list_In; rewrite <- in_rev; now apply elem_of_list_In.
Qed.
Lemma mesh_b_spec a : mesh_b a = true -> one_piece a /\ (forall e, e ∈ ea_elems a -> ccw e /\ solid e) /\ admissible (ea_cond a) (ea_mat a).
Proof.
  unfold mesh_b. intros H. apply andb_true_iff in H as [H Ha]. apply andb_true_iff in H as [Hp He].
  split; [now apply piece_b_spec|]. split.
  - intros e Hin. rewrite forallb_forall in He. specialize (He e). rewrite <- elem_of_list_In in He. specialize (He Hin).
    apply andb_true_iff in He as [H1 H2]. split; [exact H1|]. unfold solid, solid_b in *. destruct (e_cond e); [exact H2..|].
    apply andb_true_iff in H2 as [H2 H3]. apply andb_true_iff in H2 as [H2 H4]. unfold les. rewrite !negb_true_iff in *. auto.
  - unfold admissible_b in Ha. apply andb_true_iff in Ha as [Ha H3]. apply andb_true_iff in Ha as [H1 H2]. split; [exact H1|]. split; [exact H2|].
    destruct (ea_cond a); exact H3.
Qed.
End check.
