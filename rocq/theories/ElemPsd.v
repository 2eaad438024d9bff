(** Strain energy is non-negative; the material matrices are Hooke's law; total mass. *)
From Verif Require Export ElemAlg.

Section psd.
Context {A : arith} (OL : ord_laws A).
Let FL : field_laws A := ol_field A OL.
Add Field Afield35 : (fl_field A FL).
Local Open Scope arith_scope.

Lemma s2_eq : s2 = 1 + 1 :> A.
Proof. reflexivity. Qed.
Lemma sz6_eq : sz 6 = (1 + 1) * (1 + (1 + 1)) :> A.
Proof. reflexivity. Qed.
Lemma sz3_eq : sz 3 = 1 + (1 + 1) :> A.
Proof. reflexivity. Qed.

Lemma two_pos : lts 0 (1 + 1 : A).
Proof. exact (sz_pos OL 2). Qed.
Lemma three_pos : lts 0 (1 + (1 + 1) : A).
Proof. exact (sz_pos OL 3). Qed.
Lemma pos_neq (x : A) : lts 0 x -> x <> 0.
Proof. intros H E. rewrite E in H. exact (lts_irr OL 0 H). Qed.
Lemma two_neq : (1 + 1 : A) <> 0.
Proof. exact (pos_neq _ two_pos). Qed.
Lemma three_neq : (1 + (1 + 1) : A) <> 0.
Proof. exact (pos_neq _ three_pos). Qed.

(** materials for which the elastic energy is positive *)
Definition admissible (c : strain_cond A) (m : material A) : Prop :=
  lts 0 (m_youngs m) /\ lts 0 (1 + m_poisson m) /\
  match c with
  | PlaneStress _ => lts 0 (1 - m_poisson m)
  | _ => lts 0 (1 - (1 + 1) * m_poisson m)
  end.

Lemma energy_plane_stress (t : A) (m : material A) (x : nat -> A) : 1 - m_poisson m <> 0 -> 1 + m_poisson m <> 0 ->
  energy 3 (c_c (PlaneStress t) m) x x =
  m_youngs m / ((1 + 1) * (1 - m_poisson m)) * ((x 0%nat + x 1%nat) * (x 0%nat + x 1%nat)) +
  m_youngs m / ((1 + 1) * (1 + m_poisson m)) * ((x 0%nat - x 1%nat) * (x 0%nat - x 1%nat) + x 2%nat * x 2%nat).
Proof.
  intros H1 H2. unfold energy, c_c, c_scale. cbv [bigsum Nat.eqb orb]. rewrite s2_eq.
  pose proof two_neq.
  assert (H3 : 1 - m_poisson m * m_poisson m <> 0).
  { replace (1 - m_poisson m * m_poisson m) with ((1 - m_poisson m) * (1 + m_poisson m)) by ring.
    intros E. apply (mul_eq_0 OL) in E. tauto. }
  field. auto.
Qed.

Lemma energy_solid (c : strain_cond A) (m : material A) (x : nat -> A) : match c with PlaneStress _ => False | _ => True end ->
  1 - m_poisson m <> 0 -> 1 + m_poisson m <> 0 -> 1 - (1 + 1) * m_poisson m <> 0 ->
  let y i := match c, i with Axisymmetric, _ => x i | _, 3%nat => 0 | _, _ => x i end in
  energy (vec_len c) (c_c c m) x x =
  m_youngs m / ((1 + (1 + 1)) * (1 + m_poisson m)) *
    ((y 0%nat - y 1%nat) * (y 0%nat - y 1%nat) + (y 1%nat - y 3%nat) * (y 1%nat - y 3%nat) + (y 0%nat - y 3%nat) * (y 0%nat - y 3%nat)) +
  m_youngs m / ((1 + (1 + 1)) * (1 - (1 + 1) * m_poisson m)) * ((y 0%nat + y 1%nat + y 3%nat) * (y 0%nat + y 1%nat + y 3%nat)) +
  m_youngs m / ((1 + 1) * (1 + m_poisson m)) * (y 2%nat * y 2%nat).
Proof.
  intros Hc H1 H2 H3. pose proof two_neq. pose proof three_neq.
  destruct c as [t|t| ]; [|contradiction|]; cbv zeta; unfold energy, c_c, c_scale; cbv [vec_len bigsum Nat.eqb orb]; rewrite s2_eq;
    field; auto.
Qed.

Lemma add_nonneg (x y : A) : les 0 x -> les 0 y -> les 0 (x + y).
Proof. intros H1 H2. pose proof (les_add2 OL 0 x 0 y H1 H2) as H. now replace (0 + 0) with (0 : A) in H by ring. Qed.

Lemma poisson_pos c m : admissible c m -> lts 0 (1 - m_poisson m).
Proof.
  intros (_ & H1 & H2).
  assert (D : lts 0 (1 - (1 + 1) * m_poisson m) -> lts 0 (1 - m_poisson m)).
  { set (v := m_poisson m) in *. intros H3.
    replace (1 - v) with ((1 / (1 + (1 + 1))) * ((1 + v) + (1 + 1) * (1 - (1 + 1) * v))) by (field; apply three_neq).
    apply (mul_pos OL); [apply (inv_pos OL), three_pos|].
    pose proof (lts_les_add OL 0 (1 + v) 0 ((1 + 1) * (1 - (1 + 1) * v)) H1
     (lts_les OL _ _ (mul_pos OL _ _ two_pos H3))) as G. now replace (0 + 0) with (0 : A) in G by ring. }
  destruct c as [t|t| ]; [now apply D|exact H2|now apply D].
Qed.

Lemma energy_nonneg c m x : admissible c m -> les 0 (energy (vec_len c) (c_c c m) x x).
Proof.
  intros Ha. pose proof (poisson_pos c m Ha) as Hp. destruct Ha as (He & Hv & Hc).
  assert (Hdiv : forall a b : A, lts 0 a -> lts 0 b -> les 0 (a / b)) by (intros; now apply (lts_les OL), (div_pos OL)).
  assert (D : forall c, match c : strain_cond A with PlaneStress _ => False | _ => True end ->
     lts 0 (1 - (1 + 1) * m_poisson m) -> les 0 (energy (vec_len c) (c_c c m) x x)).
  { clear c Hc. intros c Hc H2.
    rewrite energy_solid by (try exact Hc; now apply pos_neq).
    cbv zeta. set (y := fun i => match c, i with Axisymmetric, _ => x i | _, 3%nat => 0 | _, _ => x i end).
    repeat apply add_nonneg; (apply (mul_nonneg OL);
      [apply Hdiv; [exact He|apply (mul_pos OL); first [assumption|apply two_pos|apply three_pos]]
      |repeat apply add_nonneg; apply (sq_nonneg OL)]). }
  destruct c as [t|t| ].
  - apply D; [exact I|exact Hc].
  - cbn [vec_len]. rewrite energy_plane_stress by now apply pos_neq.
    repeat apply add_nonneg; (apply (mul_nonneg OL);
      [apply Hdiv; [exact He|apply (mul_pos OL); first [assumption|apply two_pos|apply three_pos]]
      |repeat apply add_nonneg; apply (sq_nonneg OL)]).
  - apply D; [exact I|exact Hc].
Qed.

(** elements whose stiffness must be positive semidefinite *)
Definition ccw (e : element A) : Prop :=
  let p := (e_pts e).1.1 in let q := (e_pts e).1.2 in let w := (e_pts e).2 in
  lts 0 ((p_x q - p_x p) * (p_y w - p_y p) - (p_x w - p_x p) * (p_y q - p_y p)).
Definition thick (e : element A) : Prop :=
  match e_cond e with
  | PlaneStrain t | PlaneStress t => les 0 t
  | Axisymmetric => les 0 (p_x (e_pts e).1.1) /\ les 0 (p_x (e_pts e).1.2) /\ les 0 (p_x (e_pts e).2)
  end.

Lemma tri_a_pos : les 0 (tri_a : A).
Proof. unfold tri_a. apply (lts_les OL), (inv_pos OL). exact (sz_pos OL 6). Qed.
Lemma tri_b_pos : les 0 (tri_b : A).
Proof. unfold tri_b. apply (lts_les OL), (div_pos OL); [exact two_pos|exact (sz_pos OL 3)]. Qed.
Lemma six_neq : (1 + 1) * (1 + (1 + 1)) <> 0 :> A.
Proof. exact (pos_neq _ (sz_pos OL 6)). Qed.
Lemma tri_rest : (1 - tri_a - tri_a = tri_b :> A) /\ (1 - tri_b - tri_a = tri_a :> A) /\ (1 - tri_a - tri_b = tri_a :> A).
Proof.
  unfold tri_a, tri_b. rewrite s2_eq, sz6_eq, sz3_eq. pose proof two_neq. pose proof three_neq.
  split; [|split]; field; auto using six_neq.
Qed.

Lemma th_nonneg e : thick e -> forall rs, rs ∈ tri_samples -> les 0 (em_th (mats_c e rs.1 rs.2)).
Proof.
  intros Ht rs Hrs. unfold thick in Ht. unfold mats_c. cbn [em_th]. unfold th_c.
  destruct (e_cond e); [exact Ht|exact Ht|]. destruct Ht as (H0 & H1 & H2).
  destruct tri_rest as (R1 & R2 & R3).
  pose proof tri_a_pos as Pa. pose proof tri_b_pos as Pb.
  rewrite (coord_lin FL). unfold xy. cbn [fst].
  repeat (apply elem_of_cons in Hrs as [->|Hrs]); [| | |now apply elem_of_nil in Hrs]; cbn [fst snd];
    rewrite ?R1, ?R2, ?R3; repeat apply add_nonneg; apply (mul_nonneg OL); assumption.
Qed.

Lemma el_form_nonneg e u : ccw e -> thick e -> admissible (e_cond e) (e_mat e) -> les 0 (el_form (K_c e) u u).
Proof.
  intros Hd Ht Ha. rewrite (K_form FL). unfold at_samples.
  apply (mul_nonneg OL); [|apply (lts_les OL), (inv_pos OL); exact (sz_pos OL 6)].
  assert (G : forall rs, rs ∈ tri_samples -> les 0 (em_det (mats_c e rs.1 rs.2) * em_th (mats_c e rs.1 rs.2) *
    energy (vec_len (e_cond e)) (c_c (e_cond e) (e_mat e))
      (strain (b_c (xy (e_pts e).1.1) (xy (e_pts e).1.2) (xy (e_pts e).2) rs.1 rs.2) u)
      (strain (b_c (xy (e_pts e).1.1) (xy (e_pts e).1.2) (xy (e_pts e).2) rs.1 rs.2) u))).
  { intros rs Hrs. apply (mul_nonneg OL); [|now apply energy_nonneg].
    apply (mul_nonneg OL); [|now apply th_nonneg].
    apply (lts_les OL). unfold mats_c. cbn [em_det]. rewrite (det_area FL). exact Hd. }
  repeat apply add_nonneg.
  - apply (G (tri_a, tri_a)). left.
  - apply (G (tri_b, tri_a)). right. left.
  - apply (G (tri_a, tri_b)). right. right. left.
Qed.

Lemma ssum_nonneg {B} (g : B -> A) l : (forall x, x ∈ l -> les 0 (g x)) -> les 0 (ssum (map g l)).
Proof.
  induction l as [|x l IH]; intros H; [apply (les_refl OL)|]. cbn [map]. rewrite (ssum_cons FL).
  apply add_nonneg; [apply H; left|]. apply IH. intros y Hy. apply H. now right.
Qed.

Lemma assembled_nonneg a u : ea_ok a ->
  (forall e, e ∈ ea_elems a -> ccw e /\ thick e) -> admissible (ea_cond a) (ea_mat a) ->
  exists d, ea_calc_k a = Ret d /\ d_shape d = (node_count a * 2, node_count a * 2)%nat /\
    les 0 (bigsum (node_count a * 2) (fun i => bigsum (node_count a * 2) (fun j => u i * el d i j * u j))).
Proof.
  intros Hok He Ha. destruct (assembled_k FL a Hok) as (d & E & W & Hs & V). exists d.
  split; [exact E|]. split; [exact Hs|].
  rewrite (bigsum_ext _ (fun i => bigsum (node_count a * 2)
     (fun j => u i * contrib (concat (map (el_list K_c) (ea_elems a))) i j * u j)))
    by (intros i _; apply bigsum_ext; intros j _; now rewrite V).
  rewrite (assembled_form FL a K_c u u Hok). apply ssum_nonneg. intros e Hin.
  destruct (He e Hin) as [H1 H2]. destruct (proj2 Hok e Hin) as (_ & Hm & Hc & _).
  apply el_form_nonneg; [exact H1|exact H2|]. now rewrite Hm, Hc.
Qed.
End psd.

(** ** Hooke's law *)
Section hooke.
Context {A : arith} (FL : field_laws A).
Add Field Afield36 : (fl_field A FL).
Local Open Scope arith_scope.

(** isotropic linear elasticity in three dimensions: each normal strain is the stress in
    its direction less Poisson's ratio times the two others, over Young's modulus; the
    engineering shear strain is the shear stress over E / (2 (1 + nu)) *)
Definition hooke (E nu : A) (ex ey ez gxy sx sy sz txy : A) : Prop :=
  E * ex = sx - nu * (sy + sz) /\ E * ey = sy - nu * (sx + sz) /\ E * ez = sz - nu * (sx + sy) /\
  E * gxy = (1 + 1) * (1 + nu) * txy.

Definition mat_vec (n : nat) (C : nat -> nat -> A) (x : nat -> A) (k : nat) : A :=
  bigsum n (fun l => C k l * x l).

Context (two : (1 + 1 : A) <> 0).

Lemma hooke_plane_stress (t : A) (m : material A) (x y : nat -> A) : m_youngs m <> 0 -> 1 - m_poisson m <> 0 -> 1 + m_poisson m <> 0 ->
  ((forall k, (k < 3)%nat -> y k = mat_vec 3 (c_c (PlaneStress t) m) x k) <->
   exists ez, hooke (m_youngs m) (m_poisson m) (x 0%nat) (x 1%nat) ez (x 2%nat) (y 0%nat) (y 1%nat) 0 (y 2%nat)).
Proof.
  intros HE H1 H2. set (E := m_youngs m) in *. set (v := m_poisson m) in *.
  assert (H3 : 1 - v * v <> 0).
  { replace (1 - v * v) with ((1 - v) * (1 + v)) by ring. intros Z.
    assert ((1 + v) * ((1 - v) * (1 + v) / (1 - v)) = 0 * 0) as G; [|].
    { rewrite Z. field. exact H1. }
    replace ((1 + v) * ((1 - v) * (1 + v) / (1 - v))) with ((1 + v) * (1 + v)) in G by (field; exact H1).
    apply H2. transitivity ((1 + v) * (1 + v) / (1 + v)); [field; exact H2|]. rewrite G. field. exact H2. }
  unfold mat_vec, c_c, c_scale, hooke. cbv [bigsum Nat.eqb orb]. fold E v. change s2 with (1 + 1 : A).
  split.
  - intros H. pose proof (H 0%nat ltac:(lia)) as Y0. pose proof (H 1%nat ltac:(lia)) as Y1.
    pose proof (H 2%nat ltac:(lia)) as Y2. cbv [Nat.eqb orb] in Y0, Y1, Y2. rewrite Y0, Y1, Y2.
    exists ((0 - v * (y 0%nat + y 1%nat)) / E). rewrite Y0, Y1. repeat split; field; auto.
  - intros (ez & G0 & G1 & _ & G2).
    assert (X0 : x 0%nat = (y 0%nat - v * (y 1%nat + 0)) / E) by (rewrite <- G0; field; exact HE).
    assert (X1 : x 1%nat = (y 1%nat - v * (y 0%nat + 0)) / E) by (rewrite <- G1; field; exact HE).
    assert (X2 : x 2%nat = (1 + 1) * (1 + v) * y 2%nat / E) by (rewrite <- G2; field; exact HE).
    intros k Hk. destruct k as [|[|[|k]]]; [| | |lia]; cbv [Nat.eqb orb]; rewrite X0, X1, X2; field; auto.
Qed.

Lemma hooke_plane_strain (t : A) (m : material A) (x y : nat -> A) : m_youngs m <> 0 -> 1 - m_poisson m <> 0 -> 1 + m_poisson m <> 0 ->
  1 - (1 + 1) * m_poisson m <> 0 ->
  ((forall k, (k < 3)%nat -> y k = mat_vec 3 (c_c (PlaneStrain t) m) x k) <->
   exists sz, hooke (m_youngs m) (m_poisson m) (x 0%nat) (x 1%nat) 0 (x 2%nat) (y 0%nat) (y 1%nat) sz (y 2%nat)).
Proof.
  intros HE H1 H2 H3. set (E := m_youngs m) in *. set (v := m_poisson m) in *.
  unfold mat_vec, c_c, c_scale, hooke. cbv [bigsum Nat.eqb orb]. fold E v. change s2 with (1 + 1 : A).
  split.
  - intros H. pose proof (H 0%nat ltac:(lia)) as Y0. pose proof (H 1%nat ltac:(lia)) as Y1.
    pose proof (H 2%nat ltac:(lia)) as Y2. cbv [Nat.eqb orb] in Y0, Y1, Y2. rewrite Y0, Y1, Y2.
    exists (v * (y 0%nat + y 1%nat)). rewrite Y0, Y1. repeat split; field; auto.
  - intros (sz & G0 & G1 & Gz & G2).
    assert (Z : sz = v * (y 0%nat + y 1%nat)).
    { transitivity (sz - v * (y 0%nat + y 1%nat) + v * (y 0%nat + y 1%nat)); [ring|]. rewrite <- Gz. ring. }
    rewrite Z in G0, G1.
    assert (X0 : x 0%nat = (y 0%nat - v * (y 1%nat + v * (y 0%nat + y 1%nat))) / E) by (rewrite <- G0; field; exact HE).
    assert (X1 : x 1%nat = (y 1%nat - v * (y 0%nat + v * (y 0%nat + y 1%nat))) / E) by (rewrite <- G1; field; exact HE).
    assert (X2 : x 2%nat = (1 + 1) * (1 + v) * y 2%nat / E) by (rewrite <- G2; field; exact HE).
    intros k Hk. destruct k as [|[|[|k]]]; [| | |lia]; cbv [Nat.eqb orb]; rewrite X0, X1, X2; field; auto.
Qed.

(** order of the axisymmetric components: radial, axial, shear, hoop *)
Lemma hooke_axisym (m : material A) (x y : nat -> A) : m_youngs m <> 0 -> 1 - m_poisson m <> 0 -> 1 + m_poisson m <> 0 ->
  1 - (1 + 1) * m_poisson m <> 0 ->
  ((forall k, (k < 4)%nat -> y k = mat_vec 4 (c_c Axisymmetric m) x k) <->
   hooke (m_youngs m) (m_poisson m) (x 0%nat) (x 1%nat) (x 3%nat) (x 2%nat) (y 0%nat) (y 1%nat) (y 3%nat) (y 2%nat)).
Proof.
  intros HE H1 H2 H3. set (E := m_youngs m) in *. set (v := m_poisson m) in *.
  unfold mat_vec, c_c, c_scale, hooke. cbv [bigsum Nat.eqb orb]. fold E v. change s2 with (1 + 1 : A).
  split.
  - intros H. pose proof (H 0%nat ltac:(lia)) as Y0. pose proof (H 1%nat ltac:(lia)) as Y1.
    pose proof (H 2%nat ltac:(lia)) as Y2. pose proof (H 3%nat ltac:(lia)) as Y3.
    cbv [Nat.eqb orb] in Y0, Y1, Y2, Y3. rewrite Y0, Y1, Y2, Y3. repeat split; field; auto.
  - intros (G0 & G1 & Gz & G2).
    assert (X0 : x 0%nat = (y 0%nat - v * (y 1%nat + y 3%nat)) / E) by (rewrite <- G0; field; exact HE).
    assert (X1 : x 1%nat = (y 1%nat - v * (y 0%nat + y 3%nat)) / E) by (rewrite <- G1; field; exact HE).
    assert (X3 : x 3%nat = (y 3%nat - v * (y 0%nat + y 1%nat)) / E) by (rewrite <- Gz; field; exact HE).
    assert (X2 : x 2%nat = (1 + 1) * (1 + v) * y 2%nat / E) by (rewrite <- G2; field; exact HE).
    intros k Hk. destruct k as [|[|[|[|k]]]]; [| | | |lia]; cbv [Nat.eqb orb]; rewrite X0, X1, X2, X3; field; auto.
Qed.
End hooke.
