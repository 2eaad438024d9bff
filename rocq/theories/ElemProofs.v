(** The element matrices as functions of the corner coordinates. *)
From Verif Require Export Assem DenseProofs Sums.

(** an element whose corners are two-dimensional points *)
Definition planar {A : arith} (e : element A) : Prop :=
  p_n (e_pts e).1.1 = 2 /\ p_n (e_pts e).1.2 = 2 /\ p_n (e_pts e).2 = 2.
Definition xy {A : arith} (p : point A) : A * A := (p_x p, p_y p).

Section mats.
Context {A : arith}.
Local Open Scope arith_scope.
Implicit Types p q w : A * A.
Implicit Types e : element A.

(** structural form of the entries: what the code computes, operation by operation *)
Definition j_in (i : nat) (u0 u1 u2 : A) : A :=
  match i with
  | O => 0 + -(1) * u0 + 1 * u1 + 0 * u2
  | _ => 0 + -(1) * u0 + 0 * u1 + 1 * u2
  end.
Definition det_c p q w : A :=
  j_in 0 p.1 q.1 w.1 * j_in 1 p.2 q.2 w.2 - j_in 1 p.1 q.1 w.1 * j_in 0 p.2 q.2 w.2.
Definition hg_c (k : nat) p q w (i : nat) : A :=
  let d := det_c p q w in
  let a := match k with O => j_in 1 p.2 q.2 w.2 / d | _ => -(1) * (j_in 1 p.1 q.1 w.1 / d) end in
  let b := match k with O => -(1) * (j_in 0 p.2 q.2 w.2 / d) | _ => j_in 0 p.1 q.1 w.1 / d end in
  match i with
  | 0%nat => 0 + a * -(1) + b * -(1)
  | 1%nat => 0 + a * 1 + b * 0
  | _ => 0 + a * 0 + b * 1
  end.
Definition h_c (r s : A) (i : nat) : A :=
  match i with 0%nat => 1 - r - s | 1%nat => r | _ => s end.
Definition coord_c (r s u0 u1 u2 : A) : A := 0 + (1 - r - s) * u0 + r * u1 + s * u2.

Definition b_c p q w (r s : A) (k i : nat) : A :=
  let n := (i / 2)%nat in
  match k with
  | 0%nat => if Nat.even i then hg_c 0 p q w n else 0
  | 1%nat => if Nat.even i then 0 else hg_c 1 p q w n
  | 2%nat => if Nat.even i then hg_c 1 p q w n else hg_c 0 p q w n
  | _ => if Nat.even i then h_c r s n / coord_c r s p.1 q.1 w.1 else 0
  end.
Definition th_c (c : strain_cond A) p q w (r s : A) : A :=
  match c with PlaneStrain t | PlaneStress t => t | Axisymmetric => coord_c r s p.1 q.1 w.1 end.
Definition hm_c (r s : A) (k i : nat) : A :=
  if Nat.eqb (i mod 2) k then h_c r s (i / 2) else 0.

Definition j_c p q w : lm A :=
  LM 2 2 true [j_in 0 p.1 q.1 w.1; j_in 0 p.2 q.2 w.2; j_in 1 p.1 q.1 w.1; j_in 1 p.2 q.2 w.2].
Definition ji_c p q w : lm A :=
  let d := det_c p q w in
  LM 2 2 true [j_in 1 p.2 q.2 w.2 / d; -(1) * (j_in 0 p.2 q.2 w.2 / d);
               -(1) * (j_in 1 p.1 q.1 w.1 / d); j_in 0 p.1 q.1 w.1 / d].

Definition mats_c (e : element A) (r s : A) : emats A :=
  let c := e_cond e in
  let p := xy (e_pts e).1.1 in let q := xy (e_pts e).1.2 in let w := xy (e_pts e).2 in
  EMats (LM (vec_len c) 6 true (rm_list (vec_len c) 6 (b_c p q w r s)))
        (LM 2 6 true (rm_list 2 6 (hm_c r s))) (j_c p q w) (ji_c p q w)
        (det_c p q w) (th_c c p q w r s).

Lemma mats_ret e r s z : planar e -> get_isopar_mats e (Pt 2 r s z) = Ret (mats_c e r s).
Proof.
  destruct e as [ids [[[n0 x0 y0 z0] [n1 x1 y1 z1]] [n2 x2 y2 z2]] mat c].
  intros (H0 & H1 & H2). cbn in H0, H1, H2. subst.
  destruct c as [t|t| ]; vm_compute; reflexivity.
Qed.

(** entries of the material matrix *)
Definition c_scale (c : strain_cond A) (m : material A) : A :=
  let v := m_poisson m in let e := m_youngs m in
  match c with
  | PlaneStress _ => e / (1 - v * v)
  | _ => (e * (1 - v)) / ((1 + v) * (1 - s2 * v))
  end.
Definition c_c (c : strain_cond A) (m : material A) (k l : nat) : A :=
  let v := m_poisson m in
  let off := match c with PlaneStress _ => v | _ => v / (1 - v) end in
  let sh := match c with PlaneStress _ => (1 - v) / s2 | _ => (1 - s2 * v) / (s2 * (1 - v)) end in
  (if Nat.eqb k l then (if Nat.eqb k 2 then sh else 1)
   else if (Nat.eqb k 2 || Nat.eqb l 2)%bool then 0 else off) * c_scale c m.

Lemma build_c_ret c m :
  build_c c m = Ret (LM (vec_len c) (vec_len c) true (rm_list (vec_len c) (vec_len c) (c_c c m))).
Proof. destruct c as [t|t| ]; vm_compute; reflexivity. Qed.

Lemma rm_lm_wf R C (g : nat -> nat -> A) : lm_wf (LM R C true (rm_list R C g)).
Proof. apply rm_list_length. Qed.

Lemma rm_lm_el R C (g : nat -> nat -> A) r c : (r < R)%nat -> (c < C)%nat ->
  el (LM R C true (rm_list R C g)) r c = g r c.
Proof.
  intros Hr Hc. eapply (lm_el_pos (LM R C true (rm_list R C g)) r c (C * r + c)%nat).
  - apply lm_pos_some; assumption.
  - cbn. now apply rm_list_lookup.
Qed.

(** the integrand of K at natural coordinates (r, s) *)
Definition k_int (n : nat) (B C : nat -> nat -> A) (det th : A) (i j : nat) : A :=
  bigsum n (fun k => bigsum n (fun l => B l i * C l k) * det * th * B k j).

Lemma k_integrand_ret e r s z : planar e ->
  exists m, k_integrand e (LM (vec_len (e_cond e)) (vec_len (e_cond e)) true
              (rm_list (vec_len (e_cond e)) (vec_len (e_cond e)) (c_c (e_cond e) (e_mat e)))) (Pt 2 r s z)
            = Ret m /\ lm_wf m /\ mshape m = (6, 6)%nat /\
    forall i j, (i < 6)%nat -> (j < 6)%nat ->
      el m i j = k_int (vec_len (e_cond e))
        (b_c (xy (e_pts e).1.1) (xy (e_pts e).1.2) (xy (e_pts e).2) r s) (c_c (e_cond e) (e_mat e))
        (em_det (mats_c e r s)) (em_th (mats_c e r s)) i j.
Proof.
  intros Hp. unfold k_integrand. rewrite (mats_ret e r s z Hp). cbn [mbind out_bind].
  set (n := vec_len (e_cond e)). set (B := b_c _ _ _ r s). set (C := c_c _ _).
  set (bm := em_b (mats_c e r s)).
  change bm with (LM n 6 true (rm_list n 6 B)). clear bm. set (bm := LM n 6 true (rm_list n 6 B)).
  set (cm := LM n n true (rm_list n n C)).
  assert (Wb : lm_wf bm) by apply rm_lm_wf. assert (Wc : lm_wf cm) by apply rm_lm_wf.
  destruct (mmul_spec _ _ lm_laws _ _ lm_laws (lm_transpose bm) cm
              (lm_transpose_wf _ Wb) Wc) as [H1 _].
  destruct (H1 eq_refl) as (inter & E1 & W1 & S1 & V1). rewrite E1. cbn [mbind out_bind].
  set (d := em_det _). set (t := em_th _).
  assert (Ws : lm_wf (lm_scale (lm_scale inter d) t)) by now do 2 apply lm_scale_wf.
  assert (Wt : lm_wf (lm_transpose (lm_transpose bm))) by now do 2 apply lm_transpose_wf.
  destruct (mmul_spec _ _ lm_laws _ _ lm_laws _ _ Ws Wt) as [H2 _].
  injection S1 as S1a S1b.
  destruct H2 as (m & E2 & W2 & S2 & V2). { cbn. exact S1b. }
  exists m. rewrite E2. split; [reflexivity|]. split; [exact W2|]. split.
  { rewrite S2. cbn. now rewrite S1a. }
  intros i j Hi Hj. rewrite V2 by (cbn; rewrite ?S1a; assumption).
  change (mshape (lm_scale (lm_scale inter d) t)).2 with (lm_c inter). rewrite S1b.
  change (mshape cm).2 with n. apply bigsum_ext. intros k Hk.
  rewrite !lm_transpose_el. unfold bm at 1. rewrite rm_lm_el by assumption.
  rewrite lm_scale_el; [|now apply lm_scale_wf|cbn; rewrite S1a; exact Hi|cbn; rewrite S1b; exact Hk].
  rewrite lm_scale_el; [|assumption|rewrite S1a; exact Hi|rewrite S1b; exact Hk].
  rewrite V1 by assumption. do 3 f_equal. apply bigsum_ext. intros l Hl.
  rewrite lm_transpose_el. unfold bm, cm. cbn in Hl. now rewrite !rm_lm_el.
Qed.

(** three-point rule of matrices *)
Lemma gauss_tri_ret (f : point A -> out (lm A)) (g : A -> A -> nat -> nat -> A) n :
  (forall r s z, exists m, f (Pt 2 r s z) = Ret m /\ lm_wf m /\ mshape m = (n, n)%nat /\
     forall i j, (i < n)%nat -> (j < n)%nat -> el m i j = g r s i j) ->
  exists m, gauss_tri lm_add_assign lm_scale f = Ret m /\ lm_wf m /\ mshape m = (n, n)%nat /\
    forall i j, (i < n)%nat -> (j < n)%nat ->
      el m i j = (g tri_a tri_a i j + g tri_b tri_a i j + g tri_a tri_b i j) * (1 / sz 6).
Proof.
  intros H. unfold gauss_tri, pt2.
  destruct (H tri_a tri_a 0) as (m1 & E1 & W1 & S1 & V1).
  destruct (H tri_b tri_a 0) as (m2 & E2 & W2 & S2 & V2).
  destruct (H tri_a tri_b 0) as (m3 & E3 & W3 & S3 & V3).
  rewrite E1, E2, E3. cbn [mbind out_bind].
  destruct (lm_add_assign_spec m1 m2 W1 W2) as [Ha _].
  destruct Ha as (m4 & E4 & W4 & S4 & V4); [congruence|]. rewrite E4. cbn [mbind out_bind].
  destruct (lm_add_assign_spec m4 m3 W4 W3) as [Hb _].
  destruct Hb as (m5 & E5 & W5 & S5 & V5); [congruence|]. rewrite E5. cbn [mbind out_bind].
  eexists; split; [reflexivity|]. split; [now apply lm_scale_wf|].
  assert (Hs : mshape m5 = (n, n)%nat) by congruence.
  split; [exact Hs|]. intros i j Hi Hj. rewrite S1 in V4. rewrite S4, S1 in V5. cbn in V4, V5, Hs.
  injection Hs as Hs1 Hs2.
  rewrite lm_scale_el by (try assumption; cbn; lia).
  rewrite V5, V4, V1, V2, V3 by assumption. reflexivity.
Qed.

(** the global position of an element's i-th unknown *)
Definition e_dof (e : element A) (i : nat) : nat * nat := (nth (i / 2) (e_id_list e) 0%nat, (i mod 2)%nat).

Lemma map_dof_ret e i : (i < 6)%nat -> map_dof e i = Ret (e_dof e i).
Proof. intros H. unfold map_dof, e_dof. do 6 (destruct i as [|i]; [reflexivity|]). lia. Qed.

Lemma map_dof_panic e i : (6 <= i)%nat -> map_dof e i = Panic.
Proof.
  intros H. unfold map_dof, idx. rewrite lookup_ge_None_2; [reflexivity|].
  cbn. change 3%nat with (6 / 2)%nat. now apply Nat.div_le_mono.
Qed.

Lemma map_rm {B C} (f : B -> C) R K (g : nat -> nat -> B) : map f (rm_list R K g) = rm_list R K (fun i j => f (g i j)).
Proof. unfold rm_list. rewrite concat_map, map_map. f_equal. apply map_ext. intros r. apply map_map. Qed.

Lemma map_matrix_ret e (m : lm A) (g : nat -> nat -> A) : lm_wf m -> mshape m = (6, 6)%nat ->
  (forall i j, (i < 6)%nat -> (j < 6)%nat -> el m i j = g i j) ->
  map_matrix e m = Ret (rm_list 6 6 (fun i j => (e_dof e i, e_dof e j, g i j))).
Proof.
  intros W Hs Hg. unfold map_matrix. rewrite indices_ret by (rewrite Hs; discriminate).
  rewrite Hs. cbn [fst snd mbind out_bind].
  rewrite (mapM_out_Ret _ (fun ij : nat * nat => (e_dof e ij.1, e_dof e ij.2, g ij.1 ij.2))).
  { now rewrite map_rm. }
  intros [i j] Hij. assert ((i < 6)%nat /\ (j < 6)%nat) as [Hi Hj].
  { apply elem_of_list_lookup in Hij as (k & Hk). apply rm_list_lookup_Some in Hk as (r & c & Hr & Hc & _ & E).
    injection E as -> ->. auto. }
  cbn [fst snd]. rewrite !map_dof_ret by assumption. cbn [mbind out_bind].
  rewrite (index_ret _ _ lm_laws) by (try exact W; rewrite Hs; assumption). cbn [mbind out_bind].
  now rewrite Hg.
Qed.

(** the element stiffness and mass matrices *)
Definition at_samples (g : A -> A -> A) : A := (g tri_a tri_a + g tri_b tri_a + g tri_a tri_b) * (1 / sz 6).
Definition K_c (e : element A) (i j : nat) : A :=
  at_samples (fun r s => k_int (vec_len (e_cond e))
    (b_c (xy (e_pts e).1.1) (xy (e_pts e).1.2) (xy (e_pts e).2) r s) (c_c (e_cond e) (e_mat e))
    (em_det (mats_c e r s)) (em_th (mats_c e r s)) i j).

Lemma calc_k_ret e : planar e ->
  calc_k e = Ret (rm_list 6 6 (fun i j => (e_dof e i, e_dof e j, K_c e i j))).
Proof.
  intros Hp. unfold calc_k. rewrite build_c_ret. cbn [mbind out_bind].
  destruct (gauss_tri_ret _ _ 6 (fun r s z => k_integrand_ret e r s z Hp)) as (m & E & W & Hs & V).
  rewrite E. cbn [mbind out_bind]. apply map_matrix_ret; assumption.
Qed.

Definition m_int (rho : A) (H : nat -> nat -> A) (th : A) (i j : nat) : A :=
  bigsum 2 (fun k => H k i * (rho * th) * H k j).
Definition M_c (e : element A) (i j : nat) : A :=
  at_samples (fun r s => m_int (m_density (e_mat e)) (hm_c r s) (em_th (mats_c e r s)) i j).

Lemma calc_m_ret e : planar e ->
  calc_m e = Ret (rm_list 6 6 (fun i j => (e_dof e i, e_dof e j, M_c e i j))).
Proof.
  intros Hp. unfold calc_m.
  destruct (gauss_tri_ret (m_integrand e)
     (fun r s i j => m_int (m_density (e_mat e)) (hm_c r s) (em_th (mats_c e r s)) i j) 6) as (m & E & W & Hs & V).
  2:{ rewrite E. cbn [mbind out_bind]. apply map_matrix_ret; assumption. }
  intros r s z. unfold m_integrand. rewrite (mats_ret e r s z Hp). cbn [mbind out_bind].
  set (H := hm_c r s). change (em_h (mats_c e r s)) with (LM 2 6 true (rm_list 2 6 H)).
  set (hm := LM 2 6 true (rm_list 2 6 H)). set (k := m_density _ * _).
  assert (Wh : lm_wf hm) by apply rm_lm_wf.
  assert (Wt : lm_wf (lm_transpose hm)) by now apply lm_transpose_wf.
  destruct (mmul_spec _ _ lm_laws _ _ lm_laws (lm_scale (lm_transpose hm) k) hm
     (lm_scale_wf _ _ Wt) Wh) as [H1 _].
  destruct (H1 eq_refl) as (m & E1 & W1 & S1 & V1).
  exists m. rewrite E1. split; [reflexivity|]. split; [exact W1|]. split; [exact S1|].
  intros i j Hi Hj. rewrite V1 by assumption. apply bigsum_ext. intros l Hl.
  change (l < 2)%nat in Hl.
  rewrite lm_scale_el by (try exact Wt; assumption). rewrite lm_transpose_el. unfold hm. now rewrite !rm_lm_el.
Qed.

(** only elements with two-dimensional corners have matrices *)
Lemma mats_planar e (p : point A) m : get_isopar_mats e p = Ret m -> planar e.
Proof.
  destruct e as [ids [[[n0 x0 y0 z0] [n1 x1 y1 z1]] [n2 x2 y2 z2]] mat c].
  unfold get_isopar_mats. intros E.
  apply bind_ret_inv in E as (rs & _ & E). apply bind_ret_inv in E as (hg & Eh & E).
  apply bind_ret_inv in E as (hm & _ & E). apply bind_ret_inv in E as (pm & Ep & E).
  apply bind_ret_inv in E as (j & Ej & E). apply bind_ret_inv in E as (u & Eu & _).
  unfold planar. cbn [e_pts fst snd p_n].
  cbn [e_pt_list e_pts fst snd from_points_row mapM_out p_n] in Ep.
  destruct (Nat.eqb_spec n0 n0) as [_|]; [|congruence]. cbn [negb] in Ep.
  destruct (Nat.eqb_spec n1 n0) as [->|]; cbn [negb] in Ep.
  2:{ apply bind_ret_inv in Ep as (l & Ep & _). apply bind_ret_inv in Ep as (l' & _ & Ep). discriminate Ep. }
  destruct (Nat.eqb_spec n2 n0) as [->|]; cbn [negb] in Ep.
  2:{ apply bind_ret_inv in Ep as (l & Ep & _). apply bind_ret_inv in Ep as (l' & _ & Ep).
      apply bind_ret_inv in Ep as (l3 & Ep & _). apply bind_ret_inv in Ep as (l4 & _ & Ep). discriminate Ep. }
  enough (n0 = 2%nat) by (subst; auto).
  injection Eh as <-.
  destruct n0 as [|[|[|[|n0]]]]; try discriminate; [|reflexivity|]; exfalso;
    vm_compute in Ep; injection Ep as <-; vm_compute in Ej; injection Ej as <-; vm_compute in Eu; discriminate.
Qed.
End mats.
