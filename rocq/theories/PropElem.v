(** C37 - C44, C48, C72: the triangular element and the assembled structure. *)
From Coq Require Import String Floats Reals Lra.
From Verif Require Import StressProofs PropFactor InstR InstQc InstF64.

(** a mesh of two triangles on a square, used in the examples *)
Definition soft {A : arith} : material A := Mat "soft"%string (sz 15) (slit 1 4) (sz 2).
Definition square_ops (c : bool) : list (ea_op Qc_arith) :=
  [ANodes [pt2 (qc 0) (qc 0); pt2 (qc 2) (qc 0); pt2 (qc 2) (qc 2); pt2 (qc 0) (qc 2)]; AElement (0, 1, 2)]
  ++ (if c then [AElement (0, 2, 3)] else [AElement (0, 3, 2)]).
Definition square (cond : strain_cond Qc_arith) : out (elas Qc_arith) :=
  foldM ea_step (square_ops true) (ea_new soft cond).
(** a single element over any arithmetic *)
Definition tri {A : arith} (cond : strain_cond A) (x0 y0 x1 y1 x2 y2 : A) : element A :=
  El (7, 3, 5) (pt2 x0 y0, pt2 x1 y1, pt2 x2 y2) soft cond.

(** *** C37 — symmetry.  [contrib l i j] adds up the entries listed for degrees of freedom i, j. *)
Lemma calc_k_planar {A : arith} (e : element A) l : calc_k e = Ret l -> planar e.
Proof.
  unfold calc_k. intros E. apply bind_ret_inv in E as (c & _ & E). apply bind_ret_inv in E as (k & E & _).
  unfold gauss_tri in E. apply bind_ret_inv in E as (r & E & _). unfold k_integrand in E.
  apply bind_ret_inv in E as (m & E & _). exact (mats_planar _ _ _ E).
Qed.
Theorem C37_element (A : arith) (FL : field_laws A) (e : element A) l :
  calc_k e = Ret l -> forall i j, contrib l i j = contrib l j i.
Proof.
  intros E i j. rewrite (calc_k_ret e (calc_k_planar e l E)) in E. injection E as <-.
  pose proof (contrib_sym FL K_c [e] i j (K_sym FL)) as H. cbn [map concat] in H. rewrite app_nil_r in H. exact H.
Qed.
Print Assumptions C37_element.
Theorem C37_assembled (A : arith) (FL : field_laws A) (a : elas A) : ea_built a ->
  exists K, ea_calc_k a = Ret K /\ d_shape K = (node_count a * 2, node_count a * 2) /\
    forall i j, el K i j = el K j i.
Proof.
  intros H. destruct (assembled_k FL a (ea_built_ok a H)) as (K & E & _ & S & V). exists K. split; [exact E|]. split; [exact S|].
  intros i j. rewrite !V. apply (contrib_sym FL), (K_sym FL).
Qed.
Print Assumptions C37_assembled.
Example C37_example : (exists a, square (PlaneStress (qc 1)) = Ret a /\ ea_built a) /\
  (a ← square (PlaneStress (qc 1)); K ← ea_calc_k a; Ret [el K 0 1; el K 0 4; el K 0 5; el K 5 0; el K 0 0]) =
    Ret (map qc [0; 0; -5; -5; 11]%Z) /\
  (l ← calc_k (tri (PlaneStrain (qc 1)) (qc 0) (qc 0) (qc 3) (qc 1) (qc 1) (qc 4)); Ret [contrib l 6 15; contrib l 15 6]) =
    Ret [qcd (-15) 11; qcd (-15) 11].
Proof.
  split; [vm_run (square (PlaneStress (qc 1))) a E; exists a; split; [exact E|eexists _, _, _; exact E]|]. split; vm_refl.
Qed.

(** *** C38 — rigid motions.  [motion nodes f] samples the field f at the nodes. *)
Theorem C38_plane (A : arith) (FL : field_laws A) (a : elas A) (tx ty om : A) (i : nat) :
  ea_built a -> vec_len (ea_cond a) = 3 ->
  exists K, ea_calc_k a = Ret K /\
    bigsum (node_count a * 2) (fun j => smul (el K i j)
      (motion (ea_nodes a) (fun x y => (ssub tx (smul om y), sadd ty (smul om x))) j)) = s0.
Proof.
  intros H Hc. pose proof (ea_built_ok a H) as Hok.
  destruct (motion_force FL a (fun x y => (ssub tx (smul om y), sadd ty (smul om x))) i Hok) as (K & E & _ & V); [|eauto].
  intros e r s k He Hk. destruct (proj2 Hok e He) as (_ & _ & Ec & _). rewrite Ec, Hc in Hk. now apply strain_rigid.
Qed.
Print Assumptions C38_plane.
Theorem C38_axisymmetric (A : arith) (FL : field_laws A) (a : elas A) (tz : A) (i : nat) :
  ea_built a -> exists K, ea_calc_k a = Ret K /\
    bigsum (node_count a * 2) (fun j => smul (el K i j) (motion (ea_nodes a) (fun _ _ => (s0, tz)) j)) = s0.
Proof.
  intros H. pose proof (ea_built_ok a H) as Hok.
  destruct (motion_force FL a (fun _ _ => (s0, tz)) i Hok) as (K & E & _ & V); [|eauto].
  intros e r s k He Hk. apply (strain_axial FL). destruct (e_cond e); cbn in Hk; lia.
Qed.
Print Assumptions C38_axisymmetric.
(** the matrix is not zero: stretching needs forces *)
Example C38_example :
  (a ← square (PlaneStress (qc 1)); K ← ea_calc_k a;
   let force f := bigsum 8 (fun j => smul (el K 2 j) (motion (ea_nodes a) f j)) in
   Ret (vec_len (ea_cond a), force (fun x y => (ssub (qc 3) (smul (qc 2) y), sadd (qc 1) (smul (qc 2) x))), force (fun x _ => (x, qc 0)))) =
  Ret (3, qc 0, qc 16).
Proof. vm_refl. Qed.

(** *** C39 — non-negative energy, for ordered arithmetic. *)
Theorem C39_element (A : arith) (OL : ord_laws A) (e : element A) l (u : nat * nat -> A) :
  calc_k e = Ret l -> ccw e -> thick e -> admissible (e_cond e) (e_mat e) ->
  les s0 (ssum (map (fun t => smul (smul (u t.1.1) t.2) (u t.1.2)) l)).
Proof.
  intros E H1 H2 H3. rewrite (calc_k_ret e (calc_k_planar e l E)) in E. injection E as <-.
  rewrite map_rm, (ssum_rm (ol_field A OL)). exact (el_form_nonneg OL e (fun i => u (e_dof e i)) H1 H2 H3).
Qed.
Print Assumptions C39_element.
Theorem C39_assembled (A : arith) (OL : ord_laws A) (a : elas A) (u : nat -> A) : ea_built a ->
  (forall e, e ∈ ea_elems a -> ccw e /\ thick e) -> admissible (ea_cond a) (ea_mat a) ->
  exists K, ea_calc_k a = Ret K /\
    les s0 (bigsum (node_count a * 2) (fun i => bigsum (node_count a * 2) (fun j => smul (smul (u i) (el K i j)) (u j)))).
Proof. intros H H1 H2. destruct (assembled_nonneg OL a u (ea_built_ok a H) H1 H2) as (K & E & _ & V). eauto. Qed.
Print Assumptions C39_assembled.
Example C39_example : let e := tri (PlaneStrain (qc 1)) (qc 0) (qc 0) (qc 3) (qc 1) (qc 1) (qc 4) in
  let e' := tri (PlaneStrain (qc 1)) (qc 0) (qc 0) (qc 1) (qc 4) (qc 3) (qc 1) in
  let u (nd : nat * nat) := if nd.2 =? 0 then sz (Z.of_nat nd.1) else qc 0 in
  let en l := ssum (map (fun t : nat * nat * (nat * nat) * Qc_arith => smul (smul (u t.1.1) t.2) (u t.1.2)) l) in
  ccw e /\ thick e /\ admissible (e_cond e) (e_mat e) /\
  (l ← calc_k e; Ret (en l)) = Ret (qcd 1776 11) /\
  (* clockwise: negative *)
  (l ← calc_k e'; Ret (en l)) = Ret (qcd (-444) 11).
Proof.
  cbn zeta. split; [unfold ccw, lts; vm_refl|]. split; [unfold thick, tri; cbn [e_cond]; unfold les; vm_refl|].
  split; [unfold admissible, tri; cbn [e_cond]; unfold lts; split; [|split]; vm_refl|]. split; vm_refl.
Qed.

(** *** C40 — the patch test and the interpolation weights. *)
Theorem C40_strain (A : arith) (FL : field_laws A) (e : element A) (r s z : A) (ux uy : A * A * A) :
  planar e -> let p := xy (e_pts e).1.1 in let q := xy (e_pts e).1.2 in let w := xy (e_pts e).2 in
  ssub (smul (ssub q.1 p.1) (ssub w.2 p.2)) (smul (ssub w.1 p.1) (ssub q.2 p.2)) <> s0 ->
  exists m, get_isopar_mats e (Pt 2 r s z) = Ret m /\ mshape (em_b m) = (vec_len (e_cond e), 6) /\
    let x := sadd (sadd (smul (ssub (ssub s1 r) s) p.1) (smul r q.1)) (smul s w.1) in
    let y := sadd (sadd (smul (ssub (ssub s1 r) s) p.2) (smul r q.2)) (smul s w.2) in
    let eps k := bigsum 6 (fun j => smul (el (em_b m) k j) (nodal (affine ux uy) p q w j)) in
    eps 0 = ux.1.2 /\ eps 1 = uy.2 /\ eps 2 = sadd ux.2 uy.1.2 /\
    (vec_len (e_cond e) = 4 -> eps 3 = sdiv (affine ux uy x y).1 x) /\
    (* the interpolated displacement is the field itself *)
    (forall k, k < 2 -> bigsum 6 (fun j => smul (el (em_h m) k j) (nodal (affine ux uy) p q w j)) =
                        if k =? 0 then (affine ux uy x y).1 else (affine ux uy x y).2).
Proof.
  intros Hp p q w Hd. exists (mats_c e r s). split; [now apply mats_ret|]. split; [reflexivity|]. cbn zeta.
  rewrite <- (det_area FL) in Hd. destruct (strain_affine FL ux uy p q w r s Hd) as (H0 & H1 & H2 & H3).
  assert (G : forall k, k < vec_len (e_cond e) -> bigsum 6 (fun j => smul (el (em_b (mats_c e r s)) k j) (nodal (affine ux uy) p q w j)) =
     strain (b_c p q w r s) (nodal (affine ux uy) p q w) k).
  { intros k Hk. apply bigsum_ext. intros j Hj. f_equal. unfold mats_c. cbn [em_b]. now rewrite rm_lm_el. }
  assert (Hv : 3 <= vec_len (e_cond e)) by (destruct (e_cond e); cbn; lia).
  rewrite !(coord_lin FL) in H3.
  split; [rewrite G by lia; exact H0|]. split; [rewrite G by lia; exact H1|]. split; [rewrite G by lia; exact H2|].
  split; [intros H4; rewrite G by lia; exact H3|].
  intros k Hk. rewrite (interp FL e r s k _ Hk). exact (affine_mix FL ux uy p q w r s k Hk).
Qed.
Print Assumptions C40_strain.
Example C40_example :
  (m ← get_isopar_mats (tri Axisymmetric (qc 1) (qc 0) (qc 3) (qc 1) (qc 2) (qc 4)) (pt2 (qcd 1 4) (qcd 1 4));
   Ret (map (fun k => bigsum 6 (fun j => smul (el (em_b m) k j)
              (nodal (fun x y => (sadd (sadd (qc 1) (smul (qc 2) x)) (smul (qc 3) y), sadd (smul (qc 5) x) (smul (qc 7) y)))
                     (qc 1, qc 0) (qc 3, qc 1) (qc 2, qc 4) j))) (seq 0 4))) =
  Ret [qc 2; qc 7; qc 8; qcd 33 7].
Proof. vm_refl. Qed.

(** *** C41 — Hooke's law.  [hooke E nu ex ey ez gxy sx sy sz txy] is the three-dimensional
    isotropic law without out-of-plane shear. *)
Theorem C41_plane_stress (A : arith) (FL : field_laws A) (t : A) (m : material A) :
  sadd s1 s1 <> (s0 : A) -> m_youngs m <> s0 -> ssub s1 (m_poisson m) <> s0 -> sadd s1 (m_poisson m) <> s0 ->
  exists C, build_c (PlaneStress t) m = Ret C /\ mshape C = (3, 3) /\ forall eps sig : nat -> A,
    (forall k, k < 3 -> sig k = bigsum 3 (fun l => smul (el C k l) (eps l))) <->
    exists ez, hooke (m_youngs m) (m_poisson m) (eps 0) (eps 1) ez (eps 2) (sig 0) (sig 1) s0 (sig 2).
Proof.
  intros two H1 H2 H3. eexists. split; [apply build_c_ret|]. split; [reflexivity|]. intros eps sig.
  rewrite <- (hooke_plane_stress FL two t m eps sig H1 H2 H3). cbn [vec_len].
  split; intros H k Hk; rewrite (H k Hk); apply bigsum_ext; intros l Hl; now rewrite rm_lm_el.
Qed.
Print Assumptions C41_plane_stress.
Theorem C41_plane_strain (A : arith) (FL : field_laws A) (t : A) (m : material A) :
  sadd s1 s1 <> (s0 : A) -> m_youngs m <> s0 -> ssub s1 (m_poisson m) <> s0 -> sadd s1 (m_poisson m) <> s0 ->
  ssub s1 (smul (sadd s1 s1) (m_poisson m)) <> s0 ->
  exists C, build_c (PlaneStrain t) m = Ret C /\ mshape C = (3, 3) /\ forall eps sig : nat -> A,
    (forall k, k < 3 -> sig k = bigsum 3 (fun l => smul (el C k l) (eps l))) <->
    exists sz, hooke (m_youngs m) (m_poisson m) (eps 0) (eps 1) s0 (eps 2) (sig 0) (sig 1) sz (sig 2).
Proof.
  intros two H1 H2 H3 H4. eexists. split; [apply build_c_ret|]. split; [reflexivity|]. intros eps sig.
  rewrite <- (hooke_plane_strain FL two t m eps sig H1 H2 H3 H4). cbn [vec_len].
  split; intros H k Hk; rewrite (H k Hk); apply bigsum_ext; intros l Hl; now rewrite rm_lm_el.
Qed.
Print Assumptions C41_plane_strain.
(** components in the order radial, axial, shear, hoop *)
Theorem C41_axisymmetric (A : arith) (FL : field_laws A) (m : material A) :
  sadd s1 s1 <> (s0 : A) -> m_youngs m <> s0 -> ssub s1 (m_poisson m) <> s0 -> sadd s1 (m_poisson m) <> s0 ->
  ssub s1 (smul (sadd s1 s1) (m_poisson m)) <> s0 ->
  exists C, build_c Axisymmetric m = Ret C /\ mshape C = (4, 4) /\ forall eps sig : nat -> A,
    (forall k, k < 4 -> sig k = bigsum 4 (fun l => smul (el C k l) (eps l))) <->
    hooke (m_youngs m) (m_poisson m) (eps 0) (eps 1) (eps 3) (eps 2) (sig 0) (sig 1) (sig 3) (sig 2).
Proof.
  intros two H1 H2 H3 H4. eexists. split; [apply build_c_ret|]. split; [reflexivity|]. intros eps sig.
  rewrite <- (hooke_axisym FL two m eps sig H1 H2 H3 H4). cbn [vec_len].
  split; intros H k Hk; rewrite (H k Hk); apply bigsum_ext; intros l Hl; now rewrite rm_lm_el.
Qed.
Print Assumptions C41_axisymmetric.
Example C41_example : (C ← build_c (PlaneStrain (qc 1)) (soft (A := Qc_arith));
    Ret (map (fun k => bigsum 3 (fun l => smul (el C k l) (nth l [qc 1; qc 2; qc 5] s0))) (seq 0 3))) =
    Ret [qc 30; qc 42; qc 30] /\
  hooke (qc 15) (qcd 1 4) (qc 1) (qc 2) (qc 0) (qc 5) (qc 30) (qc 42) (qc 18) (qc 30).
Proof. split; [vm_refl|]. unfold hooke. repeat split; vm_refl. Qed.

(** *** C42 — element mass.  False: the determinant of the Jacobian is missing. *)
Lemma calc_m_planar {A : arith} (e : element A) l : calc_m e = Ret l -> planar e.
Proof.
  unfold calc_m. intros E. apply bind_ret_inv in E as (k & E & _).
  unfold gauss_tri in E. apply bind_ret_inv in E as (r & E & _). unfold m_integrand in E.
  apply bind_ret_inv in E as (m & E & _). exact (mats_planar _ _ _ E).
Qed.
(** area 2, thickness 3, density 2: mass 12, but the entries of one direction add up to 3 *)
Theorem C42_refuted : exists l, calc_m (tri (PlaneStress (qc 3)) (qc 0) (qc 0) (qc 2) (qc 0) (qc 0) (qc 2)) = Ret l /\
  mass_dir 0 l = qc 3 /\ mass_dir 1 l = qc 3 /\ smul (smul (qc 2) (qc 3)) (qc 2) = qc 12.
Proof.
  vm_run (calc_m (tri (PlaneStress (qc 3)) (qc 0) (qc 0) (qc 2) (qc 0) (qc 0) (qc 2))) l E.
  exists l. split; [exact E|]. repeat split; vm_refl.
Qed.
Print Assumptions C42_refuted.
(** what is computed instead: the mass of a triangle of area one half with the element's
    thickness, or mean radius in the axisymmetric condition *)
Theorem C42_partial (A : arith) (FL : field_laws A) (e : element A) l d :
  sadd s1 s1 <> (s0 : A) -> sadd s1 (sadd s1 s1) <> (s0 : A) -> calc_m e = Ret l -> d < 2 ->
  mass_dir d l = smul (sdiv (m_density (e_mat e)) (sadd s1 s1))
    (match e_cond e with
     | PlaneStrain t | PlaneStress t => t
     | Axisymmetric => sdiv (sadd (sadd (p_x (e_pts e).1.1) (p_x (e_pts e).1.2)) (p_x (e_pts e).2)) (sadd s1 (sadd s1 s1))
     end).
Proof.
  intros H2 H3 E Hd. rewrite (calc_m_ret e (calc_m_planar e l E)) in E. injection E as <-.
  exact (mass_total FL H2 H3 e d Hd).
Qed.
Print Assumptions C42_partial.
Example C42_example : (l ← calc_m (tri Axisymmetric (qc 1) (qc 0) (qc 3) (qc 1) (qc 2) (qc 4)); Ret (mass_dir 0 l, mass_dir 1 l)) =
  Ret (qc 2, qc 2).
Proof. vm_refl. Qed.

(** *** C43 — edge loads, over the reals. *)
Theorem C43_edge_load (e : element R_arith) (a b : nat) (f : point R_arith) :
  (forall p, p ∈ e_pt_list e -> p_n p = 2 /\ p_z p = 0%R) -> NoDup (e_id_list e) -> p_n f = 2 ->
  a ∈ e_id_list e -> b ∈ e_id_list e -> a <> b ->
  exists pa pb l, e_node e a = Some pa /\ e_node e b = Some pb /\ int_f_l e (a, b) f = Ret (Some l) /\
    (forall n d, n ∈ e_id_list e -> d < 2 -> exists v, ((n, d), v) ∈ l) /\
    forall n d v, ((n, d), v) ∈ l -> n ∈ e_id_list e /\ d < 2 /\
      v = (if (n =? a) || (n =? b)
           then (if d =? 0 then p_x f else p_y f) *
                R_sqrt.sqrt ((p_x pa - p_x pb) * (p_x pa - p_x pb) + (p_y pa - p_y pb) * (p_y pa - p_y pb)) / 2 else 0)%R.
Proof.
  intros Hpt Hnd Hf Ha Hb Hab.
  assert (Hp : planar e) by (repeat split; apply Hpt; unfold e_pt_list; rewrite !elem_of_cons; auto).
  destruct (int_f_l_ret R_field_laws ltac:(cbn; lra) e a b f Hp Hnd Hf Ha Hb Hab) as (pa & pb & l & Ea & Eb & El & Em & Hv).
  { cbn. rewrite R_sqrt.sqrt_1. lra. }
  { cbn. pose proof (R_sqrt.sqrt_lt_R0 (1 + 1) ltac:(lra)). lra. }
  exists pa, pb, l. split; [exact Ea|]. split; [exact Eb|]. split; [exact El|].
  assert (Hz : forall n p, e_node e n = Some p -> p_z p = 0%R).
  { intros n p. unfold e_node. destruct (e_ids e) as [[x y] z]. intros H. apply Hpt. unfold e_pt_list. rewrite !elem_of_cons.
    destruct (n =? x)%nat; [injection H as <-; auto|]. destruct (n =? y)%nat; [injection H as <-; auto|].
    destruct (n =? z)%nat; [injection H as <-; auto|discriminate]. }
  split.
  - intros n d Hn Hd.
    assert (Hin : (n, d) ∈ map fst l).
    { rewrite Em. apply elem_of_list_In, in_map_iff. unfold e_id_list in Hn. rewrite elem_of_list_In in Hn. cbn [In] in Hn.
      unfold e_dof, e_id_list. destruct Hn as [<-|[<-|[<-|[]]]].
      - exists d. split; [destruct d as [|[|d]]; [reflexivity|reflexivity|lia]|apply in_seq; lia].
      - exists (2 + d). split; [destruct d as [|[|d]]; [reflexivity|reflexivity|lia]|apply in_seq; lia].
      - exists (4 + d). split; [destruct d as [|[|d]]; [reflexivity|reflexivity|lia]|apply in_seq; lia]. }
    apply elem_of_list_fmap in Hin as ([nd v] & E & Hin). cbn in E. subst nd. eauto.
  - intros n d v Hin.
    assert (Hnd' : (n, d) ∈ map fst l) by (apply elem_of_list_fmap; exists ((n, d), v); auto).
    rewrite Em in Hnd'. apply elem_of_list_fmap in Hnd' as (i & Ei & Hi). apply elem_of_list_In, in_seq in Hi.
    pose proof (f_equal fst Ei : n = nth (i / 2) (e_id_list e) 0) as En. pose proof (f_equal snd Ei : d = i mod 2) as Ed.
    assert (Hnn : n ∈ e_id_list e).
    { rewrite En. apply elem_of_list_In, nth_In. change (length (e_id_list e)) with 3. apply Nat.div_lt_upper_bound; lia. }
    assert (Hd : d < 2) by (rewrite Ed; apply Nat.mod_upper_bound; lia).
    split; [exact Hnn|]. split; [exact Hd|]. rewrite (Hv n d v Hin), (Hz _ _ Ea), (Hz _ _ Eb).
    destruct ((n =? a) || (n =? b)); [|reflexivity]. unfold ssq. cbn.
    replace ((p_x pa - p_x pb) * (p_x pa - p_x pb) + (p_y pa - p_y pb) * (p_y pa - p_y pb) + (0 - 0) * (0 - 0))%R
      with ((p_x pa - p_x pb) * (p_x pa - p_x pb) + (p_y pa - p_y pb) * (p_y pa - p_y pb))%R by ring.
    destruct d as [|[|d]]; [reflexivity|reflexivity|lia].
Qed.
Print Assumptions C43_edge_load.
Theorem C43_refused (A : arith) (e : element A) (a b : nat) (f : point A) : NoDup (e_id_list e) ->
  a ∉ e_id_list e \/ b ∉ e_id_list e \/ a = b -> int_f_l e (a, b) f = Ret None.
Proof.
  intros Hn H. unfold int_f_l. cbn [fst snd]. destruct (nodes_connect e a b) eqn:E; [|reflexivity].
  apply (connect_iff e a b Hn) in E. tauto.
Qed.
Print Assumptions C43_refused.
(** edge of length 5 under a load (2, 4); nodes 7, 3, 5 *)
Example C43_example :
  int_f_l (tri (PlaneStress (qc 1)) (qc 0) (qc 0) (qc 3) (qc 4) (qc 0) (qc 7)) (7, 3) (pt2 (qc 2) (qc 4)) =
  Ret (Some [((7, 0), qc 5); ((7, 1), qc 10); ((3, 0), qc 5); ((3, 1), qc 10); ((5, 0), qc 0); ((5, 1), qc 0)]) /\
  int_f_l (tri (PlaneStress (qc 1)) (qc 0) (qc 0) (qc 3) (qc 4) (qc 0) (qc 7)) (7, 4) (pt2 (qc 2) (qc 4)) = Ret None.
Proof. split; vm_refl. Qed.

(** *** C44 — superposition.  False: contributions are stored, not added. *)
Definition loaded : out (elas Qc_arith) :=
  foldM ea_step [ANodes [pt2 (qc 0) (qc 0); pt2 (qc 2) (qc 0); pt2 (qc 0) (qc 2)]; AElement (0, 1, 2);
                 AConc 0 (pt2 (qc 7) (qc 0)); ALine 0 1 (pt2 (qc 1) (qc 0)); ALine 0 2 (pt2 (qc 3) (qc 0))] (ea_new soft (PlaneStress (qc 1))).
(** at node 0 in direction x the loads 7, 1 and 3 should add up to 11 *)
Theorem C44_refuted : exists a oc ol ol' r r', loaded = Ret a /\ ea_built a /\
  oc ≡ₚ map_to_list (ea_conc a) /\ ol ≡ₚ map_to_list (ea_line a) /\ ol' ≡ₚ map_to_list (ea_line a) /\
  calc_load a oc ol = Ret r /\ calc_load a oc ol' = Ret r' /\
  vel r 0 = qc 3 /\ vel r' 0 = qc 1 /\ vel r 2 = qc 0 /\ vel r' 2 = qc 1.
Proof.
  set (oc := [(0, pt2 (qc 7) (qc 0))]). set (l1 := ((0, 1), pt2 (qc 1) (qc 0))). set (l2 := ((0, 2), pt2 (qc 3) (qc 0))).
  assert (F : (a ← loaded; r ← calc_load a oc [l1; l2]; r' ← calc_load a oc [l2; l1];
               Ret (map_to_list (ea_conc a), map_to_list (ea_line a), [vel r 0; vel r' 0; vel r 2; vel r' 2])) =
              Ret (oc, [l1; l2], [qc 3; qc 1; qc 0; qc 1])) by vm_refl.
  apply bind_ret_inv in F as (a & E & F). apply bind_ret_inv in F as (r & Er & F). apply bind_ret_inv in F as (r' & Er' & F).
  injection F as Fc Fl F0 F1 F2 F3.
  exists a, oc, [l1; l2], [l2; l1], r, r'. split; [exact E|]. split; [eexists _, _, _; exact E|].
  split; [now rewrite Fc|]. split; [now rewrite Fl|]. split; [rewrite Fl; apply perm_swap|].
  split; [exact Er|]. split; [exact Er'|]. split; [exact F0|]. split; [exact F1|]. split; [exact F2|exact F3].
Qed.
Print Assumptions C44_refuted.
(** concentrated forces alone are placed exactly, in every traversal order and arithmetic *)
Theorem C44_partial (A : arith) (a : elas A) oc : ea_line a = ∅ -> oc ≡ₚ map_to_list (ea_conc a) ->
  (forall n f, ea_conc a !! n = Some f -> n < node_count a /\ p_n f = 2) ->
  exists r, calc_load a oc [] = Ret r /\ length r = node_count a * 2 /\
    forall n, n < node_count a ->
      r !! (n * 2) = Some (match ea_conc a !! n with Some f => p_x f | None => s0 end) /\
      r !! (n * 2 + 1) = Some (match ea_conc a !! n with Some f => p_y f | None => s0 end).
Proof.
  intros H1 H2 H3. destruct (load_conc a oc H1 H2 H3) as (r & E & L & V). exists r. split; [exact E|]. split; [exact L|].
  intros n Hn. pose proof (V n 0 Hn ltac:(lia)) as V0. pose proof (V n 1 Hn ltac:(lia)) as V1. rewrite Nat.add_0_r in V0.
  rewrite V0, V1. now destruct (ea_conc a !! n).
Qed.
Print Assumptions C44_partial.

(** *** C48 — distorted elements.  False: the ratio of equal determinants is one. *)
Theorem C48_refuted_clockwise : exists a a', foldM ea_step (take 2 (square_ops true)) (ea_new soft (PlaneStress (qc 1))) = Ret a /\
  add_element a (0, 3, 2) = Ret a' /\ ea_built a' /\ length (ea_elems a') = 2.
Proof.
  vm_run (foldM ea_step (take 2 (square_ops true)) (ea_new soft (PlaneStress (qc 1)))) a E.
  vm_run (add_element a (0, 3, 2)) a' E'. exists a, a'. split; [exact E|]. split; [exact E'|]. split; [|reflexivity].
  exists soft, (PlaneStress (qc 1)), (square_ops false). vm_refl.
Qed.
Print Assumptions C48_refuted_clockwise.
(** in binary64 three collinear nodes are accepted: the ratio is not a number *)
Theorem C48_refuted_degenerate : exists a a' : elas F64_arith,
  ea_nodes a = [pt2 (fl 0) (fl 0); pt2 (fl 1) (fl 1); pt2 (fl 2) (fl 2)] /\
  add_element a (0, 1, 2) = Ret a' /\ length (ea_elems a') = 1.
Proof.
  set (a := (add_nodes (ea_new soft (PlaneStress (fl 1))) [pt2 (fl 0) (fl 0); pt2 (fl 1) (fl 1); pt2 (fl 2) (fl 2)]).1).
  vm_run (add_element a (0, 1, 2)) a' E. exists a, a'. split; [reflexivity|]. split; [exact E|]. reflexivity.
Qed.
Print Assumptions C48_refuted_degenerate.
(** every non-degenerate triangle is accepted, whatever its orientation *)
Theorem C48_all_accepted (A : arith) (OL : ord_laws A) (a : elas A) (d : nat * nat * nat) p q w :
  ea_nodes a !! d.1.1 = Some p -> ea_nodes a !! d.1.2 = Some q -> ea_nodes a !! d.2 = Some w ->
  p_n p = 2 -> p_n q = 2 -> p_n w = 2 ->
  ssub (smul (ssub (p_x q) (p_x p)) (ssub (p_y w) (p_y p))) (smul (ssub (p_x w) (p_x p)) (ssub (p_y q) (p_y p))) <> s0 ->
  exists a', add_element a d = Ret a' /\ ea_elems a' = ea_elems a ++ [El d (p, q, w) (ea_mat a) (ea_cond a)].
Proof. apply (add_element_accepts OL). Qed.
Print Assumptions C48_all_accepted.
(** what is refused: missing nodes and nodes that are not two-dimensional *)
Theorem C48_partial (A : arith) (a a' : elas A) (d : nat * nat * nat) : add_element a d = Ret a' ->
  exists p q w, ea_nodes a !! d.1.1 = Some p /\ ea_nodes a !! d.1.2 = Some q /\ ea_nodes a !! d.2 = Some w /\
    p_n p = 2 /\ p_n q = 2 /\ p_n w = 2.
Proof.
  intros E. pose proof E as E0. unfold add_element in E. apply bind_ret_inv in E as (e & Ee & _).
  assert (Hp : planar e).
  { unfold add_element in E0. rewrite Ee in E0. cbn [mbind out_bind] in E0. apply bind_ret_inv in E0 as (j & Ej & _).
    exact (jacobian_planar e j Ej). }
  unfold build_element, ea_node in Ee. apply bind_ret_inv in Ee as (p & Hp0 & Ee). apply bind_ret_inv in Ee as (q & Hq & Ee).
  apply bind_ret_inv in Ee as (w & Hw & Ee). injection Ee as <-. apply idx_inv in Hp0, Hq, Hw.
  destruct Hp as (H1 & H2 & H3). exists p, q, w. repeat split; assumption.
Qed.
Print Assumptions C48_partial.
Example C48_example : exists a, square (PlaneStress (qc 1)) = Ret a /\ length (ea_elems a) = 2 /\ add_element a (0, 1, 9) = Panic.
Proof. vm_run (square (PlaneStress (qc 1))) a E. exists a. split; [exact E|]. split; [reflexivity|]. vm_refl. Qed.

(** *** C72 — numbering of degrees of freedom. *)
Theorem C72_bijection (N : nat) :
  (forall n d, n < N -> d < 2 -> to_dof (n, d) < N * 2) /\
  (forall n d m k, d < 2 -> k < 2 -> to_dof (n, d) = to_dof (m, k) -> n = m /\ d = k) /\
  (forall i, i < N * 2 -> exists n d, n < N /\ d < 2 /\ to_dof (n, d) = i).
Proof. split; [intros n d Hn Hd; unfold to_dof; cbn; lia|]. split; [exact to_dof_inj|exact (to_dof_surj N)]. Qed.
Print Assumptions C72_bijection.
Theorem C72_local (A : arith) (e : element A) (i : nat) :
  (i < 6 -> exists n d, map_dof e i = Ret (n, d) /\ e_id_list e !! (i / 2) = Some n /\ d = i mod 2 /\ d < 2) /\
  (6 <= i -> map_dof e i = Panic).
Proof.
  split; [|apply map_dof_panic]. intros Hi. rewrite map_dof_ret by exact Hi. unfold e_dof. eexists _, _. split; [reflexivity|].
  split; [|split; [reflexivity|apply Nat.mod_upper_bound; lia]].
  destruct (lookup_lt_is_Some_2 (e_id_list e) (i / 2)) as [n En]; [change (length (e_id_list e)) with 3; apply Nat.div_lt_upper_bound; lia|].
  rewrite En. f_equal. symmetry. now apply nth_lookup_Some.
Qed.
Print Assumptions C72_local.
Example C72_example : to_dof (4, 1) = 9 /\ to_dof (3, 1) = 7 /\
  mapM_out (map_dof (tri (PlaneStress (qc 1)) (qc 0) (qc 0) (qc 3) (qc 4) (qc 0) (qc 7))) (seq 0 6) =
  Ret [(7, 0); (7, 1); (3, 0); (3, 1); (5, 0); (5, 1)].
Proof. repeat split. Qed.
