(** Free vibrations: what the modal study hands to its eigenvalue solver. *)
From Coq Require Import Ascii String.
From Verif Require Export FrameProofs.
From Verif Require Import Cli CliMesh.
Local Close Scope string_scope.
Local Open Scope nat_scope.
Local Notation xy := ElemProofs.xy.
Local Notation place := FrameProofs.place.

(** *** spec *)
Section spec.
Context {A : arith}.
(** the supported body can swing in the shape [u] with the squared angular frequency [mu]: at
    every allowed displacement the elastic forces are those that the accelerations need *)
Definition vibrates (n : nat) (K M : nat -> nat -> A) (cons : list (constr A)) (mu : A) (u : nat -> A) : Prop :=
  respects cons u /\ (exists i, i < n /\ u i <> s0) /\
  forall w, respects cons w -> work n (mv n K u) w = smul mu (work n (mv n M u) w).
Definition eigen_of (n : nat) (k m : nat -> nat -> A) (mu : A) (x : nat -> A) : Prop :=
  (exists i, i < n /\ x i <> s0) /\ forall i, i < n -> mv n k x i = smul mu (mv n m x i).
End spec.

Section vib.
Context {A : arith} (OL : ord_laws A) (Trig : forall th : A, sadd (smul (scos th) (scos th)) (smul (ssin th) (ssin th)) = s1).
Let FL : field_laws A := ol_field A OL.
Add Field Afield79 : (fl_field A FL).
Local Open Scope arith_scope.

Lemma some_nonzero n (x : nat -> A) : ~ (forall i, (i < n)%nat -> x i = 0) -> exists i, (i < n)%nat /\ x i <> 0.
Proof.
  intros H. destruct (decide (Exists (fun i => seqb (x i) 0 = false) (seq 0 n))) as [Hx|Hx].
  - apply Exists_exists in Hx as (i & Hi & E). apply elem_of_seq in Hi. exists i. split; [lia|]. intros E0. apply (fl_eqb A FL) in E0. congruence.
  - exfalso. apply H. intros i Hi. destruct (seqb (x i) 0) eqn:E; [now apply (fl_eqb A FL)|]. exfalso. apply Hx, Exists_exists. exists i.
    split; [apply elem_of_seq; lia|exact E].
Qed.
Lemma work_form n (K : nat -> nat -> A) u w : work n (mv n K u) w = bigsum n (fun i => bigsum n (fun j => w i * K i j * u j)).
Proof. unfold work, mv. apply bigsum_ext. intros i _. rewrite <- (bigsum_scale_r FL). apply bigsum_ext. intros j _. ring. Qed.
Lemma work_scale n (f u : nat -> A) c : work n (fun i => c * f i) u = c * work n f u.
Proof. unfold work. rewrite <- (bigsum_scale_l FL). apply bigsum_ext. intros i _. ring. Qed.
Lemma unbar_zero_zero cons t (x u : list A) : fc_inv cons (length cons * 2) t -> unbar_vec t x = Ret u ->
  (forall k, (k < length (kept (dt_mask t)))%nat -> vel x k = 0) -> forall i, (i < length cons * 2)%nat -> vel u i = 0.
Proof.
  intros Hf Eu H.
  assert (X : exists u0, unmask_vec t x = Ret u0) by (unfold unbar_vec in Eu; apply bind_ret_inv in Eu as (u0 & E & _); eauto).
  destruct X as (u0 & Eu0). destruct (unbar_ret cons t x u0 Hf Eu0) as (u' & Eu' & Lu & Vu). assert (u' = u) as -> by congruence.
  destruct (unmask_vel _ _ _ Eu0) as [Ku Zu]. assert (Lm : length (dt_mask t) = (length cons * 2)%nat) by apply Hf.
  assert (H0 : forall i, (i < length cons * 2)%nat -> vel u0 i = 0).
  { intros i Hi. rewrite <- Lm in Hi. destruct (lookup_lt_is_Some_2 _ _ Hi) as [[|] Hb].
    - apply kept_bound in Hb. apply elem_of_list_lookup in Hb as (k & Ek). rewrite (Ku k i Ek). apply H. now apply lookup_lt_Some in Ek.
    - exact (Zu i Hb). }
  intros i Hi. destruct (to_dof_surj (length cons) i Hi) as (n & d & Hn & Hd & <-). unfold to_dof. cbn [fst snd].
  specialize (Vu n Hn). destruct (ang cons n) as [th|]; destruct Vu as [U1 U2]; rewrite !H0 in U1, U2 by lia;
    (destruct d as [|[|d]]; [rewrite Nat.add_0_r, U1; ring|rewrite U2; ring|lia]).
Qed.

(** eigenpairs of the reduced matrices are the vibrations of the supported body *)
Lemma mode_iff cons t ho t0 t1 (K M Kb Mb : dict A) (x u : list A) mu :
  fc_inv cons (length cons * 2) t -> oracle_ok ho -> dict_wf K -> d_shape K = (length cons * 2, length cons * 2)%nat ->
  dict_wf M -> d_shape M = (length cons * 2, length cons * 2)%nat ->
  bar_matrix ho t0 t K = Ret Kb -> bar_matrix ho t1 t M = Ret Mb -> unbar_vec t x = Ret u ->
  (eigen_of (length (kept (dt_mask t))) (el Kb) (el Mb) mu (vel x) <-> vibrates (length cons * 2) (el K) (el M) cons mu (vel u)).
Proof.
  intros Hf Ho WK SK WM SM EK EM Eu. set (N := (length cons * 2)%nat) in *. set (n := length (kept (dt_mask t))) in *.
  destruct (bar_matrix_ret FL cons t ho t0 K Hf Ho WK SK) as (Kb' & EK' & _ & _ & FK). assert (Kb' = Kb) as -> by congruence. clear EK'.
  destruct (bar_matrix_ret FL cons t ho t1 M Hf Ho WM SM) as (Mb' & EM' & _ & _ & FM). assert (Mb' = Mb) as -> by congruence. clear EM'.
  fold n N in FK, FM.
  assert (GK : forall y w, unbar_vec t y = Ret w -> work n (mv n (el Kb) (vel x)) (vel y) = work N (mv N (el K) (vel u)) (vel w)).
  { intros y w Ew. rewrite !work_form. exact (FK x y u w Eu Ew). }
  assert (GM : forall y w, unbar_vec t y = Ret w -> work n (mv n (el Mb) (vel x)) (vel y) = work N (mv N (el M) (vel u)) (vel w)).
  { intros y w Ew. rewrite !work_form. exact (FM x y u w Eu Ew). }
  split.
  - intros [(k & Hk & Hx) He]. split; [exact (unbar_respects FL cons t x u Hf Eu)|]. split.
    + apply some_nonzero. intros H0. apply Hx. exact (unbar_zero OL Trig cons t x u Hf Eu H0 k Hk).
    + intros w Hw. set (wl := map w (seq 0 N)).
      assert (Vl : forall i, (i < N)%nat -> vel wl i = w i) by (intros i Hi; now apply vel_map_seq).
      destruct (respects_unbar FL cons t wl Trig Hf) as (y & Ly & Ey).
      { unfold wl. now rewrite map_length, seq_length. }
      { apply (respects_ext cons w); [|exact Hw]. intros i Hi. symmetry. now apply Vl. }
      rewrite (work_mv_ext N (el K) (vel u) (vel u) w (vel wl)) by (intros i Hi; auto; symmetry; now apply Vl).
      rewrite (work_mv_ext N (el M) (vel u) (vel u) w (vel wl)) by (intros i Hi; auto; symmetry; now apply Vl).
      rewrite <- (GK y wl Ey), <- (GM y wl Ey), <- work_scale. apply work_ext; [exact He|reflexivity].
  - intros (Hr & (i & Hi & Hu) & Hv). split.
    + apply some_nonzero. intros H0. apply Hu. exact (unbar_zero_zero cons t x u Hf Eu H0 i Hi).
    + intros k Hk.
      destruct (unmask_ret (dt_mask t) (unit_at n k : list A)) as (w0 & Ew0); [unfold unit_at; rewrite map_length, seq_length; fold n; lia|].
      destruct (unbar_ret cons t _ w0 Hf Ew0) as (w & Ew & Lw & _).
      pose proof (Hv (vel w) (unbar_respects FL cons t _ w Hf Ew)) as E. rewrite <- (GK _ w Ew), <- (GM _ w Ew) in E.
      assert (Q : forall g : nat -> A, work n g (vel (unit_at n k)) = g k).
      { intros g. unfold work. rewrite <- (unit_sum OL n k g Hk). apply bigsum_ext. intros j _. ring. }
      rewrite !Q in E. exact E.
Qed.

Lemma modes_problem (a : elas A) ho ho' fl fi fs n rnd dfms : ea_ok a -> oracle_ok ho -> calc_modes ho ho' fl fi fs n rnd a = Ret dfms ->
  exists K M s es s' ps, ea_calc_k a = Ret K /\ ea_calc_m a = Ret M /\ sys_wf s /\ eigen_new ho' s = Ret es /\
    find_eigens fl fi fs n rnd (searcher_new es) = Ret (s', ps) /\ length ps = n /\ length dfms = n /\
    (forall i p, ps !! i = Some p -> exists d, dfms !! i = Some (d, ssqrt (ep_value p)) /\ respects (ea_cons a) (flat_disp d) /\
       (forall mu, eigen_of (sy_dofs s) (k_at s) (m_at s) mu (vel (ep_vec p)) <->
                   vibrates (node_count a * 2) (el K) (el M) (ea_cons a) mu (flat_disp d)) /\
       work (sy_dofs s) (mv (sy_dofs s) (k_at s) (vel (ep_vec p))) (vel (ep_vec p)) =
         work (node_count a * 2) (mv (node_count a * 2) (el K) (flat_disp d)) (flat_disp d) /\
       work (sy_dofs s) (mv (sy_dofs s) (m_at s) (vel (ep_vec p))) (vel (ep_vec p)) =
         work (node_count a * 2) (mv (node_count a * 2) (el M) (flat_disp d)) (flat_disp d)) /\
    (forall mu, (exists x, eigen_of (sy_dofs s) (k_at s) (m_at s) mu x) <->
                (exists u, vibrates (node_count a * 2) (el K) (el M) (ea_cons a) mu u)).
Proof.
  intros Hok Ho E. destruct (calc_modes_count ho ho' fl fi fs n rnd a dfms E) as
    (t & K & Kb & M & Mb & s & es & s' & ps & Et & EK & EKb & EM & EMb & Es & Ees & Ef & Lp & Ld & Hps).
  pose proof (proj1 Hok) as Hl. change (length (ea_nodes a)) with (node_count a) in Hl.
  destruct (from_constraints_ret (ea_cons a)) as (t' & Et' & Hf). assert (t' = t) as -> by congruence. clear Et'.
  destruct (assembled_k FL a Hok) as (K' & EK' & WK & SK & _). assert (K' = K) as -> by congruence. clear EK'.
  destruct (assembled_m FL a Hok) as (M' & EM' & WM & SM & _). assert (M' = M) as -> by congruence. clear EM'.
  rewrite <- Hl in SK, SM.
  destruct (bar_matrix_ret FL (ea_cons a) t ho 0 K Hf Ho WK SK) as (Kb' & EK' & WKb & SKb & FK). assert (Kb' = Kb) as -> by congruence. clear EK'.
  destruct (bar_matrix_ret FL (ea_cons a) t ho 6 M Hf Ho WM SM) as (Mb' & EM' & WMb & SMb & FM). assert (Mb' = Mb) as -> by congruence. clear EM'.
  destruct (from_km_ret FL (fun k => d_nzs (ho 12%nat (d_data k))) (fun m => d_nzs (ho 13%nat (d_data m))) Kb Mb _ _ _
    eq_refl (d_nzs_listing Kb _ _ WKb SKb (Ho _ _)) eq_refl (d_nzs_listing Mb _ _ WMb SMb (Ho _ _)) SKb SMb)
    as (s1 & Es1 & Ws & Ds & _ & _ & (dk & Edk & Vk) & (dm & Edm & Vm)).
  assert (s1 = s) as -> by congruence. clear Es1.
  assert (Kat : forall i j, k_at s i j = el Kb i j) by (intros i j; unfold k_at; now rewrite Edk).
  assert (Mat : forall i j, m_at s i j = el Mb i j) by (intros i j; unfold m_at; now rewrite Edm).
  assert (Kmv : forall m x i, mv m (k_at s) x i = mv m (el Kb) x i) by (intros m x i; apply bigsum_ext; intros j _; now rewrite Kat).
  assert (Mmv : forall m x i, mv m (m_at s) x i = mv m (el Mb) x i) by (intros m x i; apply bigsum_ext; intros j _; now rewrite Mat).
  assert (Eig : forall mu x, eigen_of (sy_dofs s) (k_at s) (m_at s) mu x <-> eigen_of (length (kept (dt_mask t))) (el Kb) (el Mb) mu x).
  { intros mu x. unfold eigen_of. rewrite Ds. split; intros [H1 H2]; (split; [exact H1|]); intros i Hi; specialize (H2 i Hi); rewrite ?Kmv, ?Mmv in *; exact H2. }
  assert (Vib : forall mu (u v : nat -> A), (forall i, (i < node_count a * 2)%nat -> u i = v i) ->
     vibrates (node_count a * 2) (el K) (el M) (ea_cons a) mu u -> vibrates (node_count a * 2) (el K) (el M) (ea_cons a) mu v).
  { intros mu u v H (H1 & (i & Hi & H2) & H3). split; [apply (respects_ext _ u); [|exact H1]; rewrite Hl; exact H|]. split.
    - exists i. split; [exact Hi|]. now rewrite <- H.
    - intros w Hw. specialize (H3 w Hw). rewrite <- !(work_mv_ext _ _ u v w w) by auto. exact H3. }
  exists K, M, s, es, s', ps. repeat (split; [assumption|]). split.
  - intros i p Hp. destruct (Hps i p Hp) as (d & Ed & Hd). exists d. split; [exact Hd|].
    destruct (disp_inv a _ d Hl Ed) as (t' & u & Et' & _ & Eu & Lu & Hdu). assert (t' = t) as -> by congruence.
    assert (Hu : forall i, (i < node_count a * 2)%nat -> vel u i = flat_disp d i) by (intros j Hj; rewrite Hdu; symmetry; now apply flat_disp_of).
    split; [apply (respects_ext _ (vel u)); [rewrite Hl; exact Hu|]; exact (unbar_respects FL _ t _ u Hf Eu)|]. split; [|split].
    + intros mu. rewrite Eig, (mode_iff (ea_cons a) t ho 0 6 K M Kb Mb _ u mu Hf Ho WK SK WM SM EKb EMb Eu), Hl.
      split; apply Vib; [exact Hu|]. intros j Hj. symmetry. now apply Hu.
    + rewrite <- !(work_mv_ext _ _ (vel u) (flat_disp d) (vel u) (flat_disp d)) by exact Hu. rewrite Ds, !work_form, <- Hl.
      rewrite <- (FK _ _ u u Eu Eu). apply bigsum_ext. intros j _. apply bigsum_ext. intros k _. now rewrite Kat.
    + rewrite <- !(work_mv_ext _ _ (vel u) (flat_disp d) (vel u) (flat_disp d)) by exact Hu. rewrite Ds, !work_form, <- Hl.
      rewrite <- (FM _ _ u u Eu Eu). apply bigsum_ext. intros j _. apply bigsum_ext. intros k _. now rewrite Mat.
  - intros mu. split.
    + intros (x & Hx). apply Eig in Hx. set (n1 := length (kept (dt_mask t))) in *. set (xl := map x (seq 0 n1)).
      assert (Xl : forall k, (k < n1)%nat -> vel xl k = x k) by (intros k Hk; now apply vel_map_seq).
      destruct (unmask_ret (dt_mask t) xl) as (w0 & Ew0); [unfold xl; rewrite map_length, seq_length; fold n1; lia|].
      destruct (unbar_ret _ t _ w0 Hf Ew0) as (w & Ew & _). exists (vel w).
      rewrite <- Hl. apply (mode_iff (ea_cons a) t ho 0 6 K M Kb Mb xl w mu Hf Ho WK SK WM SM EKb EMb Ew). fold n1.
      destruct Hx as [(i & Hi & H1) H2]. split; [exists i; split; [exact Hi|]; now rewrite Xl|].
      intros k Hk. specialize (H2 k Hk).
      assert (Q : forall b, mv n1 b (vel xl) k = mv n1 b x k) by (intros b; apply bigsum_ext; intros j Hj; now rewrite Xl). rewrite !Q. exact H2.
    + intros (u & Hu). set (wl := map u (seq 0 (length (ea_cons a) * 2))).
      assert (Vl : forall i, (i < length (ea_cons a) * 2)%nat -> vel wl i = u i) by (intros i Hi; now apply vel_map_seq).
      destruct (respects_unbar FL (ea_cons a) t wl Trig Hf) as (y & Ly & Ey).
      { unfold wl. now rewrite map_length, seq_length. }
      { apply (respects_ext _ u); [|exact (proj1 Hu)]. intros i Hi. symmetry. now apply Vl. }
      exists (vel y). apply Eig. apply (mode_iff (ea_cons a) t ho 0 6 K M Kb Mb y wl mu Hf Ho WK SK WM SM EKb EMb Ey). rewrite Hl.
      apply (Vib mu u); [|exact Hu]. intros i Hi. symmetry. apply Vl. now rewrite Hl.
Qed.

(** *** mass *)
Definition at_point (r t : A) (d : nat) (u : nat -> A) : A := h_c r t 0 * u d + h_c r t 1 * u (2 + d)%nat + h_c r t 2 * u (4 + d)%nat.
Lemma M_form (e : element A) u w : el_form (M_c e) u w =
  at_samples (fun r t => m_density (e_mat e) * em_th (mats_c e r t) * (at_point r t 0 u * at_point r t 0 w + at_point r t 1 u * at_point r t 1 w)).
Proof.
  unfold M_c, el_form.
  transitivity (at_samples (fun r t => el_form (m_int (m_density (e_mat e)) (hm_c r t) (em_th (mats_c e r t))) u w)).
  - unfold at_samples, el_form. rewrite <- !(bigsum_add FL), <- (bigsum_scale_r FL). apply bigsum_ext. intros i _.
    rewrite <- !(bigsum_add FL), <- (bigsum_scale_r FL). apply bigsum_ext. intros j _. ring.
  - apply at_samples_ext. intros r t. unfold el_form, m_int, at_point. set (x0 := h_c r t 0). set (x1 := h_c r t 1). set (x2 := h_c r t 2).
    assert (E : forall k i, hm_c r t k i = if Nat.eqb (i mod 2) k then h_c r t (i / 2) else 0) by reflexivity.
    generalize (em_th (mats_c e r t)) (m_density (e_mat e)). intros th rho. cbn [bigsum]. rewrite !E.
    change (0 mod 2)%nat with 0%nat. change (1 mod 2)%nat with 1%nat. change (2 mod 2)%nat with 0%nat. change (3 mod 2)%nat with 1%nat.
    change (4 mod 2)%nat with 0%nat. change (5 mod 2)%nat with 1%nat. change (0 / 2)%nat with 0%nat. change (1 / 2)%nat with 0%nat.
    change (2 / 2)%nat with 1%nat. change (3 / 2)%nat with 1%nat. change (4 / 2)%nat with 2%nat. change (5 / 2)%nat with 2%nat.
    change (0 =? 0)%nat with true. change (1 =? 1)%nat with true. change (0 =? 1)%nat with false. change (1 =? 0)%nat with false. cbn [Nat.add]. fold x0 x1 x2. ring.
Qed.
Lemma mass_form (a : elas A) M u w : ea_ok a -> ea_calc_m a = Ret M ->
  work (node_count a * 2) (mv (node_count a * 2) (el M) u) w = ssum (map (fun e => el_form (M_c e) (loc e w) (loc e u)) (ea_elems a)).
Proof.
  intros Ha EM. destruct (assembled_m FL a Ha) as (M1 & E1 & _ & _ & V). assert (M1 = M) as -> by congruence.
  rewrite work_form, <- (assembled_form FL a M_c _ _ Ha). apply bigsum_ext. intros i _. apply bigsum_ext. intros j _. now rewrite V.
Qed.
Lemma mass_el_nonneg (e : element A) (u : nat -> A) : ccw e -> solid e -> lts 0 (m_density (e_mat e)) -> les 0 (el_form (M_c e) u u) /\
  (el_form (M_c e) u u = 0 -> forall i, (i < 6)%nat -> u i = 0).
Proof.
  intros Hd Ht Hr. rewrite M_form. unfold at_samples. destruct (tri_rest OL) as (R1 & R2 & R3).
  set (g := fun r t => m_density (e_mat e) * em_th (mats_c e r t) * (at_point r t 0 u * at_point r t 0 u + at_point r t 1 u * at_point r t 1 u)).
  assert (Pw : forall rs, rs ∈ tri_samples -> lts 0 (m_density (e_mat e) * em_th (mats_c e rs.1 rs.2))).
  { intros rs Hrs. apply (mul_pos OL); [exact Hr|]. exact (th_pos OL e Hd Ht rs Hrs). }
  assert (Pt : forall rs, rs ∈ tri_samples -> les 0 (g rs.1 rs.2)).
  { intros rs Hrs. apply (mul_nonneg OL); [apply (lts_les OL); now apply Pw|]. apply (add_nonneg OL); apply (sq_nonneg OL). }
  pose proof (Pt (tri_a, tri_a) ltac:(left)) as P1. pose proof (Pt (tri_b, tri_a) ltac:(right; left)) as P2.
  pose proof (Pt (tri_a, tri_b) ltac:(right; right; left)) as P3. cbn [fst snd] in P1, P2, P3.
  change (les 0 ((g tri_a tri_a + g tri_b tri_a + g tri_a tri_b) * (1 / sz 6)) /\
    ((g tri_a tri_a + g tri_b tri_a + g tri_a tri_b) * (1 / sz 6) = 0 -> forall i, (i < 6)%nat -> u i = 0)). split.
  - apply (mul_nonneg OL); [repeat apply (add_nonneg OL); assumption|]. apply (lts_les OL), (inv_pos OL), (sz_pos OL).
  - intros E. apply (mul_eq_0 OL) in E as [E|E]; [|exfalso; exact (pos_neq OL _ (inv_pos OL _ (sz_pos OL 6)) E)].
    apply (nonneg_sum_0 OL) in E as [E E3]; [|apply (add_nonneg OL); assumption|exact P3].
    apply (nonneg_sum_0 OL) in E as [E1 E2]; [|assumption..].
    assert (Z : forall rs, rs ∈ tri_samples -> g rs.1 rs.2 = 0 -> at_point rs.1 rs.2 0 u = 0 /\ at_point rs.1 rs.2 1 u = 0).
    { intros rs Hrs E. apply (mul_eq_0 OL) in E as [E|E]; [exfalso; exact (pos_neq OL _ (Pw rs Hrs) E)|].
      apply (nonneg_sum_0 OL) in E as [Q1 Q2]; [|apply (sq_nonneg OL)..]. apply (mul_eq_0 OL) in Q1. apply (mul_eq_0 OL) in Q2. tauto. }
    destruct (Z (tri_a, tri_a) ltac:(left) E1) as [X1 Y1]. destruct (Z (tri_b, tri_a) ltac:(right; left) E2) as [X2 Y2].
    destruct (Z (tri_a, tri_b) ltac:(right; right; left) E3) as [X3 Y3]. cbn [fst snd] in *.
    assert (S : forall x y z : A, tri_b * x + tri_a * y + tri_a * z = 0 -> tri_a * x + tri_b * y + tri_a * z = 0 -> tri_a * x + tri_a * y + tri_b * z = 0 ->
       x = 0 /\ y = 0 /\ z = 0).
    { assert (G : (tri_b : A) = tri_a + 1 / (1 + 1) /\ tri_a + tri_a + tri_b = 1 :> A).
      { unfold tri_a, tri_b. rewrite s2_eq, sz6_eq, sz3_eq. pose proof (two_neq OL). pose proof (three_neq OL). pose proof (six_neq OL). split; field; auto. }
      destruct G as [G1 G2]. intros x y z Q1 Q2 Q3. pose proof (two_neq OL) as H2.
      assert (Sm : x + y + z = 0).
      { transitivity ((tri_a + tri_a + tri_b) * (x + y + z)); [rewrite G2; ring|].
        transitivity ((tri_b * x + tri_a * y + tri_a * z) + (tri_a * x + tri_b * y + tri_a * z) + (tri_a * x + tri_a * y + tri_b * z)); [ring|].
        rewrite Q1, Q2, Q3. ring. }
      assert (H : forall v, tri_a * (x + y + z) + 1 / (1 + 1) * v = 0 -> v = 0).
      { intros v Hv. rewrite Sm in Hv. transitivity ((1 + 1) * (tri_a * 0 + 1 / (1 + 1) * v)); [field; exact H2|]. rewrite Hv. ring. }
      split; [|split]; apply H; [rewrite <- Q1|rewrite <- Q2|rewrite <- Q3]; rewrite G1; ring. }
    unfold at_point in X1, X2, X3, Y1, Y2, Y3. unfold h_c in X1, X2, X3, Y1, Y2, Y3. rewrite R1 in X1, Y1. rewrite R2 in X2, Y2. rewrite R3 in X3, Y3.
    destruct (S _ _ _ X1 X2 X3) as (V0 & V2 & V4). destruct (S _ _ _ Y1 Y2 Y3) as (V1 & V3 & V5). cbn [Nat.add] in *.
    intros i Hi. do 6 (destruct i as [|i]; [assumption|]). lia.
Qed.
Lemma mass_pos (a : elas A) M (u : nat -> A) : ea_ok a -> ea_calc_m a = Ret M ->
  (forall n, (n < node_count a)%nat -> exists e, e ∈ ea_elems a /\ n ∈ e_id_list e) ->
  (forall e, e ∈ ea_elems a -> ccw e /\ solid e) -> lts 0 (m_density (ea_mat a)) ->
  (exists i, (i < node_count a * 2)%nat /\ u i <> 0) -> lts 0 (work (node_count a * 2) (mv (node_count a * 2) (el M) u) u).
Proof.
  intros Ha EM Hc He Hr (i & Hi & Hu). rewrite (mass_form a M u u Ha EM).
  assert (Nn : forall e, e ∈ ea_elems a -> les 0 (el_form (M_c e) (loc e u) (loc e u)) /\ (el_form (M_c e) (loc e u) (loc e u) = 0 -> forall j, (j < 6)%nat -> loc e u j = 0)).
  { intros e Hin. destruct (He e Hin) as [H1 H2]. apply mass_el_nonneg; [exact H1|exact H2|]. destruct (proj2 Ha e Hin) as (_ & -> & _). exact Hr. }
  assert (N : les 0 (ssum (map (fun e => el_form (M_c e) (loc e u) (loc e u)) (ea_elems a)))) by (apply (ssum_nonneg OL); intros e Hin; apply Nn; exact Hin).
  apply (les_iff OL) in N as [N|N]; [exact N|]. exfalso. apply Hu. destruct (node_dof (node_count a) i Hi) as (n & Hn & Hin).
  destruct (Hc n Hn) as (e & Hel & Hid).
  pose proof (ssum_zero OL _ _ (fun e Hin => proj1 (Nn e Hin)) (eq_sym N) e Hel) as E. pose proof (proj2 (Nn e Hel) E) as Z.
  apply elem_of_list_lookup in Hid as (k & Hk). assert (Hk3 : (k < 3)%nat) by (apply lookup_lt_Some in Hk; exact Hk).
  assert (D : forall d, (d < 2)%nat -> u (n * 2 + d)%nat = 0).
  { intros d Hd. rewrite <- (Z (k * 2 + d)%nat ltac:(lia)). unfold loc, e_dof. rewrite Nat.div_add_l, (Nat.div_small d 2), Nat.add_0_r by lia.
    rewrite (Nat.add_comm (k * 2) d), Nat.mod_add, (Nat.mod_small d 2) by lia. rewrite (nth_lookup_Some _ _ _ _ Hk). reflexivity. }
  destruct Hin as [-> | ->]; [rewrite <- (Nat.add_0_r (n * 2)); apply D; lia|apply D; lia].
Qed.
Lemma mass_sym (a : elas A) M : ea_ok a -> ea_calc_m a = Ret M -> forall i j, el M i j = el M j i.
Proof.
  intros Ha EM i j. destruct (assembled_m FL a Ha) as (M1 & E1 & _ & _ & V). assert (M1 = M) as -> by congruence. rewrite !V. apply (contrib_sym FL).
  intros e k l. unfold M_c, m_int. apply at_samples_ext. intros r t. apply bigsum_ext. intros d _. ring.
Qed.
Lemma stiff_sym (a : elas A) K : ea_ok a -> ea_calc_k a = Ret K -> forall i j, el K i j = el K j i.
Proof.
  intros Ha EK i j. destruct (assembled_k FL a Ha) as (K1 & E1 & _ & _ & V). assert (K1 = K) as -> by congruence. rewrite !V. apply (contrib_sym FL), (K_sym FL).
Qed.
(** two shapes that swing at different rates do no work on each other *)
Lemma modes_apart n (K M : nat -> nat -> A) cons mu nu u v : (forall i j, K i j = K j i) -> (forall i j, M i j = M j i) ->
  vibrates n K M cons mu u -> vibrates n K M cons nu v -> mu <> nu -> work n (mv n M u) v = 0 /\ work n (mv n K u) v = 0.
Proof.
  intros SK SM (Ru & _ & Eu) (Rv & _ & Ev) Hne. pose proof (Eu v Rv) as E1. pose proof (Ev u Ru) as E2.
  rewrite (work_sym OL n K v u SK), (work_sym OL n M v u SM) in E2. set (k := work n (mv n K u) v) in *. set (m := work n (mv n M u) v) in *.
  assert (Z : m = 0).
  { assert (H : (mu - nu) * m = 0) by (transitivity (mu * m - nu * m); [ring|rewrite <- E1, <- E2; ring]).
    apply (mul_eq_0 OL) in H as [H|H]; [|exact H]. exfalso. apply Hne. transitivity (mu - nu + nu); [ring|rewrite H; ring]. }
  split; [exact Z|]. rewrite E1, Z. ring.
Qed.
(** a held body swings with positive squared frequency *)
Lemma mode_pos n (K M : nat -> nat -> A) cons mu u : stable n K cons -> (forall u, (exists i, (i < n)%nat /\ u i <> 0) -> lts 0 (work n (mv n M u) u)) ->
  vibrates n K M cons mu u -> lts 0 mu.
Proof.
  intros HK HM (Ru & Hu & Eu). pose proof (HM u Hu) as PM. pose proof (HK u Ru Hu) as PK. specialize (Eu u Ru).
  assert (PK' : lts 0 (work n (mv n K u) u)).
  { replace (work n (mv n K u) u) with (bigsum n (fun i => u i * mv n K u i)); [exact PK|]. apply bigsum_ext. intros i _. ring. }
  rewrite Eu in PK'. destruct (lts_total OL 0 mu) as [H|[H|H]]; [exact H| |].
  - exfalso. rewrite <- H in PK'. replace (0 * work n (mv n M u) u) with (0 : A) in PK' by ring. exact (lts_irr OL _ PK').
  - exfalso. apply (neg_pos OL) in H. pose proof (mul_pos OL _ _ H PM) as P. pose proof (lts_les_add OL _ _ _ _ P (lts_les OL _ _ PK')) as Q.
    replace (- mu * work n (mv n M u) u + mu * work n (mv n M u) u) with (0 + 0 : A) in Q by ring. exact (lts_irr OL _ Q).
Qed.
(** a triangle held at its first two nodes *)
Lemma corner_vibrates (K M : nat -> nat -> A) mu u : vibrates 6 K M [XYFixed; XYFixed; Free] mu u <->
  (u 0%nat = 0 /\ u 1%nat = 0 /\ u 2%nat = 0 /\ u 3%nat = 0) /\ (u 4%nat <> 0 \/ u 5%nat <> 0) /\
  K 4%nat 4%nat * u 4%nat + K 4%nat 5%nat * u 5%nat = mu * (M 4%nat 4%nat * u 4%nat + M 4%nat 5%nat * u 5%nat) /\
  K 5%nat 4%nat * u 4%nat + K 5%nat 5%nat * u 5%nat = mu * (M 5%nat 4%nat * u 4%nat + M 5%nat 5%nat * u 5%nat).
Proof.
  clear Trig.
  assert (R : forall w : nat -> A, respects [XYFixed; XYFixed; Free] w <-> w 0%nat = 0 /\ w 1%nat = 0 /\ w 2%nat = 0 /\ w 3%nat = 0).
  { intros w. split.
    - intros H. pose proof (H 0%nat _ eq_refl) as [H0 H1]. pose proof (H 1%nat _ eq_refl) as [H2 H3]. auto.
    - intros (H0 & H1 & H2 & H3) [|[|[|n]]] cc E; cbn in E; try discriminate; injection E as <-; cbn; auto. }
  assert (W : forall (B : nat -> nat -> A) w, u 0%nat = 0 /\ u 1%nat = 0 /\ u 2%nat = 0 /\ u 3%nat = 0 -> w 0%nat = 0 /\ w 1%nat = 0 /\ w 2%nat = 0 /\ w 3%nat = 0 ->
     work 6 (mv 6 B u) w = (B 4%nat 4%nat * u 4%nat + B 4%nat 5%nat * u 5%nat) * w 4%nat + (B 5%nat 4%nat * u 4%nat + B 5%nat 5%nat * u 5%nat) * w 5%nat).
  { intros B w (U0 & U1 & U2 & U3) (W0 & W1 & W2 & W3). unfold work, mv. cbn [bigsum]. rewrite U0, U1, U2, U3, W0, W1, W2, W3. ring. }
  unfold vibrates. rewrite R. split.
  - intros (H0 & (i & Hi & Hu) & H). split; [exact H0|]. split.
    + destruct H0 as (U0 & U1 & U2 & U3). do 4 (destruct i as [|i]; [contradiction|]). destruct i as [|i]; [now left|]. destruct i as [|i]; [now right|lia].
    + split.
      * pose proof (H (fun i => match i with 4%nat => 1 | _ => 0 end)) as G. rewrite !W in G by (auto; repeat split; reflexivity). cbv beta iota in G.
        specialize (G ltac:(apply R; repeat split; reflexivity)).
        match type of G with ?l = ?r => transitivity l; [ring|rewrite G; ring] end.
      * pose proof (H (fun i => match i with 5%nat => 1 | _ => 0 end)) as G. rewrite !W in G by (auto; repeat split; reflexivity). cbv beta iota in G.
        specialize (G ltac:(apply R; repeat split; reflexivity)).
        match type of G with ?l = ?r => transitivity l; [ring|rewrite G; ring] end.
  - intros (H0 & Hu & E1 & E2). split; [exact H0|]. split; [destruct Hu; [exists 4%nat|exists 5%nat]; (split; [lia|assumption])|].
    intros w Hw. apply R in Hw. rewrite !W by assumption. rewrite E1, E2. ring.
Qed.
(** the size does not matter, though a body [lam] times as large has [lam]^2 times the mass *)
Lemma not_slower n (K M : nat -> nat -> A) cons mu nu u : vibrates n K M cons mu u -> lts 0 (work n (mv n M u) u) ->
  vibrates n K M cons nu u -> nu = mu.
Proof.
  clear Trig.
  intros (Ru & _ & E1) P (_ & _ & E2). specialize (E1 u Ru). specialize (E2 u Ru). rewrite E1 in E2. set (m := work n (mv n M u) u) in *.
  assert (H : (nu - mu) * m = 0) by (transitivity (nu * m - mu * m); [ring|rewrite <- E2; ring]).
  apply (mul_eq_0 OL) in H as [H|H]; [|exfalso; exact (pos_neq OL _ P H)]. transitivity (nu - mu + mu); [ring|rewrite H; ring].
Qed.
Lemma diagonal_zero (k k' m m' mu : A) : forall x y, k * x + 0 * y = mu * (m * x + 0 * y) -> 0 * x + k' * y = mu * (0 * x + m' * y) ->
  k - mu * m <> 0 -> k' - mu * m' <> 0 -> x = 0 /\ y = 0.
Proof.
  clear Trig.
  intros x y E1 E2 H1 H2.
  assert (Z1 : (k - mu * m) * x = 0) by (transitivity (k * x + 0 * y - mu * (m * x + 0 * y)); [ring|rewrite E1; ring]).
  assert (Z2 : (k' - mu * m') * y = 0) by (transitivity (0 * x + k' * y - mu * (0 * x + m' * y)); [ring|rewrite E2; ring]).
  apply (mul_eq_0 OL) in Z1 as [Z1|Z1]; [contradiction|]. apply (mul_eq_0 OL) in Z2 as [Z2|Z2]; [contradiction|]. auto.
Qed.
End vib.

Section moved.
Context {A : arith} (OL : ord_laws A).
Let FL : field_laws A := ol_field A OL.
Add Field Afield80 : (fl_field A FL).
Local Open Scope arith_scope.
Context (f : frame A) (Hf : is_frame f) (a b : elas A) (Hm : moved f a b) (Ha : ea_ok a) (Hb : ea_ok b) (Hs : suits f (ea_cond a)).
Local Notation c := (f_c f). Local Notation s := (f_s f). Local Notation lam := (f_lam f).

Lemma at_point_turn r t u : at_point r t 0 (turn f u) = c * at_point r t 0 u - s * at_point r t 1 u /\ at_point r t 1 (turn f u) = s * at_point r t 0 u + c * at_point r t 1 u.
Proof. unfold at_point, turn. cbn [Nat.even Nat.add Nat.sub]. split; ring. Qed.
Lemma mass_el_moved k e e' u w : ea_elems a !! k = Some e -> ea_elems b !! k = Some e' ->
  el_form (M_c e') (loc e' (turn f u)) (loc e' (turn f w)) = el_form (M_c e) (loc e u) (loc e w).
Proof.
  intros Hk Hk'. destruct (moved_el f a b Hm Ha Hb k e Hk) as (e2 & Hk2 & Ei & Ec & Em & P0 & P1 & P2). assert (e2 = e') as -> by congruence. clear Hk2.
  assert (Hin : e ∈ ea_elems a) by (now apply elem_of_list_lookup_2 in Hk). destruct (proj2 Ha e Hin) as (_ & M & C & _).
  assert (L : forall x i, loc e' x i = loc e x i) by (intros x i; unfold loc, e_dof, e_id_list; now rewrite Ei).
  rewrite (el_form_ext _ _ (turn f (loc e u)) _ (turn f (loc e w))) by (intros i Hi; rewrite L; now apply loc_turn).
  rewrite !(M_form OL). apply (at_samples_ext). intros r t. destruct (at_point_turn r t (loc e u)) as [-> ->]. destruct (at_point_turn r t (loc e w)) as [-> ->].
  unfold mats_c. cbn [em_th]. rewrite P0, P1, P2, <- Ec, <- Em.
  assert (T : th_c (e_cond e) (place f (xy (e_pts e).1.1)) (place f (xy (e_pts e).1.2)) (place f (xy (e_pts e).2)) r t =
              th_c (e_cond e) (xy (e_pts e).1.1) (xy (e_pts e).1.2) (xy (e_pts e).2) r t).
  { destruct (e_cond e) as [th|th| ] eqn:Ece; [reflexivity|reflexivity|]. rewrite <- C in Hs. destruct Hs as (Hc1 & Hs1 & Hl1 & Ht1). cbn [th_c].
    assert (Q : forall z, (place f z).1 = z.1) by (intros z; unfold place; cbn [fst]; rewrite Hc1, Hs1, Hl1, Ht1; ring). now rewrite !Q. }
  rewrite T. destruct Hf as [H1 _]. generalize (th_c (e_cond e) (xy (e_pts e).1.1) (xy (e_pts e).1.2) (xy (e_pts e).2) r t) (m_density (e_mat e)).
  generalize (at_point r t 0 (loc e u)) (at_point r t 1 (loc e u)) (at_point r t 0 (loc e w)) (at_point r t 1 (loc e w)). intros x y x' y' th rho.
  transitivity (rho * th * ((c * c + s * s) * (x * x' + y * y'))); [ring|]. rewrite H1. ring.
Qed.
Lemma mass_moved M M' u w : ea_calc_m a = Ret M -> ea_calc_m b = Ret M' ->
  work (node_count b * 2) (mv (node_count b * 2) (el M') (turn f u)) (turn f w) = work (node_count a * 2) (mv (node_count a * 2) (el M) u) w.
Proof.
  intros EM EM'. rewrite (mass_form OL b M' _ _ Hb EM'), (mass_form OL a M _ _ Ha EM). f_equal.
  assert (HH : Forall2 (fun e e' => el_form (M_c e') (loc e' (turn f w)) (loc e' (turn f u)) = el_form (M_c e) (loc e w) (loc e u)) (ea_elems a) (ea_elems b)).
  { apply Forall2_same_length_lookup. split.
    - pose proof (f_equal length (mv_elems _ _ _ Hm)) as E. now rewrite !map_length in E.
    - intros k e e' Hk Hk'. exact (mass_el_moved k e e' w u Hk Hk'). }
  clear - HH. induction HH as [|e e' l l' He _ IH]; [reflexivity|]. cbn [map]. now rewrite He, IH.
Qed.
(** the same frequencies and the turned shapes, whatever the size *)
Lemma vibrates_moved K M K' M' mu u : ssub s1 (m_poisson (ea_mat a)) <> s0 -> (forall e, e ∈ ea_elems a -> twice_area e <> 0) ->
  Forall2 (turned_support f) (ea_cons a) (ea_cons b) ->
  ea_calc_k a = Ret K -> ea_calc_m a = Ret M -> ea_calc_k b = Ret K' -> ea_calc_m b = Ret M' ->
  (vibrates (node_count a * 2) (el K) (el M) (ea_cons a) mu u <-> vibrates (node_count b * 2) (el K') (el M') (ea_cons b) mu (turn f u)).
Proof.
  intros Hv Hd Hc EK EM EK' EM'. pose proof (moved_count f a b Hm) as HN.
  assert (NZ : (exists i, (i < node_count a * 2)%nat /\ u i <> 0) <-> (exists i, (i < node_count b * 2)%nat /\ turn f u i <> 0)).
  { rewrite <- HN. split; intros (i & Hi & H0); apply (some_nonzero OL); intros Z; apply H0; destruct (to_dof_surj (node_count a) i Hi) as (n & d & Hn & Hd2 & <-);
      unfold to_dof; cbn [fst snd]; pose proof (Z (n * 2)%nat ltac:(lia)) as Z1; pose proof (Z (n * 2 + 1)%nat ltac:(lia)) as Z2.
    - rewrite (turn_even f) in Z1. rewrite (turn_odd f) in Z2. destruct Hf as [H1 _].
      assert (X : u (n * 2)%nat = 0).
      { transitivity ((c * c + s * s) * u (n * 2)%nat); [rewrite H1; ring|].
        transitivity (c * (c * u (n * 2)%nat - s * u (n * 2 + 1)%nat) + s * (s * u (n * 2)%nat + c * u (n * 2 + 1)%nat)); [ring|]. rewrite Z1, Z2. ring. }
      assert (Y : u (n * 2 + 1)%nat = 0).
      { transitivity ((c * c + s * s) * u (n * 2 + 1)%nat); [rewrite H1; ring|].
        transitivity (c * (s * u (n * 2)%nat + c * u (n * 2 + 1)%nat) - s * (c * u (n * 2)%nat - s * u (n * 2 + 1)%nat)); [ring|]. rewrite Z1, Z2. ring. }
      destruct d as [|[|d]]; [now rewrite Nat.add_0_r|exact Y|lia].
    - destruct d as [|[|d]]; [rewrite Nat.add_0_r, (turn_even f)|rewrite (turn_odd f)|lia]; rewrite Z1, Z2; ring. }
  unfold vibrates. rewrite (respects_turn OL f Hf a b Hc u), <- NZ. split; intros (H1 & H2 & H3); (split; [exact H1|]; split; [exact H2|]); intros w Hw.
  - set (w0 := turn (back f) w).
    assert (Ew : forall i, turn f w0 i = w i) by (intros i; exact (turn_back OL f Hf w i)).
    assert (Rw : respects (ea_cons a) w0).
    { apply (respects_turn OL f Hf a b Hc w0). apply (respects_ext _ w); [intros i _; symmetry; apply Ew|exact Hw]. }
    pose proof (H3 w0 Rw) as E. rewrite <- (form_moved OL f Hf a b Hm Ha Hb Hs Hv Hd K K' u w0 EK EK'), <- (mass_moved M M' u w0 EM EM') in E.
    rewrite !(work_mv_ext _ _ (turn f u) (turn f u) w (turn f w0)) by (intros; auto; now rewrite Ew). exact E.
  - rewrite <- (form_moved OL f Hf a b Hm Ha Hb Hs Hv Hd K K' u w EK EK'), <- (mass_moved M M' u w EM EM'). apply H3.
    now apply (respects_turn OL f Hf a b Hc w).
Qed.
End moved.
