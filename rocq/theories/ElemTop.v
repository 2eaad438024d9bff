(** From reduced unknowns to node displacements. *)
From Verif Require Export SupportMat.

Section top.
Context {A : arith}.
Local Open Scope arith_scope.

(** displacement of node n read from the expanded vector *)
Definition disp_of (u : nat -> A) (n : nat) : point A := pt2 (u (n * 2)%nat) (u (n * 2 + 1)%nat).

Lemma disp_ret (a : elas A) t raw u : from_constraints (ea_cons a) = Ret t -> unbar_vec t raw = Ret u ->
  length u = (node_count a * 2)%nat ->
  raw_to_node_disp a raw = Ret (map (disp_of (vel u)) (seq 0 (node_count a))).
Proof.
  intros Et Eu L. unfold raw_to_node_disp. rewrite Et. cbn [mbind out_bind]. rewrite Eu. cbn [mbind out_bind].
  unfold range. rewrite !Nat.sub_0_r. apply mapM_out_Ret. intros n Hn. apply elem_of_list_In, in_seq in Hn.
  unfold to_dof. cbn [seq foldM fst snd].
  rewrite Nat.add_0_r, (idx_vel u (n * 2)%nat) by lia. cbn [mbind out_bind].
  rewrite (idx_vel u (n * 2 + 1)%nat) by lia. reflexivity.
Qed.

(** reading a list of node displacements as one vector *)
Definition flat_disp (disp : list (point A)) (i : nat) : A :=
  match disp !! (i / 2)%nat with Some p => comp p (i mod 2) | None => s0 end.

Lemma flat_disp_of (u : nat -> A) N i : (i < N * 2)%nat -> flat_disp (map (disp_of u) (seq 0 N)) i = u i.
Proof.
  intros Hi. unfold flat_disp. pose proof (Nat.div_lt_upper_bound i 2 N ltac:(lia) ltac:(lia)) as Hd.
  rewrite list_lookup_fmap, lookup_seq_lt by exact Hd. cbn [fmap option_fmap option_map Nat.add].
  pose proof (Nat.div_mod i 2 ltac:(lia)) as Ei. pose proof (Nat.mod_upper_bound i 2 ltac:(lia)) as Hm.
  unfold disp_of. destruct (i mod 2)%nat as [|[|k]] eqn:Em; [| |lia]; cbn; f_equal; lia.
Qed.

Lemma unbar_inv cons t (x u : list A) : fc_inv cons (length cons * 2) t -> unbar_vec t x = Ret u ->
  length u = (length cons * 2)%nat.
Proof.
  intros Hf Eu.
  assert (X : exists u0, unmask_vec t x = Ret u0) by (unfold unbar_vec in Eu; apply bind_ret_inv in Eu as (u0 & E & _); eauto).
  destruct X as (u0 & Eu0). destruct (unbar_ret cons t x u0 Hf Eu0) as (u' & Eu' & Lu & _). congruence.
Qed.

Lemma disp_inv (a : elas A) raw disp : length (ea_cons a) = node_count a -> raw_to_node_disp a raw = Ret disp ->
  exists t u, from_constraints (ea_cons a) = Ret t /\ fc_inv (ea_cons a) (node_count a * 2) t /\
    unbar_vec t raw = Ret u /\ length u = (node_count a * 2)%nat /\
    disp = map (disp_of (vel u)) (seq 0 (node_count a)).
Proof.
  intros Hl E. destruct (from_constraints_ret (ea_cons a)) as (t & Et & Hf). rewrite <- Hl. pose proof E as E0.
  unfold raw_to_node_disp in E. rewrite Et in E. cbn [mbind out_bind] in E. apply bind_ret_inv in E as (u & Eu & _).
  pose proof (unbar_inv _ _ _ _ Hf Eu) as Lu. rewrite Hl in Lu.
  rewrite (disp_ret a t raw u Et Eu Lu) in E0. injection E0 as <-. exists t, u. rewrite Hl. rewrite Hl in Hf. auto.
Qed.

(** enough unknowns for the free directions *)
Lemma disp_total (a : elas A) raw t : length (ea_cons a) = node_count a -> from_constraints (ea_cons a) = Ret t ->
  (length (kept (dt_mask t)) <= length raw)%nat -> exists disp, raw_to_node_disp a raw = Ret disp.
Proof.
  intros Hl Et Hk. destruct (from_constraints_ret (ea_cons a)) as (t' & Et' & Hf). assert (t' = t) as -> by congruence.
  destruct (unmask_ret (dt_mask t) raw Hk) as (u0 & Eu0). destruct (unbar_ret _ t raw u0 Hf Eu0) as (u & Eu & Lu & _).
  eexists. apply (disp_ret a t raw u Et Eu). now rewrite Lu, Hl.
Qed.

Lemma col_vec_ret (r : list A) : exists m, col_vec (M := lm A) r = Ret m /\ lm_wf m /\ mshape m = (length r, 1)%nat /\
  forall i, (i < length r)%nat -> el m i 0 = vel r i.
Proof.
  unfold col_vec, row_vec. cbn [mfrom_flat lm_like].
  destruct (lm_from_flat_ret 1 (length r) r ltac:(lia)) as (m & -> & W & Sm & V). cbn [mbind out_bind mtranspose lm_like].
  exists (lm_transpose m). split; [reflexivity|].
  split; [now apply lm_transpose_wf|]. split; [cbn in *; congruence|].
  intros i Hi. rewrite lm_transpose_el. specialize (V 0%nat i ltac:(lia) Hi). rewrite Nat.mul_0_r in V.
  symmetry. now apply vel_lookup.
Qed.
End top.

Section endtoend.
Context {A : arith} (FL : field_laws A).
Add Field Afield42 : (fl_field A FL).
Local Open Scope arith_scope.

Lemma load_length (a : elas A) oc ol r : calc_load a oc ol = Ret r -> length r = (node_count a * 2)%nat.
Proof.
  intros E. unfold calc_load in E. apply bind_ret_inv in E as (r1 & E1 & E2).
  assert (G : forall {B} (f : B -> list A -> out (list A)) l x y, (forall b x y, f b x = Ret y -> length y = length x) ->
     foldM f l x = Ret y -> length y = length x).
  { intros B f l. induction l as [|b l IH]; intros x y Hf; cbn [foldM]; [now injection 1 as ->|].
    intros H. apply bind_ret_inv in H as (z & Hz & H). rewrite (IH z y Hf H). eauto. }
  assert (S' : forall (l : list A) i x y, set l i x = Ret y -> length y = length l).
  { intros l i x y. unfold set. destruct (l !! i); [|discriminate]. injection 1 as <-. apply insert_length. }
  rewrite <- (replicate_length (node_count a * 2) (s0 : A)). transitivity (length r1).
  - refine (G _ _ _ _ _ _ E2). intros ef x y. unfold line_step. apply G. intros e x' y'.
    destruct (nodes_connect e ef.1.1 ef.1.2); [|now injection 1 as ->].
    intros H. apply bind_ret_inv in H as (o & _ & H). apply bind_ret_inv in H as (l & _ & H). revert H. apply G.
    intros iv p q. apply S'.
  - refine (G _ _ _ _ _ _ E1). intros nf x y. unfold conc_step. apply G. intros d p q H.
    apply bind_ret_inv in H as (v & _ & H). eapply S'. exact H.
Qed.

(** what calc_displacements computes: the node displacements expanded from a solution of the
    projected system are in equilibrium against every displacement the supports allow *)
Lemma calc_disp_equilibrium (a : elas A) ho oc ol solver disp :
  (forall th : A, scos th * scos th + ssin th * ssin th = 1) ->
  ea_ok a -> oracle_ok ho -> calc_displacements ho oc ol solver a = Ret disp ->
  exists K r s raw, ea_calc_k a = Ret K /\ calc_load a oc ol = Ret r /\
    solver s = Ret (Ok raw) /\ sys_wf s /\ sy_perm s = None /\
    (forall i j, k_at s i j = k_at s j i) /\
    length disp = node_count a /\ respects (ea_cons a) (flat_disp disp) /\
    ((forall i, (i < sy_dofs s)%nat -> mv (sy_dofs s) (k_at s) (vel raw) i = r_at s i) ->
     forall v : nat -> A, respects (ea_cons a) v ->
       bigsum (node_count a * 2) (fun i => v i * (mv (node_count a * 2) (el K) (flat_disp disp) i - vel r i)) = 0).
Proof.
  intros Trig Hok Ho E. pose proof (proj1 Hok) as Hl. change (length (ea_nodes a)) with (node_count a) in Hl.
  destruct (from_constraints_ret (ea_cons a)) as (t & Et & Hf).
  destruct (assembled_k FL a Hok) as (K & EK & WK & SK & VK).
  unfold calc_displacements in E. rewrite Et in E. cbn [mbind out_bind] in E. rewrite EK in E. cbn [mbind out_bind] in E.
  apply bind_ret_inv in E as (r & Er & E).
  pose proof (load_length a oc ol r Er) as Lr. rewrite <- Hl in SK, Lr.
  destruct (bar_matrix_ret FL (ea_cons a) t ho 0 K Hf Ho WK SK) as (Kb & EKb & WKb & SKb & VKb).
  rewrite EKb in E. cbn [mbind out_bind] in E.
  destruct (bar_ret (ea_cons a) t r Hf Lr) as (r0 & Eb & Lr0 & _). set (rb := map (vel r0) (kept (dt_mask t))) in *.
  rewrite Eb in E. cbn [mbind out_bind] in E.
  assert (Lrb : length rb = length (kept (dt_mask t))) by apply map_length.
  destruct (col_vec_ret rb) as (m & Em & Wm & Sm & Vm). rewrite Em in E. cbn [mbind out_bind] in E. rewrite Lrb in Sm, Vm.
  destruct (from_kr_dict FL _ _ lm_laws (fun k => d_nzs (ho 12%nat (d_data k))) Kb m _ _ eq_refl (Ho _ _) WKb Wm SKb Sm) as (s & Es & Ws & Ds & Ps & _ & (d & Ed & Vd & _) & (rv & Erv & Lrv & Vrv)).
  rewrite Es in E. cbn [mbind out_bind] in E. apply bind_ret_inv in E as (x & Ex & E). destruct x as [raw|]; [|discriminate].
  destruct (disp_inv a raw disp Hl E) as (t' & u & Et' & _ & Eu & Lu & Hd). assert (t' = t) as -> by congruence.
  assert (Hu : forall i, (i < node_count a * 2)%nat -> flat_disp disp i = vel u i).
  { intros i Hi. rewrite Hd. now apply flat_disp_of. }
  exists K, r, s, raw. split; [exact EK|]. split; [exact Er|]. split; [exact Ex|]. split; [exact Ws|]. split; [exact Ps|].
  split; [|split; [|split]].
  - intros i j. unfold k_at. rewrite Ed, !Vd.
    destruct (decide (i < length (kept (dt_mask t)) /\ j < length (kept (dt_mask t)))%nat) as [[Hi Hj]|Hn].
    + (* test with unit vectors *)
      assert (Q : forall p q, (p < length (kept (dt_mask t)))%nat -> (q < length (kept (dt_mask t)))%nat ->
         exists up uq, length up = (length (ea_cons a) * 2)%nat /\ length uq = (length (ea_cons a) * 2)%nat /\
         unbar_vec t (map (fun k => if (k =? p)%nat then 1 else 0) (seq 0 (length (kept (dt_mask t))))) = Ret up /\
         unbar_vec t (map (fun k => if (k =? q)%nat then 1 else 0) (seq 0 (length (kept (dt_mask t))))) = Ret uq /\
         el Kb p q = bigsum (length (ea_cons a) * 2) (fun i => bigsum (length (ea_cons a) * 2) (fun j => vel up i * el K i j * vel uq j))).
      { intros p q Hp Hq.
        set (ep := map (fun k => if (k =? p)%nat then 1 else 0 : A) (seq 0 (length (kept (dt_mask t))))).
        set (eq := map (fun k => if (k =? q)%nat then 1 else 0 : A) (seq 0 (length (kept (dt_mask t))))).
        destruct (unmask_ret (dt_mask t) ep) as (u0 & Eu0); [unfold ep; rewrite map_length, seq_length; lia|].
        destruct (unmask_ret (dt_mask t) eq) as (w0 & Ew0); [unfold eq; rewrite map_length, seq_length; lia|].
        destruct (unbar_ret _ t ep u0 Hf Eu0) as (up & Eup & Lup & _). destruct (unbar_ret _ t eq w0 Hf Ew0) as (uq & Euq & Luq & _).
        exists up, uq. split; [exact Lup|]. split; [exact Luq|]. split; [exact Eup|]. split; [exact Euq|].
        rewrite <- (VKb eq ep uq up Euq Eup).
        rewrite (bigsum_single FL _ p); [|exact Hp|].
        - rewrite (bigsum_single FL _ q); [|exact Hq|].
          + unfold ep, eq. rewrite !vel_map_seq by assumption. rewrite !Nat.eqb_refl. ring.
          + intros k Hk Hkq. unfold eq. rewrite vel_map_seq by assumption. destruct (Nat.eqb_spec k q); [congruence|ring].
        - intros k Hk Hkp. apply (bigsum_0 FL). intros l Hl'. unfold ep. rewrite vel_map_seq by assumption.
          destruct (Nat.eqb_spec k p); [congruence|ring]. }
      destruct (Q i j Hi Hj) as (ui & uj & _ & _ & E1 & E2 & ->). destruct (Q j i Hj Hi) as (uj' & ui' & _ & _ & E3 & E4 & ->).
      assert (ui' = ui) as -> by congruence. assert (uj' = uj) as -> by congruence.
      rewrite (bigsum_swap FL). apply bigsum_ext. intros p _. apply bigsum_ext. intros q _.
      rewrite !VK, (contrib_sym FL K_c _ q p (K_sym FL)). ring.
    + assert (Z : forall i j, ~ (i < length (kept (dt_mask t)) /\ j < length (kept (dt_mask t)))%nat -> el Kb i j = 0).
      { intros i' j' H'. rewrite d_el by exact WKb. destruct (d_data Kb !! (i', j')) eqn:El; [|reflexivity].
        apply WKb in El. rewrite SKb in El. cbn in El. tauto. }
      rewrite !Z; tauto.
  - rewrite Hd, map_length, seq_length. reflexivity.
  - intros n c Hc. pose proof (unbar_respects FL _ _ _ _ Hf Eu n c Hc) as H. pose proof (lookup_lt_Some _ _ _ Hc) as Hn.
    rewrite Hl in Hn. rewrite !Hu by lia. exact H.
  - intros Hsol v Hv.
    set (vl := map v (seq 0 (node_count a * 2))).
    assert (Vl : forall i, (i < node_count a * 2)%nat -> vel vl i = v i) by (intros i Hi; now apply vel_map_seq).
    transitivity (bigsum (length (ea_cons a) * 2) (fun i => vel vl i *
       (bigsum (length (ea_cons a) * 2) (fun j => el K i j * vel u j) - vel r i))).
    2:{ apply (equilibrium FL (ea_cons a) t ho 0 K r rb raw u vl Kb Trig Hf Ho WK SK Lr EKb Eb).
        - intros i Hi. specialize (Hsol i). rewrite Ds in Hsol. specialize (Hsol Hi). unfold r_at in Hsol.
          rewrite Erv, Vrv, Vm in Hsol by exact Hi. rewrite <- Hsol. unfold mv. apply bigsum_ext. intros j _.
          unfold k_at. now rewrite Ed, Vd.
        - exact Eu.
        - unfold vl. rewrite map_length, seq_length, Hl. reflexivity.
        - intros n c Hc. pose proof (Hv n c Hc) as H. pose proof (lookup_lt_Some _ _ _ Hc) as Hn.
          rewrite Hl in Hn. rewrite !Vl by lia. exact H. }
    + rewrite Hl. apply bigsum_ext. intros i Hi. rewrite Vl by exact Hi. unfold mv. do 2 f_equal.
      apply bigsum_ext. intros j Hj. now rewrite Hu.
Qed.
End endtoend.
