(** The linear study: the reduced system and the equilibrium problem have the same solutions. *)
From Verif Require Export ElemTop SolverProofs.

(** [u] is in equilibrium with the load [r] against every displacement the supports allow *)
Definition in_equilibrium {A : arith} (n : nat) (K : nat -> nat -> A) (r : nat -> A) (cons : list (constr A)) (u : nat -> A) : Prop :=
  forall v, respects cons v -> bigsum n (fun i => smul (v i) (ssub (mv n K u i) (r i))) = s0.
(** every displacement the supports allow stores energy *)
Definition stable {A : arith} (n : nat) (K : nat -> nat -> A) (cons : list (constr A)) : Prop :=
  forall u, respects cons u -> (exists i, i < n /\ u i <> s0) -> lts s0 (bigsum n (fun i => smul (u i) (mv n K u i))).

(** *** what is reachable in a finite graph *)
Section reach.
Context (n : nat) (R : nat -> nat -> Prop) `{RD : forall a b, Decision (R a b)}.
Lemma reach_grow k : forall (L : list nat) i, i ∈ L -> NoDup L -> (forall a, a ∈ L -> a < n /\ rtc R i a) -> n - length L <= k ->
  exists L' : list nat, i ∈ L' /\ (forall a, a ∈ L' -> a < n /\ rtc R i a) /\ forall a b, a ∈ L' -> b < n -> R a b -> b ∈ L'.
Proof.
  induction k as [|k IH]; intros L i Hi Hn HL Hk.
  - exists L. split; [exact Hi|]. split; [exact HL|]. intros a b Ha Hb Hab.
    destruct (decide (b ∈ L)) as [|Hb']; [assumption|exfalso].
    assert (Hl : length (b :: L) <= length (seq 0 n)).
    { apply submseteq_length, NoDup_submseteq; [now constructor|]. intros x Hx. apply elem_of_seq.
      apply elem_of_cons in Hx as [->|Hx]; [lia|]. pose proof (proj1 (HL x Hx)). lia. }
    rewrite seq_length in Hl. cbn [length] in Hl. lia.
  - destruct (decide (Exists (fun a => Exists (fun b => b ∉ L /\ R a b) (seq 0 n)) L)) as [Hx|Hx].
    + apply Exists_exists in Hx as (a & Ha & Hx). apply Exists_exists in Hx as (b & Hb & Hb' & Hab). apply elem_of_seq in Hb.
      destruct (IH (b :: L) i) as (L' & H1 & H2 & H3).
      * now apply elem_of_list_further.
      * now constructor.
      * intros x Hx. apply elem_of_cons in Hx as [->|Hx]; [|now apply HL]. split; [lia|].
        eapply rtc_r; [exact (proj2 (HL a Ha))|exact Hab].
      * cbn [length]. assert (length L < n); [|lia].
        assert (Hl : length (b :: L) <= length (seq 0 n)).
        { apply submseteq_length, NoDup_submseteq; [now constructor|]. intros x Hx. apply elem_of_seq.
          apply elem_of_cons in Hx as [->|Hx]; [lia|]. pose proof (proj1 (HL x Hx)). lia. }
        rewrite seq_length in Hl. cbn [length] in Hl. lia.
      * exists L'. split; [exact H1|]. split; [exact H2|exact H3].
    + exists L. split; [exact Hi|]. split; [exact HL|]. intros a b Ha Hb Hab. destruct (decide (b ∈ L)) as [|Hb']; [assumption|].
      exfalso. apply Hx, Exists_exists. exists a. split; [exact Ha|]. apply Exists_exists. exists b. split; [apply elem_of_seq; lia|]. auto.
Qed.
Lemma reach i : i < n -> exists part : nat -> bool, part i = true /\ (forall a, part a = true -> rtc R i a) /\
  forall a b, part a = true -> b < n -> R a b -> part b = true.
Proof.
  intros Hi. destruct (reach_grow (n - 1) [i] i) as (L & H1 & H2 & H3).
  - now apply elem_of_list_singleton.
  - apply NoDup_singleton.
  - intros a Ha. apply elem_of_list_singleton in Ha as ->. split; [exact Hi|apply rtc_refl].
  - cbn. lia.
  - exists (fun a => bool_decide (a ∈ L)). split; [now apply bool_decide_eq_true|]. split.
    + intros a Ha. apply bool_decide_eq_true in Ha. now apply H2.
    + intros a b Ha Hb Hab. apply bool_decide_eq_true in Ha. apply bool_decide_eq_true. eauto.
Qed.
End reach.

Section study.
Context {A : arith} (OL : ord_laws A).
Let FL : field_laws A := ol_field A OL.
Add Field Afield51 : (fl_field A FL).
Local Open Scope arith_scope.
Context (Trig : forall th : A, scos th * scos th + ssin th * ssin th = 1).

Definition unit_at (n i : nat) : list A := map (fun k => if (k =? i)%nat then 1 else 0) (seq 0 n).
Lemma unit_sum n i (f : nat -> A) : (i < n)%nat -> bigsum n (fun k => vel (unit_at n i) k * f k) = f i.
Proof.
  intros Hi. rewrite (bigsum_single FL _ i); [|exact Hi|].
  - unfold unit_at. rewrite vel_map_seq by exact Hi. rewrite Nat.eqb_refl. ring.
  - intros k Hk Hki. unfold unit_at. rewrite vel_map_seq by exact Hk. destruct (Nat.eqb_spec k i); [congruence|ring].
Qed.
Lemma respects_ext cons (u v : nat -> A) : (forall i, (i < length cons * 2)%nat -> u i = v i) -> respects cons u -> respects cons v.
Proof.
  intros H Hu n c Hc. pose proof (Hu n c Hc) as G. pose proof (lookup_lt_Some _ _ _ Hc) as Hn.
  rewrite <- !H by lia. exact G.
Qed.
(** the expansion reads the unknowns of the free directions only *)
Lemma unbar_agree cons t (x y u v : list A) : fc_inv cons (length cons * 2) t -> unbar_vec t x = Ret u -> unbar_vec t y = Ret v ->
  (forall i, (i < length (kept (dt_mask t)))%nat -> vel x i = vel y i) -> u = v.
Proof.
  intros Hf Eu Ev H.
  assert (X : exists u0, unmask_vec t x = Ret u0) by (unfold unbar_vec in Eu; apply bind_ret_inv in Eu as (u0 & E & _); eauto).
  assert (Y : exists v0, unmask_vec t y = Ret v0) by (unfold unbar_vec in Ev; apply bind_ret_inv in Ev as (v0 & E & _); eauto).
  destruct X as (u0 & Eu0), Y as (v0 & Ev0).
  destruct (unbar_ret cons t x u0 Hf Eu0) as (u' & Eu' & Lu & Vu). destruct (unbar_ret cons t y v0 Hf Ev0) as (v' & Ev' & Lv & Vv).
  assert (u' = u) as -> by congruence. assert (v' = v) as -> by congruence.
  destruct (unmask_vel _ _ _ Eu0) as [Ku Zu], (unmask_vel _ _ _ Ev0) as [Kv Zv].
  assert (Lm : length (dt_mask t) = (length cons * 2)%nat) by apply Hf.
  assert (H0 : forall i, (i < length cons * 2)%nat -> vel u0 i = vel v0 i).
  { intros i Hi. rewrite <- Lm in Hi. destruct (lookup_lt_is_Some_2 _ _ Hi) as [[|] Hb].
    - apply kept_bound in Hb. apply elem_of_list_lookup in Hb as (k & Ek). rewrite (Ku k i Ek), (Kv k i Ek). apply H.
      now apply lookup_lt_Some in Ek.
    - rewrite (Zu i Hb), (Zv i Hb). reflexivity. }
  apply vel_ext; [congruence|]. rewrite Lu. intros i Hi.
  destruct (to_dof_surj (length cons) i Hi) as (n & d & Hn & Hd & <-). unfold to_dof. cbn [fst snd].
  specialize (Vu n Hn). specialize (Vv n Hn). destruct (ang cons n) as [th|]; destruct Vu as [U1 U2], Vv as [V1 V2];
    rewrite !H0 in U1, U2 by lia; (destruct d as [|[|d]]; [rewrite Nat.add_0_r|idtac|lia]; congruence).
Qed.

(** [red t K Kb r rb]: the projected matrix and load *)
Lemma reduced_iff cons t ho (K : dict A) (r rb x u : list A) Kb :
  fc_inv cons (length cons * 2) t -> oracle_ok ho -> dict_wf K -> d_shape K = (length cons * 2, length cons * 2)%nat ->
  length r = (length cons * 2)%nat -> bar_matrix ho 0 t K = Ret Kb -> bar_vec t r = Ret rb -> unbar_vec t x = Ret u ->
  ((forall i, (i < length (kept (dt_mask t)))%nat -> mv (length (kept (dt_mask t))) (el Kb) (vel x) i = vel rb i) <->
   in_equilibrium (length cons * 2) (el K) (vel r) cons (vel u)).
Proof.
  intros Hf Ho WK SK Lr Ek Eb Eu. set (N := (length cons * 2)%nat) in *. set (n := length (kept (dt_mask t))) in *.
  assert (Lb : length rb = n).
  { destruct (bar_ret cons t r Hf Lr) as (r0 & Eb' & _). rewrite Eb' in Eb. injection Eb as <-. apply map_length. }
  split.
  - intros H v Hv. set (vl := map v (seq 0 N)).
    assert (Vl : forall i, (i < N)%nat -> vel vl i = v i) by (intros i Hi; now apply vel_map_seq).
    rewrite <- (equilibrium FL cons t ho 0 K r rb x u vl Kb Trig Hf Ho WK SK Lr Ek Eb H Eu).
    + apply bigsum_ext. intros i Hi. rewrite Vl by exact Hi. reflexivity.
    + unfold vl. now rewrite map_length, seq_length.
    + apply (respects_ext cons v); [|exact Hv]. intros i Hi. symmetry. now apply Vl.
  - intros H i Hi.
    destruct (unmask_ret (dt_mask t) (unit_at n i)) as (w0 & Ew0); [unfold unit_at; rewrite map_length, seq_length; fold n; lia|].
    destruct (unbar_ret cons t _ w0 Hf Ew0) as (w & Ew & Lw & _).
    pose proof (unbar_respects FL cons t _ w Hf Ew) as Rw. specialize (H (vel w) Rw).
    destruct (bar_matrix_ret FL cons t ho 0 K Hf Ho WK SK) as (Kb' & Ek' & _ & _ & Hq).
    assert (Kb' = Kb) as -> by congruence. clear Ek'.
    specialize (Hq x (unit_at n i) u w Eu Ew). fold N n in Hq.
    pose proof (bar_adjoint FL cons t r (unit_at n i) rb w Hf Lr Eb Ew) as Ha. rewrite Lb in Ha. fold N in Ha.
    assert (E1 : bigsum n (fun k => vel (unit_at n i) k * mv n (el Kb) (vel x) k) = mv n (el Kb) (vel x) i) by now apply unit_sum.
    assert (E2 : bigsum n (fun k => vel (unit_at n i) k * vel rb k) = vel rb i) by now apply unit_sum.
    rewrite <- E1, <- E2.
    transitivity (bigsum N (fun p => bigsum N (fun q => vel w p * el K p q * vel u q))).
    { rewrite <- Hq. apply bigsum_ext. intros p _. unfold mv. rewrite <- (bigsum_scale_l FL). apply bigsum_ext. intros q _. ring. }
    transitivity (bigsum n (fun k => vel rb k * vel (unit_at n i) k)); [|apply bigsum_ext; intros; ring].
    rewrite Ha. unfold in_equilibrium in H.
    transitivity (bigsum N (fun p => vel w p * (mv N (el K) (vel u) p - vel r p)) + bigsum N (fun p => vel r p * vel w p)).
    { rewrite <- (bigsum_add FL). apply bigsum_ext. intros p _. unfold mv.
      transitivity (vel w p * bigsum N (fun q => el K p q * vel u q)); [|ring].
      rewrite <- (bigsum_scale_l FL). apply bigsum_ext. intros q _. ring. }
    rewrite H. ring.
Qed.
(** an expansion vanishes only for vanishing unknowns *)
Lemma unbar_zero cons t (x u : list A) : fc_inv cons (length cons * 2) t -> unbar_vec t x = Ret u ->
  (forall i, (i < length cons * 2)%nat -> vel u i = 0) -> forall k, (k < length (kept (dt_mask t)))%nat -> vel x k = 0.
Proof.
  intros Hf Eu H k Hk.
  assert (X : exists u0, unmask_vec t x = Ret u0) by (unfold unbar_vec in Eu; apply bind_ret_inv in Eu as (u0 & E & _); eauto).
  destruct X as (u0 & Eu0). destruct (unbar_ret cons t x u0 Hf Eu0) as (u' & Eu' & Lu & Vu). assert (u' = u) as -> by congruence.
  destruct (unmask_vel _ _ _ Eu0) as [Ku _]. destruct (lookup_lt_is_Some_2 _ _ Hk) as [i Hi]. rewrite <- (Ku k i Hi).
  assert (Hb : dt_mask t !! i = Some true) by (apply kept_bound, elem_of_list_lookup; eauto).
  assert (Lm : length (dt_mask t) = (length cons * 2)%nat) by apply Hf.
  pose proof (lookup_lt_Some _ _ _ Hb) as Hl. rewrite Lm in Hl.
  destruct (to_dof_surj (length cons) i Hl) as (n & d & Hn & Hd & <-). unfold to_dof in *. cbn [fst snd] in *.
  specialize (Vu n Hn). pose proof (H (n * 2)%nat ltac:(lia)) as H1. pose proof (H (n * 2 + 1)%nat ltac:(lia)) as H2.
  destruct (ang cons n) as [th|]; destruct Vu as [V1 V2].
  - assert (E1 : vel u0 (n * 2) = scos th * vel u (n * 2) + ssin th * vel u (n * 2 + 1)).
    { rewrite V1, V2. transitivity ((scos th * scos th + ssin th * ssin th) * vel u0 (n * 2)); [rewrite Trig; ring|ring]. }
    assert (E2 : vel u0 (n * 2 + 1) = scos th * vel u (n * 2 + 1) - ssin th * vel u (n * 2)).
    { rewrite V1, V2. transitivity ((scos th * scos th + ssin th * ssin th) * vel u0 (n * 2 + 1)); [rewrite Trig; ring|ring]. }
    destruct d as [|[|d]]; [rewrite Nat.add_0_r, E1, H1, H2; ring|rewrite E2, H1, H2; ring|lia].
  - destruct d as [|[|d]]; [rewrite Nat.add_0_r; congruence|congruence|lia].
Qed.

(** calc_displacements hands its solver the reduced equilibrium problem *)
Lemma calc_disp_system (a : elas A) ho oc ol solver disp :
  ea_ok a -> oracle_ok ho -> calc_displacements ho oc ol solver a = Ret disp ->
  exists K r s k rv raw, ea_calc_k a = Ret K /\ calc_load a oc ol = Ret r /\ solver s = Ret (Ok raw) /\
    sys_wf s /\ sy_perm s = None /\ sy_k s = Some k /\ sy_rhs s = Some rv /\ length rv = sy_dofs s /\
    (forall i j, el k i j = el k j i) /\
    length disp = node_count a /\ respects (ea_cons a) (flat_disp disp) /\
    ((forall i, (i < sy_dofs s)%nat -> mv (sy_dofs s) (el k) (vel raw) i = vel rv i) <->
     in_equilibrium (node_count a * 2) (el K) (vel r) (ea_cons a) (flat_disp disp)) /\
    (forall u, respects (ea_cons a) u -> exists x : list A,
       ((forall i, (i < sy_dofs s)%nat -> mv (sy_dofs s) (el k) (vel x) i = vel rv i) <->
        in_equilibrium (node_count a * 2) (el K) (vel r) (ea_cons a) u) /\
       ((forall i, (i < sy_dofs s)%nat -> vel x i = vel raw i) -> forall i, (i < node_count a * 2)%nat -> u i = flat_disp disp i)) /\
    (stable (node_count a * 2) (el K) (ea_cons a) -> posdef (sy_dofs s) (el k)) /\
    (exists t Kb, from_constraints (ea_cons a) = Ret t /\ bar_matrix ho 0 t K = Ret Kb /\ d_shape Kb = (sy_dofs s, sy_dofs s) /\
       (forall i j, el k i j = el Kb i j) /\ (forall i j, is_Some (d_data k !! (i, j)) <-> is_Some (d_data Kb !! (i, j)))).
Proof.
  intros Hok Ho E. pose proof E as E0.
  destruct (calc_disp_equilibrium FL a ho oc ol solver disp Trig Hok Ho E0) as (K & r & s & raw & EK & Er & Ex & Ws & Ps & Sym & Ld & Rd & _).
  pose proof (proj1 Hok) as Hl. change (length (ea_nodes a)) with (node_count a) in Hl.
  destruct (from_constraints_ret (ea_cons a)) as (t & Et & Hf).
  destruct (assembled_k FL a Hok) as (K' & EK' & WK & SK & VK). assert (K' = K) as -> by congruence. clear EK' E0.
  unfold calc_displacements in E. rewrite Et in E. cbn [mbind out_bind] in E. rewrite EK in E. cbn [mbind out_bind] in E.
  rewrite Er in E. cbn [mbind out_bind] in E.
  pose proof (load_length a oc ol r Er) as Lr. rewrite <- Hl in SK, Lr.
  destruct (bar_matrix_ret FL (ea_cons a) t ho 0 K Hf Ho WK SK) as (Kb & EKb & WKb & SKb & VKb).
  rewrite EKb in E. cbn [mbind out_bind] in E.
  destruct (bar_ret (ea_cons a) t r Hf Lr) as (r0 & Eb & Lr0 & _). set (rb := map (vel r0) (kept (dt_mask t))) in *.
  rewrite Eb in E. cbn [mbind out_bind] in E.
  assert (Lrb : length rb = length (kept (dt_mask t))) by apply map_length.
  destruct (col_vec_ret rb) as (m & Em & Wm & Sm & Vm). rewrite Em in E. cbn [mbind out_bind] in E. rewrite Lrb in Sm, Vm.
  clear s raw Ex Ws Ps Sym.
  destruct (from_kr_dict FL _ _ lm_laws (fun k => d_nzs (ho 12%nat (d_data k))) Kb m _ _ eq_refl (Ho _ _) WKb Wm SKb Sm) as (s & Es & Ws & Ds & Ps & _ & (d & Ed & Vd & Std) & (rv & Erv & Lrv & Vrv)).
  rewrite Es in E. cbn [mbind out_bind] in E. apply bind_ret_inv in E as (x & Ex & E). destruct x as [raw|]; [|discriminate].
  destruct (disp_inv a raw disp Hl E) as (t' & u & Et' & _ & Eu & Lu & Hd). assert (t' = t) as -> by congruence.
  assert (Hu : forall i, (i < node_count a * 2)%nat -> flat_disp disp i = vel u i).
  { intros i Hi. rewrite Hd. now apply flat_disp_of. }
  assert (Hmv : forall x i, (i < sy_dofs s)%nat -> mv (sy_dofs s) (el d) (vel x) i = mv (length (kept (dt_mask t))) (el Kb) (vel x) i).
  { intros x i Hi. rewrite Ds. unfold mv. apply bigsum_ext. intros j _. now rewrite Vd. }
  assert (Hsol : forall x : list A, (forall i, (i < sy_dofs s)%nat -> mv (sy_dofs s) (el d) (vel x) i = vel rv i) <->
     (forall i, (i < length (kept (dt_mask t)))%nat -> mv (length (kept (dt_mask t))) (el Kb) (vel x) i = vel rb i)).
  { intros x. split; intros H i Hi.
    - rewrite <- Hmv by (rewrite Ds; exact Hi). rewrite H by (rewrite Ds; exact Hi). rewrite Vrv by exact Hi. now apply Vm.
    - rewrite Hmv by exact Hi. rewrite Ds in Hi. rewrite H by exact Hi. rewrite Vrv by exact Hi. symmetry. now apply Vm. }
  assert (Heq : forall (f g : nat -> A), (forall i, (i < node_count a * 2)%nat -> f i = g i) ->
     in_equilibrium (node_count a * 2) (el K) (vel r) (ea_cons a) f -> in_equilibrium (node_count a * 2) (el K) (vel r) (ea_cons a) g).
  { intros f g' Hfg H v Hv. rewrite <- (H v Hv). apply bigsum_ext. intros i _. unfold mv. do 2 f_equal.
    apply bigsum_ext. intros j Hj. now rewrite Hfg. }
  exists K, r, s, d, rv, raw. split; [exact EK|]. split; [exact Er|]. split; [exact Ex|]. split; [exact Ws|]. split; [exact Ps|].
  split; [exact Ed|]. split; [exact Erv|]. split; [congruence|].
  split; [|split; [exact Ld|split; [exact Rd|split; [|split; [|split]]]]].
  - destruct (calc_disp_equilibrium FL a ho oc ol (fun s' => solver s') disp Trig Hok Ho) as (_ & _ & _ & _ & _).
    { unfold calc_displacements. rewrite Et. cbn [mbind out_bind]. rewrite EK. cbn [mbind out_bind]. rewrite Er. cbn [mbind out_bind].
      rewrite EKb. cbn [mbind out_bind]. rewrite Eb. cbn [mbind out_bind]. rewrite Em. cbn [mbind out_bind]. rewrite Es. cbn [mbind out_bind].
      rewrite Ex. cbn [mbind out_bind]. exact E. }
    assert (S1 : forall i j, (i < length (kept (dt_mask t)))%nat -> (j < length (kept (dt_mask t)))%nat -> el Kb i j = el Kb j i).
    { assert (Q : forall i j, (i < length (kept (dt_mask t)))%nat -> (j < length (kept (dt_mask t)))%nat ->
         exists wi wj, unbar_vec t (unit_at (length (kept (dt_mask t))) i) = Ret wi /\ unbar_vec t (unit_at (length (kept (dt_mask t))) j) = Ret wj /\
         el Kb i j = bigsum (length (ea_cons a) * 2) (fun p => bigsum (length (ea_cons a) * 2) (fun q => vel wi p * el K p q * vel wj q))).
      { intros i j Hi Hj.
        destruct (unmask_ret (dt_mask t) (unit_at (length (kept (dt_mask t))) i)) as (a0 & Ea0); [unfold unit_at; rewrite map_length, seq_length; lia|].
        destruct (unmask_ret (dt_mask t) (unit_at (length (kept (dt_mask t))) j)) as (b0 & Eb0); [unfold unit_at; rewrite map_length, seq_length; lia|].
        destruct (unbar_ret _ t _ a0 Hf Ea0) as (wi & Ewi & _). destruct (unbar_ret _ t _ b0 Hf Eb0) as (wj & Ewj & _).
        exists wi, wj. split; [exact Ewi|]. split; [exact Ewj|]. rewrite <- (VKb _ _ wj wi Ewj Ewi).
        transitivity (bigsum (length (kept (dt_mask t))) (fun p => vel (unit_at (length (kept (dt_mask t))) i) p *
          bigsum (length (kept (dt_mask t))) (fun q => vel (unit_at (length (kept (dt_mask t))) j) q * el Kb p q))).
        - rewrite unit_sum by exact Hi. rewrite unit_sum by exact Hj. reflexivity.
        - apply bigsum_ext. intros p _. rewrite <- (bigsum_scale_l FL). apply bigsum_ext. intros q _. ring. }
      intros i j Hi Hj. destruct (Q i j Hi Hj) as (wi & wj & G1 & G2 & ->). destruct (Q j i Hj Hi) as (wj' & wi' & G3 & G4 & ->).
      assert (wi' = wi) as -> by congruence. assert (wj' = wj) as -> by congruence.
      rewrite (bigsum_swap FL). apply bigsum_ext. intros p _. apply bigsum_ext. intros q _.
      rewrite !VK, (contrib_sym FL K_c _ q p (K_sym FL)). ring. }
    intros i j. rewrite !Vd.
    destruct (decide (i < length (kept (dt_mask t)) /\ j < length (kept (dt_mask t)))%nat) as [[Hi Hj]|Hn]; [now apply S1|].
    assert (Z : forall i j, ~ (i < length (kept (dt_mask t)) /\ j < length (kept (dt_mask t)))%nat -> el Kb i j = 0).
    { intros i' j' H'. rewrite d_el by exact WKb. destruct (d_data Kb !! (i', j')) eqn:El; [|reflexivity].
      apply WKb in El. rewrite SKb in El. cbn in El. tauto. }
    rewrite !Z; tauto.
  - rewrite Hsol, (reduced_iff (ea_cons a) t ho K r rb raw u Kb Hf Ho WK SK Lr EKb Eb Eu). rewrite Hl.
    split; apply Heq; intros i Hi; [symmetry|]; now apply Hu.
  - intros v Hv. set (vl := map v (seq 0 (length (ea_cons a) * 2))).
    assert (Vl : forall i, (i < length (ea_cons a) * 2)%nat -> vel vl i = v i) by (intros i Hi; now apply vel_map_seq).
    destruct (respects_unbar FL (ea_cons a) t vl Trig Hf) as (x & Lx & Exv).
    { unfold vl. now rewrite map_length, seq_length. }
    { apply (respects_ext _ v); [|exact Hv]. intros i Hi. symmetry. now apply Vl. }
    exists x. split.
    + rewrite Hsol, (reduced_iff (ea_cons a) t ho K r rb x vl Kb Hf Ho WK SK Lr EKb Eb Exv). rewrite Hl.
      split; apply Heq; intros i Hi; [|symmetry]; apply Vl; lia.
    + intros Hx i Hi. rewrite Hu by exact Hi. rewrite <- Vl by lia.
      rewrite (unbar_agree (ea_cons a) t x raw vl u Hf Exv Eu); [reflexivity|]. intros k Hk. apply Hx. now rewrite Ds.
  - intros St x (i & Hi & Hxi). rewrite Ds in *. set (n := length (kept (dt_mask t))) in *.
    set (xl := map x (seq 0 n)). assert (Xl : forall k, (k < n)%nat -> vel xl k = x k) by (intros k Hk; now apply vel_map_seq).
    destruct (unmask_ret (dt_mask t) xl) as (w0 & Ew0); [unfold xl; rewrite map_length, seq_length; fold n; lia|].
    destruct (unbar_ret _ t _ w0 Hf Ew0) as (w & Ew & Lw & _).
    pose proof (unbar_respects FL _ t xl w Hf Ew) as Rw.
    assert (Hw : exists p, (p < node_count a * 2)%nat /\ vel w p <> 0).
    { destruct (decide (Exists (fun p => seqb (vel w p) 0 = false) (seq 0 (node_count a * 2)))) as [Hx|Hx].
      - apply Exists_exists in Hx as (p & Hp & He). apply elem_of_seq in Hp. exists p. split; [lia|]. intros E1. apply (fl_eqb A FL) in E1. congruence.
      - exfalso. apply Hxi. rewrite <- Xl by exact Hi. apply (unbar_zero (ea_cons a) t xl w Hf Ew); [|exact Hi].
        rewrite Hl. intros p Hp. destruct (seqb (vel w p) 0) eqn:Es'; [now apply (fl_eqb A FL)|]. exfalso. apply Hx, Exists_exists.
        exists p. split; [apply elem_of_seq; lia|exact Es']. }
    pose proof (St (vel w) Rw Hw) as Hpos. specialize (VKb xl xl w w Ew Ew). rewrite Hl in VKb.
    assert (E1 : bigsum (node_count a * 2) (fun i => vel w i * mv (node_count a * 2) (el K) (vel w) i) =
                 bigsum n (fun i => x i * mv n (el d) x i)).
    { transitivity (bigsum (node_count a * 2) (fun i => bigsum (node_count a * 2) (fun j => vel w i * el K i j * vel w j))).
      - apply bigsum_ext. intros p _. unfold mv. rewrite <- (bigsum_scale_l FL). apply bigsum_ext. intros q _. ring.
      - rewrite <- VKb. fold n. apply bigsum_ext. intros p Hp. unfold mv. rewrite <- (bigsum_scale_l FL). apply bigsum_ext. intros q Hq.
        rewrite !Xl, Vd by assumption. ring. }
    rewrite <- E1. exact Hpos.
  - exists t, Kb. split; [exact Et|]. split; [exact EKb|]. split; [rewrite Ds; exact SKb|]. split; [exact Vd|exact Std].
Qed.

(** uniqueness of the reduced solution makes the displacement the only equilibrium *)
Lemma calc_disp_unique (a : elas A) ho oc ol solver disp :
  ea_ok a -> oracle_ok ho -> calc_displacements ho oc ol solver a = Ret disp ->
  exists K r s k rv raw, ea_calc_k a = Ret K /\ calc_load a oc ol = Ret r /\ solver s = Ret (Ok raw) /\
    sys_wf s /\ sy_perm s = None /\ sy_k s = Some k /\ sy_rhs s = Some rv /\ length rv = sy_dofs s /\
    (forall i j, el k i j = el k j i) /\
    length disp = node_count a /\ respects (ea_cons a) (flat_disp disp) /\
    (stable (node_count a * 2) (el K) (ea_cons a) -> posdef (sy_dofs s) (el k)) /\
    (exists t Kb, from_constraints (ea_cons a) = Ret t /\ bar_matrix ho 0 t K = Ret Kb /\ d_shape Kb = (sy_dofs s, sy_dofs s) /\
       (forall i j, el k i j = el Kb i j) /\ (forall i j, is_Some (d_data k !! (i, j)) <-> is_Some (d_data Kb !! (i, j)))) /\
    ((forall i, (i < sy_dofs s)%nat -> mv (sy_dofs s) (el k) (vel raw) i = vel rv i) ->
     (forall y, (forall i, (i < sy_dofs s)%nat -> mv (sy_dofs s) (el k) y i = vel rv i) -> forall i, (i < sy_dofs s)%nat -> y i = vel raw i) ->
     forall u, respects (ea_cons a) u ->
       (in_equilibrium (node_count a * 2) (el K) (vel r) (ea_cons a) u <-> forall i, (i < node_count a * 2)%nat -> u i = flat_disp disp i)).
Proof.
  intros Hok Ho E. destruct (calc_disp_system a ho oc ol solver disp Hok Ho E)
    as (K & r & s & k & rv & raw & H1 & H2 & H3 & H4 & H5 & H6 & H7 & H8 & H10 & H11 & H12 & H13 & H14 & H15 & H16).
  exists K, r, s, k, rv, raw. repeat (split; [assumption|]). intros Hraw Hun u Hu.
  destruct (H14 u Hu) as (x & Hx & Hag). split.
  - intros Heq. apply Hag. apply Hun. now apply Hx.
  - intros Hud. apply H13 in Hraw. intros v Hv. rewrite <- (Hraw v Hv). apply bigsum_ext. intros i _. unfold mv. do 2 f_equal.
    apply bigsum_ext. intros j Hj. now rewrite Hud.
Qed.

(** the dense solver, if it meets no zero pivot *)
Lemma dense_unique (s : system A) k rv raw : sys_wf s -> sy_k s = Some k -> sy_rhs s = Some rv -> length rv = sy_dofs s ->
  pivots_nonzero (sy_dofs s) (el k) -> dense_gauss s = Ret (Ok raw) ->
  (forall i, (i < sy_dofs s)%nat -> mv (sy_dofs s) (el k) (vel raw) i = vel rv i) /\
  (forall y, (forall i, (i < sy_dofs s)%nat -> mv (sy_dofs s) (el k) y i = vel rv i) -> forall i, (i < sy_dofs s)%nat -> y i = vel raw i).
Proof.
  intros W Hk Hr Hl Hp E. set (n := sy_dofs s) in *. destruct W as (Wk & _ & _). rewrite Hk in Wk. destruct Wk as [Wk Hs]. fold n in Hs.
  unfold dense_gauss, into_krp in E. rewrite Hk, Hr in E. cbn [unwrap mbind out_bind] in E.
  destruct (lm_of_dict_spec k Wk) as (m & Ea & Wa & Hsa & Hea). rewrite Ea in E. cbn [unwrap mbind out_bind] in E.
  destruct (lm_of_vec_ret rv n Hl) as (b & Eb & Hb). rewrite Eb in E. cbn [mbind out_bind fst snd] in E.
  destruct (solve_gausselim_spec OL n m b (el k) (vel rv)) as (x & Ex & Wx & Hsx & Hsol & Hun).
  - split; [exact Wa|]. split; [congruence|]. auto.
  - exact Hb.
  - exact Hp.
  - rewrite Ex in E. cbn [mbind out_bind] in E. rewrite (flat_ret _ _ lm_laws x Wx), Hsx in E. cbn [fst snd mbind out_bind] in E.
    injection E as <-.
    assert (Hv : forall i, (i < n)%nat -> vel (rm_list n 1 (el x)) i = el x i 0%nat).
    { intros i Hi. apply vel_lookup. replace i with (1 * i + 0)%nat at 1 by lia. apply rm_list_lookup; lia. }
    split.
    + intros i Hi. rewrite <- (Hsol i Hi). apply bigsum_ext. intros c Hc. now rewrite Hv.
    + intros y Hy i Hi. rewrite Hv by exact Hi. apply Hun; [|exact Hi]. exact Hy.
Qed.

(** the sparse solver answers linked systems only *)
Lemma cholesky_connected ho (s : system A) k rv raw : oracle_ok ho -> sys_wf s -> sy_k s = Some k -> sy_rhs s = Some rv ->
  cholesky_solver ho s = Ret raw -> (2 <= sy_dofs s)%nat /\ linked (sy_dofs s) k.
Proof.
  intros Ho W Hk Hr E. set (n := sy_dofs s) in *. split.
  - destruct (le_lt_dec n 1) as [H|H]; [|lia]. rewrite (cholesky_solver_small ho s k n Ho W eq_refl Hk H) in E. discriminate.
  - intros i j Hi Hj.
    assert (RD : forall a b, Decision (paired n k a b)) by (intros a b; unfold paired; apply _).
    destruct (reach n (paired n k) i Hi) as (part & P1 & P2 & P3). destruct (part j) eqn:Pj; [now apply P2|].
    exfalso. rewrite (cholesky_solver_split ho s k rv n part Ho W eq_refl Hk Hr) in E; [discriminate| |exists i, j; auto].
    intros r c Hlt Hrc.
    assert (Hb : (r < n /\ c < n)%nat).
    { destruct W as (Wk & _ & _). rewrite Hk in Wk. destruct Wk as [Wk Hs]. destruct Hrc as [v Hv]. apply Wk in Hv. rewrite Hs in Hv. exact Hv. }
    assert (C1 : paired n k r c) by (unfold paired; rewrite Nat.min_l, Nat.max_r by lia; repeat split; (tauto || lia)).
    assert (C2 : paired n k c r) by (unfold paired; rewrite Nat.min_r, Nat.max_l by lia; repeat split; (tauto || lia)).
    destruct (part r) eqn:Pr.
    + symmetry. apply (P3 r c Pr); tauto.
    + destruct (part c) eqn:Pc; [|reflexivity]. rewrite (P3 c r Pc) in Pr; [discriminate|tauto|exact C2].
Qed.
Lemma cholesky_unique (SQ : sqrt_law A) ho (s : system A) k rv raw : oracle_ok ho -> sys_wf s -> sy_perm s = None -> sy_k s = Some k -> sy_rhs s = Some rv ->
  (forall i j, el k i j = el k j i) -> posdef (sy_dofs s) (el k) ->
  cholesky_solver ho s = Ret (Ok raw) ->
  (forall i, (i < sy_dofs s)%nat -> mv (sy_dofs s) (el k) (vel raw) i = vel rv i) /\
  (forall y, (forall i, (i < sy_dofs s)%nat -> mv (sy_dofs s) (el k) y i = vel rv i) -> forall i, (i < sy_dofs s)%nat -> y i = vel raw i).
Proof.
  intros Ho W Hp Hk Hr Hsym HP E. destruct (cholesky_connected ho s k rv _ Ho W Hk Hr E) as [H2 Hc].
  destruct (cholesky_solver_linked OL SQ ho s k rv _ Ho W eq_refl Hp Hk Hr H2 (fun r c _ _ => Hsym r c) Hc HP) as (x & Ex & _ & Hx).
  assert (x = raw) as -> by congruence. split; [exact Hx|]. intros y Hy.
  apply (posdef_unique OL _ (el k) y (vel raw) HP). intros i Hi. rewrite Hx, Hy by exact Hi. reflexivity.
Qed.
End study.
