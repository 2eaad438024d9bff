(** When the modal study can be set up, in terms of the mesh, and what its counts count. *)
From Coq Require Import Ascii String.
From Verif Require Export VibProofs LinkProofs.
From Verif Require Import CliProofs CliMesh EigIter EigTop Inertia.
From Verif Require Import Cli.
Local Close Scope string_scope.
Local Open Scope nat_scope.
Local Open Scope list_scope.

(** ** the numbering of the unknowns *)
Section refuse.
Context {A : arith}.

Lemma foldM_in {B S} (f : B -> S -> out S) l : forall s s', foldM f l s = Ret s' -> forall x, x ∈ l -> exists s1 s2, f x s1 = Ret s2.
Proof.
  induction l as [|y l IH]; intros s s' E x Hx; [now apply elem_of_nil in Hx|]. cbn [foldM] in E. apply bind_ret_inv in E as (s1 & E1 & E).
  apply elem_of_cons in Hx as [->|Hx]; [eauto|]. exact (IH _ _ E x Hx).
Qed.
Lemma d_permute_reads ord (d d' : dict A) p r c : hash_order ord d -> keyed d r c -> d_permute ord d p = Ret d' -> is_Some (p_fwd p !! r).
Proof.
  intros Ho Hk E. unfold d_permute in E. apply bind_ret_inv in E as (data & E & _). apply (order_keyed ord d r c Ho) in Hk as (v & Hv).
  destruct (foldM_in _ _ _ _ E _ Hv) as (s1 & s2 & E1). cbn [fst] in E1. apply bind_ret_inv in E1 as (r' & Er & _).
  unfold permute, idx in Er. destruct (p_fwd p !! r); [eauto|discriminate].
Qed.

Lemma reduce_split ho t (s s' : system A) k n (part : nat -> bool) : oracle_ok ho -> sys_wf s -> sy_dofs s = n -> sy_k s = Some k -> n <> 0 ->
  (forall r, r < n -> keyed k r r) ->
  (forall r c, r < c -> keyed k r c -> part r = part c) ->
  (exists i j, i < n /\ j < n /\ part i = true /\ part j = false) ->
  reduce_envelope ho t s = Ret s' -> False.
Proof.
  intros Ho (Wk & Wm & Wr) Hn Hk Hz0 Hdiag Hpart (i & j & Hi & Hj & Hpi & Hpj). rewrite Hn, ?Hk in *. destruct Wk as [Wk Hs].
  unfold reduce_envelope. destruct (sy_perm s); [discriminate|]. rewrite Hk. cbn [unwrap mbind out_bind].
  destruct (system_graph ho t k n Ho Wk Hs) as (g & Eg & Wg & _ & Hle & Hnb & _). rewrite Hn, Eg. cbn [mbind out_bind].
  destruct (decide (vertex_count g = 0)) as [Hz|Hz]; [now rewrite rcm_empty|].
  assert (Hwalk : forall m u v, walk g m u v -> part u = part v).
  { intros m u v. induction 1 as [|m u v w _ IH Hw]; [reflexivity|]. rewrite IH. apply Hnb in Hw as (Hne & Hks).
    apply Hpart in Hks; [|lia]. destruct (decide (v <= w)) as [Hvw|Hvw];
      [rewrite Nat.min_l, Nat.max_r in Hks by lia|rewrite Nat.min_r, Nat.max_l in Hks by lia]; congruence. }
  destruct (rcm_spec g Wg ltac:(lia)) as (s0' & _ & Hs0 & Hok & Hbad).
  destruct (decide (vertex_count g = n)) as [Hvn|Hvn].
  - rewrite Hbad; [discriminate|]. rewrite Hvn.
    destruct (part s0') eqn:Ep; [exists j|exists i]; (split; [assumption|]); intros (m & Hm); apply Hwalk in Hm; congruence.
  - assert (Hrcm : rcm g = Panic \/ exists p, rcm g = Ret p /\ perm_wf (vertex_count g) p).
    { pose proof (pseudo_peripheral_ret g Wg ltac:(lia)) as (s1' & Es1 & Hs1).
      assert (Hset : exists mask, set (replicate (vertex_count g) true) s1' false = Ret mask)
        by (rewrite set_lookup by (rewrite replicate_length; exact Hs1); eauto).
      destruct Hset as (mask & Em).
      destruct (rcm_loop_cases g Wg s1' mask Hs1 Em) as [[E _]|(om & E & I)].
      - left. unfold rcm. rewrite Es1. cbn [mbind out_bind]. rewrite Em. cbn [mbind out_bind]. now rewrite E.
      - right. destruct (rcm_spec g Wg ltac:(lia)) as (s2 & Es2 & Hs2 & Hok2 & _).
        assert (s2 = s1') as -> by congruence. destruct Hok2 as (p & Ep & Wp & _); [|eauto].
        intros u Hu. destruct (rinv_n_all g s1' om I) as [_ Hp].
        assert (Hin : u ∈ om.1) by (rewrite Hp; apply elem_of_seq; lia).
        destruct (ri_dist g _ _ _ I u Hin) as (d & Hd & _). exists d. exact Hd. }
    destruct Hrcm as [-> |(p & -> & Wp)]; [discriminate|]. cbn [mbind out_bind]. intros E. apply bind_ret_inv in E as (k' & Ek' & _).
    destruct (d_permute_reads _ k k' p (n - 1) (n - 1) (Ho _ _) (Hdiag (n - 1)%nat ltac:(lia)) Ek') as (x & Hx). apply lookup_lt_Some in Hx.
    rewrite (pw_fwd _ _ Wp) in Hx. lia.
Qed.
Lemma reduce_small ho t (s s' : system A) k n : oracle_ok ho -> sys_wf s -> sy_dofs s = n -> sy_k s = Some k -> n <= 1 ->
  reduce_envelope ho t s = Ret s' -> False.
Proof.
  intros Ho W Hn Hk H1. pose proof W as (Wk & _). rewrite Hk in Wk. destruct Wk as [Wk Hs]. rewrite Hn in Hs.
  unfold reduce_envelope. destruct (sy_perm s); [discriminate|]. rewrite Hk. cbn [unwrap mbind out_bind].
  assert (Hok : forall e, e ∈ d_edges_lower (ho t (d_data k)) -> e.1 < n /\ e.2 < n).
  { intros [a b] He. apply edges_in in He as [Hle (v & Hv)]; [|exact Ho]. apply Wk in Hv. rewrite Hs in Hv. exact Hv. }
  destruct (from_edges_ret n _ Hok) as (g & E & Hv & _). rewrite Hn, E. cbn [mbind out_bind].
  rewrite rcm_empty; [discriminate|]. destruct (decide (vertex_count g = 0)) as [|Hz]; [assumption|]. exfalso.
  assert (H0 : 0 < vertex_count g) by lia. apply Hv in H0 as (a & b & Hne & [He|He] & _); apply Hok in He; cbn in He; lia.
Qed.
Lemma eigen_new_only ho (s : system A) k es : oracle_ok ho -> sys_wf s -> sy_k s = Some k -> (forall r, r < sy_dofs s -> keyed k r r) ->
  eigen_new ho s = Ret es -> 2 <= sy_dofs s /\ linked (sy_dofs s) k.
Proof.
  intros Ho W Hk Hdiag E. unfold eigen_new in E. apply bind_ret_inv in E as (s' & Es & _). set (n := sy_dofs s) in *.
  assert (H2 : 2 <= n) by (destruct (le_lt_dec n 1) as [H|H]; [exfalso; exact (reduce_small ho 0 s s' k n Ho W eq_refl Hk H Es)|lia]).
  split; [exact H2|]. intros i j Hi Hj.
  assert (RD : forall a b, Decision (paired n k a b)) by (intros a b; unfold paired; apply _).
  destruct (StudyProofs.reach n (paired n k) i Hi) as (part & P1 & P2 & P3). destruct (part j) eqn:Pj; [now apply P2|].
  exfalso. refine (reduce_split ho 0 s s' k n part Ho W eq_refl Hk ltac:(lia) Hdiag _ _ Es); [|exists i, j; auto].
  intros r c Hlt Hrc.
  assert (Hb : (r < n /\ c < n)%nat).
  { destruct W as (Wk & _ & _). rewrite Hk in Wk. destruct Wk as [Wk Hs]. destruct Hrc as [v Hv]. apply Wk in Hv. rewrite Hs in Hv. exact Hv. }
  assert (C1 : paired n k r c) by (unfold paired; rewrite Nat.min_l, Nat.max_r by lia; repeat split; (tauto || lia)).
  assert (C2 : paired n k c r) by (unfold paired; rewrite Nat.min_r, Nat.max_l by lia; repeat split; (tauto || lia)).
  destruct (part r) eqn:Pr.
  - symmetry. apply (P3 r c Pr); tauto.
  - destruct (part c) eqn:Pc; [|reflexivity]. rewrite (P3 c r Pc) in Pr; [discriminate|tauto|exact C2].
Qed.
End refuse.

(** ** spec: the modal study up to its search *)
Section spec.
Context {A : arith}.
(** the steps of calc_modes before the search return the system [es] *)
Definition set_up (ho ho' : hash_oracle A) (a : elas A) (es : esys A) : Prop :=
  exists t K Kb M Mb s, from_constraints (ea_cons a) = Ret t /\ ea_calc_k a = Ret K /\ bar_matrix ho 0 t K = Ret Kb /\
    ea_calc_m a = Ret M /\ bar_matrix ho 6 t M = Ret Mb /\
    from_km (fun k => d_nzs (ho 12 (d_data k))) (fun m => d_nzs (ho 13 (d_data m))) Kb Mb = Ret s /\ eigen_new ho' s = Ret es.
(** [n] vibrations that do no work on each other, with their squared frequencies *)
Definition swings (a : elas A) (K M : dict A) (n : nat) (u : nat -> nat -> A) (lam : nat -> A) : Prop :=
  (forall j, j < n -> vibrates (node_count a * 2) (el K) (el M) (ea_cons a) (lam j) (u j)) /\
  (forall i j, i < n -> j < n -> i <> j -> work (node_count a * 2) (mv (node_count a * 2) (el M) (u i)) (u j) = s0).
End spec.

Section start.
Context {A : arith} (OL : ord_laws A) (Trig : forall th : A, sadd (smul (scos th) (scos th)) (smul (ssin th) (ssin th)) = s1).
Let FL : field_laws A := ol_field A OL.
Add Field Afield81 : (fl_field A FL).
Local Open Scope arith_scope.

Lemma from_km_stored (Kb Mb : dict A) n ok om : dict_wf Kb -> d_shape Kb = (n, n) -> dict_wf Mb -> d_shape Mb = (n, n) ->
  hash_order ok Kb -> hash_order om Mb ->
  exists dk dm, from_km (fun _ => d_nzs ok) (fun _ => d_nzs om) Kb Mb = Ret (Sys n (Some dk) (Some dm) None None) /\
    sys_wf (Sys n (Some dk) (Some dm) None None) /\
    (forall i j, el dk i j = el Kb i j) /\ (forall i j, el dm i j = el Mb i j) /\
    (forall i j, keyed dk i j <-> keyed Kb i j) /\ (forall i j, keyed dm i j <-> keyed Mb i j).
Proof.
  intros WK SK WM SM HoK HoM. unfold from_km. change (mshape Kb) with (d_shape Kb). change (mshape Mb) with (d_shape Mb).
  rewrite SK, SM. cbn [fst snd]. rewrite !Nat.eqb_refl. cbn [assert_ mbind out_bind].
  destruct (dict_of_nzs_ret FL (fun _ : dict A => d_nzs ok) Kb n ok eq_refl (d_nzs_listing Kb n ok WK SK HoK)) as (d & Ed & Wd & Hsd & Hel & Hst). rewrite Ed. cbn [mbind out_bind].
  destruct (dict_of_nzs_ret FL (fun _ : dict A => d_nzs om) Mb n om eq_refl (d_nzs_listing Mb n om WM SM HoM)) as (d' & Ed' & Wd' & Hsd' & Hel' & Hst'). rewrite Ed'. cbn [mbind out_bind].
  exists d, d'. split; [reflexivity|]. split; [unfold sys_wf; cbn; auto|]. split; [exact Hel|]. split; [exact Hel'|].
  assert (Q : forall ord (D : dict A) i j, hash_order ord D -> (i, j) ∈ ord.*1 <-> keyed D i j).
  { intros ord D i j HoD. rewrite (order_keyed ord D i j HoD). split.
    - intros H. apply elem_of_list_fmap in H as ([k v] & E & H). cbn in E. subst k. eauto.
    - intros (v & H). apply elem_of_list_fmap. exists ((i, j), v). auto. }
  split; intros i j; unfold keyed at 1; [rewrite Hst|rewrite Hst']; now apply Q.
Qed.

Lemma barred_sym cons t ho t0 (K Kb : dict A) : fc_inv cons (length cons * 2) t -> oracle_ok ho -> dict_wf K -> d_shape K = (length cons * 2, length cons * 2)%nat ->
  (forall i j, el K i j = el K j i) -> bar_matrix ho t0 t K = Ret Kb ->
  forall i j, (i < length (kept (dt_mask t)))%nat -> (j < length (kept (dt_mask t)))%nat -> el Kb i j = el Kb j i.
Proof.
  clear Trig. intros Hf Ho WK SK Hsym EKb i j Hi Hj. set (n := length (kept (dt_mask t))) in *.
  destruct (bar_matrix_ret FL cons t ho t0 K Hf Ho WK SK) as (Kb' & EK' & _ & _ & F). assert (Kb' = Kb) as -> by congruence. clear EK'. fold n in F.
  assert (X : forall k, (k < n)%nat -> exists w, unbar_vec t (unit_at n k : list A) = Ret w).
  { intros k Hk. destruct (unmask_ret (dt_mask t) (unit_at n k : list A)) as (w0 & Ew0); [unfold unit_at; rewrite map_length, seq_length; fold n; lia|].
    destruct (unbar_ret cons t _ w0 Hf Ew0) as (w & Ew & _). eauto. }
  destruct (X i Hi) as (wi & Ewi). destruct (X j Hj) as (wj & Ewj).
  assert (U : forall p q, (p < n)%nat -> (q < n)%nat -> bigsum n (fun r => bigsum n (fun c => vel (unit_at n p) r * el Kb r c * vel (unit_at n q) c)) = el Kb p q).
  { intros p q Hp Hq. rewrite <- (work_form OL n (el Kb)). unfold work, mv.
    transitivity (bigsum n (fun r => vel (unit_at n p) r * bigsum n (fun c => vel (unit_at n q) c * el Kb r c))).
    - apply bigsum_ext. intros r _. rewrite <- (bigsum_scale_l FL), <- (bigsum_scale_r FL). apply bigsum_ext. intros c _. ring.
    - rewrite (unit_sum OL n p) by exact Hp. now rewrite (unit_sum OL n q) by exact Hq. }
  rewrite <- (U i j Hi Hj), <- (U j i Hj Hi), (F _ _ wj wi Ewj Ewi), (F _ _ wi wj Ewi Ewj), <- !(work_form OL).
  exact (work_sym OL _ (el K) _ _ Hsym).
Qed.
Lemma barred_posdef cons t ho t0 (M Mb : dict A) : fc_inv cons (length cons * 2) t -> oracle_ok ho -> dict_wf M -> d_shape M = (length cons * 2, length cons * 2)%nat ->
  (forall u, (exists i, (i < length cons * 2)%nat /\ u i <> 0) -> lts 0 (work (length cons * 2) (mv (length cons * 2) (el M) u) u)) ->
  bar_matrix ho t0 t M = Ret Mb -> posdef (length (kept (dt_mask t))) (el Mb).
Proof.
  intros Hf Ho WM SM HP EMb x (i & Hi & Hx). set (n := length (kept (dt_mask t))) in *.
  destruct (bar_matrix_ret FL cons t ho t0 M Hf Ho WM SM) as (Mb' & EM' & _ & _ & F). assert (Mb' = Mb) as -> by congruence. clear EM'. fold n in F.
  set (xl := map x (seq 0 n)). assert (Xl : forall k, (k < n)%nat -> vel xl k = x k) by (intros k Hk; now apply vel_map_seq).
  destruct (unmask_ret (dt_mask t) xl) as (w0 & Ew0); [unfold xl; rewrite map_length, seq_length; fold n; lia|].
  destruct (unbar_ret cons t _ w0 Hf Ew0) as (w & Ew & _).
  assert (Hw : exists p, (p < length cons * 2)%nat /\ vel w p <> 0).
  { apply (some_nonzero OL). intros H0. apply Hx. rewrite <- (Xl i Hi). exact (unbar_zero OL Trig cons t xl w Hf Ew H0 i Hi). }
  pose proof (HP (vel w) Hw) as P. rewrite (work_form OL), <- (F xl xl w w Ew Ew), <- (work_form OL) in P.
  replace (bigsum n (fun i => x i * mv n (el Mb) x i)) with (work n (mv n (el Mb) (vel xl)) (vel xl)); [exact P|].
  unfold work. apply bigsum_ext. intros r Hr. rewrite (Xl r Hr).
  assert (Q : mv n (el Mb) (vel xl) r = mv n (el Mb) x r) by (apply bigsum_ext; intros c Hc; now rewrite Xl). rewrite Q. ring.
Qed.

(** everything before the eigenvalue solver returns *)
Lemma modal_system (a : elas A) ho : ea_ok a -> oracle_ok ho ->
  exists t K Kb M Mb s dk dm, from_constraints (ea_cons a) = Ret t /\ fc_inv (ea_cons a) (length (ea_cons a) * 2) t /\ ea_calc_k a = Ret K /\ bar_matrix ho 0 t K = Ret Kb /\
    ea_calc_m a = Ret M /\ bar_matrix ho 6 t M = Ret Mb /\
    from_km (fun k => d_nzs (ho 12%nat (d_data k))) (fun m => d_nzs (ho 13%nat (d_data m))) Kb Mb = Ret s /\
    sys_wf s /\ sy_perm s = None /\ sy_dofs s = length (kept (dt_mask t)) /\ sy_k s = Some dk /\ sy_m s = Some dm /\
    (forall i j, el dk i j = el Kb i j) /\ (forall i j, el dm i j = el Mb i j) /\
    (forall i j, keyed dk i j <-> keyed Kb i j) /\ (forall i j, keyed dm i j <-> keyed dk i j) /\
    (forall i j, keyed Kb i j <-> exists p q, kept (dt_mask t) !! i = Some p /\ kept (dt_mask t) !! j = Some q /\ together a (p / 2) (q / 2)) /\
    (forall i j, (i < sy_dofs s)%nat -> (j < sy_dofs s)%nat -> el dk i j = el dk j i) /\
    (forall i j, (i < sy_dofs s)%nat -> (j < sy_dofs s)%nat -> el dm i j = el dm j i).
Proof.
  intros Hok Ho. pose proof (proj1 Hok) as Hl. change (length (ea_nodes a)) with (node_count a) in Hl.
  destruct (from_constraints_ret (ea_cons a)) as (t & Et & Hf).
  destruct (assembled_k FL a Hok) as (K & EK & WK & SK & _). destruct (assembled_m FL a Hok) as (M & EM & WM & SM & _). rewrite <- Hl in SK, SM.
  destruct (bar_matrix_ret FL (ea_cons a) t ho 0 K Hf Ho WK SK) as (Kb & EKb & WKb & SKb & FK).
  destruct (bar_matrix_ret FL (ea_cons a) t ho 6 M Hf Ho WM SM) as (Mb & EMb & WMb & SMb & FM).
  destruct (from_km_stored Kb Mb _ (ho 12%nat (d_data Kb)) (ho 13%nat (d_data Mb)) WKb SKb WMb SMb (Ho _ _) (Ho _ _)) as (dk & dm & Es & Ws & Vk & Vm & Sk & Sm).
  pose proof (barred_keyed a ho 0 K t Kb Ho (assembled_keyed a K Hok EK) Et EKb) as PK.
  pose proof (barred_keyed a ho 6 M t Mb Ho (assembled_m_keyed a M Hok EM) Et EMb) as PM.
  exists t, K, Kb, M, Mb, (Sys (length (kept (dt_mask t))) (Some dk) (Some dm) None None), dk, dm. cbn [sy_dofs sy_k sy_m sy_perm].
  repeat (split; [first [assumption|reflexivity]|]). split; [|split; [exact PK|split]].
  - intros i j. rewrite Sm, Sk, PK, PM. reflexivity.
  - intros i j Hi Hj. rewrite !Vk. exact (barred_sym (ea_cons a) t ho 0 K Kb Hf Ho WK SK (stiff_sym OL a K Hok EK) EKb i j Hi Hj).
  - intros i j Hi Hj. rewrite !Vm. exact (barred_sym (ea_cons a) t ho 6 M Mb Hf Ho WM SM (mass_sym OL a M Hok EM) EMb i j Hi Hj).
Qed.

(** the eigenvalue solver accepts the system of a mesh exactly if at least two unknowns are left and
    the nodes left free hang together *)
Lemma set_up_iff (a : elas A) ho ho' : ea_ok a -> oracle_ok ho -> oracle_ok ho' -> (forall n, loose a n -> together a n n) ->
  (exists es, set_up ho ho' a es) <-> (2 <= unknowns (ea_cons a))%nat /\ hangs_together a.
Proof.
  clear Trig. intros Hok Ho Ho' Hin.
  destruct (modal_system a ho Hok Ho) as (t & K & Kb & M & Mb & s & dk & dm & Et & Hf & EK & EKb & EM & EMb & Es & Ws & Hp & Hn & Ek & Em & Vk & Vm & Sk & Sm & PK & Yk & Ym).
  assert (Hdiag : forall r, (r < sy_dofs s)%nat -> keyed dk r r).
  { intros r Hr. rewrite Hn in Hr. destruct (lookup_lt_is_Some_2 _ _ Hr) as (p & Hpr). apply Sk, PK. exists p, p. split; [exact Hpr|]. split; [exact Hpr|].
    apply Hin. apply elem_of_list_lookup_2 in Hpr. exact (kept_loose _ t p Hf Hpr). }
  assert (Hlk : forall n, linked n dk <-> linked n Kb).
  { intros n. unfold linked. assert (Q : forall i j, paired n dk i j <-> paired n Kb i j) by (intros i j; unfold paired; now rewrite <- (Sk (Nat.min i j) (Nat.max i j))).
    split; intros H i j Hi Hj; (eapply rtc_subrel; [|exact (H i j Hi Hj)]); intros x y Hxy; now apply Q. }
  rewrite <- (unknowns_kept _ t Hf), <- Hn. split.
  - intros (es & t' & K' & Kb' & M' & Mb' & s' & E1 & E2 & E3 & E4 & E5 & E6 & E7).
    assert (t' = t) as -> by congruence. assert (K' = K) as -> by congruence. assert (Kb' = Kb) as -> by congruence.
    assert (M' = M) as -> by congruence. assert (Mb' = Mb) as -> by congruence. assert (s' = s) as -> by congruence.
    destruct (eigen_new_only ho' s dk es Ho' Ws Ek Hdiag E7) as [H2 Hl]. split; [exact H2|].
    apply (linked_iff a ho K t Kb _ Hok Ho EK Et EKb Hn H2). now apply Hlk.
  - intros [H2 Hh].
    assert (Hl : linked (sy_dofs s) dk) by (apply Hlk; now apply (linked_iff a ho K t Kb _ Hok Ho EK Et EKb Hn H2)).
    destruct (eigen_new_linked ho' s dk dm _ Ho' Ws eq_refl Hp Ek Em H2 Yk Ym Hl) as (es & p & Ees & _).
    + intros r Hr. apply Sm. now apply Hdiag.
    + intros r c H. now apply Sm.
    + exists es, t, K, Kb, M, Mb, s. auto 10.
Qed.

(** the count the solver reads off is the number of vibrations below the shift *)
Lemma set_up_counts (a : elas A) ho ho' es K M u lam mu d : ea_ok a -> oracle_ok ho -> oracle_ok ho' -> (forall n, loose a n -> together a n n) ->
  (forall u, (exists i, (i < node_count a * 2)%nat /\ u i <> 0) -> lts 0 (work (node_count a * 2) (mv (node_count a * 2) (el M) u) u)) ->
  ea_calc_k a = Ret K -> ea_calc_m a = Ret M -> set_up ho ho' a es -> swings a K M (unknowns (ea_cons a)) u lam ->
  pivots_at es mu d -> (forall c, (S c < unknowns (ea_cons a))%nat -> vel d c <> 0) ->
  eigenvalues_under es mu = Ret (count_below (unknowns (ea_cons a)) lam mu).
Proof.
  intros Hok Ho Ho' Hin Hpos EK0 EM0 Hs [Hv Ha] Hd Hnz.
  pose proof (proj1 (set_up_iff a ho ho' Hok Ho Ho' Hin) (ex_intro _ es Hs)) as [H2 Hh].
  destruct (modal_system a ho Hok Ho) as (t & K' & Kb & M' & Mb & s & dk & dm & Et & Hf & EK & EKb & EM & EMb & Es & Ws & Hp & Hn & Ek & Em & Vk & Vm & Sk & Sm & PK & Yk & Ym).
  assert (K' = K) as -> by congruence. assert (M' = M) as -> by congruence. clear EK0 EM0.
  destruct Hs as (t' & K' & Kb' & M' & Mb' & s' & E1 & E2 & E3 & E4 & E5 & E6 & E7).
  assert (t' = t) as -> by congruence. assert (K' = K) as -> by congruence. assert (Kb' = Kb) as -> by congruence.
  assert (M' = M) as -> by congruence. assert (Mb' = Mb) as -> by congruence. assert (s' = s) as -> by congruence. clear E1 E2 E3 E4 E5 E6.
  pose proof (unknowns_kept _ t Hf) as Hu. rewrite <- Hu, <- Hn in *.
  pose proof (proj1 Hok) as Hl. change (length (ea_nodes a)) with (node_count a) in Hl.
  destruct (assembled_k FL a Hok) as (K' & EK' & WK & SK & _). assert (K' = K) as -> by congruence. clear EK'.
  destruct (assembled_m FL a Hok) as (M' & EM' & WM & SM & _). assert (M' = M) as -> by congruence. clear EM'.
  rewrite <- Hl in SK, SM, Hpos, Hv, Ha. set (N := (length (ea_cons a) * 2)%nat) in *.
  assert (Hdiag : forall r, (r < sy_dofs s)%nat -> keyed dk r r).
  { intros r Hr. rewrite Hn in Hr. destruct (lookup_lt_is_Some_2 _ _ Hr) as (p & Hpr). apply Sk, PK. exists p, p. split; [exact Hpr|]. split; [exact Hpr|].
    apply Hin. apply elem_of_list_lookup_2 in Hpr. exact (kept_loose _ t p Hf Hpr). }
  destruct (eigen_new_only ho' s dk es Ho' Ws Ek Hdiag E7) as [_ Hlk].
  destruct (eigen_new_linked ho' s dk dm _ Ho' Ws eq_refl Hp Ek Em H2 Yk Ym Hlk) as (es' & p & Ees & Wp & _ & Hes).
  { intros r Hr. apply Sm. now apply Hdiag. } { intros r c H. now apply Sm. }
  assert (es' = es) as -> by congruence. clear Ees.
  (* the reduced vectors *)
  destruct (bar_matrix_ret FL (ea_cons a) t ho 6 M Hf Ho WM SM) as (Mb' & EM' & _ & _ & FM). assert (Mb' = Mb) as -> by congruence. clear EM'.
  assert (X : forall j, exists y, (j < sy_dofs s)%nat -> unbar_vec t y = Ret (map (u j) (seq 0 N))).
  { intros j. destruct (decide (j < sy_dofs s)%nat) as [Hj|Hj]; [|exists []; lia].
    destruct (respects_unbar FL (ea_cons a) t (map (u j) (seq 0 N)) Trig Hf) as (y & _ & Ey).
    - now rewrite map_length, seq_length.
    - apply (respects_ext (ea_cons a) (u j)); [|exact (proj1 (Hv j Hj))]. intros i Hi. symmetry. now apply vel_map_seq.
    - exists y. intros _. exact Ey. }
  assert (Y : exists f : nat -> list A, forall j, (j < sy_dofs s)%nat -> unbar_vec t (f j) = Ret (map (u j) (seq 0 N))).
  { clear -X. induction (sy_dofs s) as [|n IH]; [exists (fun _ => []); lia|]. destruct IH as (f & Hf).
    { intros j. destruct (X j) as (y & Hy). exists y. intros Hj. apply Hy. lia. }
    destruct (X n) as (y & Hy). exists (fun j => if decide (j = n) then y else f j). intros j Hj.
    destruct (decide (j = n)) as [->|Hne]; [apply Hy; lia|apply Hf; lia]. }
  destruct Y as (f & Hfj). set (n := sy_dofs s) in *. rewrite <- Hn in FM.
  assert (Vu : forall j i, (i < N)%nat -> vel (map (u j) (seq 0 N)) i = u j i) by (intros j i Hi; now apply vel_map_seq).
  assert (GM : forall i j, (i < n)%nat -> (j < n)%nat -> bigsum n (fun r => vel (f i) r * mv n (el Mb) (vel (f j)) r) = work N (mv N (el M) (u j)) (u i)).
  { intros i j Hi Hj. transitivity (work n (mv n (el Mb) (vel (f j))) (vel (f i))); [unfold work; apply bigsum_ext; intros; ring|].
    rewrite (work_form OL), (FM _ _ _ _ (Hfj j Hj) (Hfj i Hi)), <- (work_form OL).
    apply (work_mv_ext N (el M)); intros k Hk; now apply Vu. }
  assert (HG : gen_eigs n (el Kb) (el Mb) (fun r j => vel (f j) r) lam).
  { split; [|split].
    - intros j r Hj Hr. pose proof (Hv j Hj) as Vj.
      assert (V' : vibrates N (el K) (el M) (ea_cons a) (lam j) (vel (map (u j) (seq 0 N)))).
      { destruct Vj as (R1 & (k & Hk & R2) & R3). split; [apply (respects_ext _ (u j)); [intros i Hi; symmetry; now apply Vu|exact R1]|].
        split; [exists k; split; [exact Hk|]; now rewrite Vu|]. intros w Hw. specialize (R3 w Hw).
        rewrite (work_mv_ext N (el K) _ (u j) w w), (work_mv_ext N (el M) _ (u j) w w) by (intros; auto). exact R3. }
      apply (mode_iff OL Trig (ea_cons a) t ho 0 6 K M Kb Mb _ _ (lam j) Hf Ho WK SK WM SM EKb EMb (Hfj j Hj)) in V'. rewrite <- Hn in V'. now apply V'.
    - intros i j Hi Hj Hne. etransitivity; [exact (GM i j Hi Hj)|]. apply Ha; auto.
    - intros j Hj. pose proof (Hpos (u j) (proj1 (proj2 (Hv j Hj)))) as Q. rewrite <- (GM j j Hj Hj) in Q. exact Q. }
  pose proof (gen_eigs_permute OL n (invert p) _ _ _ lam (invert_wf n p Wp) HG) as HG'.
  refine (eigenvalues_under_ret OL es n _ _ (fun r j => vel (f j) (pf (invert p) r)) lam mu d Hes _ Hd Hnz).
  destruct HG' as (G1 & G2 & G3).
  assert (EKM : forall (b b' : nat -> nat -> A) (x : nat -> A) r, (forall i j, b i j = b' i j) -> mv n (fun r c => b (pb p r) (pb p c)) x r = mv n (fun r c => b' (pf (invert p) r) (pf (invert p) c)) x r).
  { intros b b' x r Hb. apply bigsum_ext. intros c _. change (pf (invert p)) with (pb p). now rewrite Hb. }
  split; [|split].
  - intros j r Hj Hr. rewrite (EKM _ _ _ _ Vk), (EKM _ _ _ _ Vm). now apply G1.
  - intros i j Hi Hj Hne. rewrite <- (G2 i j Hi Hj Hne). apply bigsum_ext. intros r _. f_equal. exact (EKM _ _ _ _ Vm).
  - intros j Hj. specialize (G3 j Hj). erewrite bigsum_ext; [exact G3|]. intros r _. cbn beta. f_equal. exact (EKM _ _ _ _ Vm).
Qed.
End start.
