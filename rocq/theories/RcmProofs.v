(** The bandwidth reordering. *)
From Verif Require Export GraphProofs.

Section rcm.
Context (g : graph) (W : graph_wf g).
Notation n := (vertex_count g).

Record rinv (s i : nat) (st : list nat * list bool) : Prop := RInv {
  ri_len : length st.2 = n;
  ri_nodup : NoDup st.1;
  ri_lt : forall v, v ∈ st.1 -> v < n;
  ri_mask : forall v, v < n -> mk st.2 v = true <-> v ∉ st.1;
  ri_start : st.1 !! 0 = Some s;
  ri_i : i <= length st.1;
  ri_closed : forall j v a, j < i -> st.1 !! j = Some v -> a ∈ nbrs g v -> a ∈ st.1;
  ri_dist : forall v, v ∈ st.1 -> exists d, dist g s v d;
  ri_sorted : forall j k v w dv dw, j <= k -> st.1 !! j = Some v -> st.1 !! k = Some w ->
    dist g s v dv -> dist g s w dw -> dv <= dw;
  ri_near : forall k v w dv dw, st.1 !! i = Some v -> st.1 !! k = Some w ->
    dist g s v dv -> dist g s w dw -> dw <= dv + 1
}.

Definition rbody := fun i (st : list nat * list bool) =>
           v ← idx st.1 i;
           adj ← adjacent_masked g v st.2;
           foldM (fun a (st : list nat * list bool) =>
                    mask ← set st.2 a false; Ret (st.1 ++ [a], mask)) adj st.

Lemma dist_0 s : dist g s s 0.
Proof. split; [constructor|intros k Hk; lia]. Qed.

Lemma rinv_complete s i st v dv : rinv s i st -> st.1 !! i = Some v -> dist g s v dv ->
  forall k u, k <= dv -> walk g k s u -> u ∈ st.1.
Proof.
  intros I Hv Hdv. induction k as [|e IH]; intros u Hle Hu.
  - inversion Hu; subst. apply elem_of_list_lookup. exists 0. exact (ri_start _ _ _ I).
  - inversion Hu as [|e' s' p u' Hp Hup]; subst.
    assert (Hin : p ∈ st.1) by (apply IH; [lia|exact Hp]).
    destruct (ri_dist _ _ _ I p Hin) as (dp & Hdp). apply elem_of_list_lookup in Hin as (j & Hj).
    destruct (decide (j < i)) as [Hji|Hji]; [exact (ri_closed _ _ _ I j p u Hji Hj Hup)|].
    pose proof (ri_sorted _ _ _ I i j v p dv dp ltac:(lia) Hv Hj Hdv Hdp).
    destruct Hdp as [_ Hmin]. now destruct (Hmin e ltac:(lia)).
Qed.

Lemma rinv_step s i st : rinv s i st ->
  match st.1 !! i with
  | Some v => exists st', rbody i st = Ret st' /\ rinv s (S i) st'
  | None => rbody i st = Panic
  end.
Proof.
  intros I. unfold rbody. destruct (st.1 !! i) as [v|] eqn:Hv.
  2:{ unfold idx. now rewrite Hv. }
  rewrite (idx_lookup _ _ _ Hv). cbn [mbind out_bind].
  assert (Hvn : v < n) by (apply (ri_lt _ _ _ I), elem_of_list_lookup; eauto).
  rewrite (adjacent_masked_ret g W) by (try exact Hvn; exact (ri_len _ _ _ I)). cbn [mbind out_bind].
  set (fr := List.filter (mk st.2) (nbrs g v)).
  assert (Hfr : forall a, a ∈ fr <-> a ∉ st.1 /\ a ∈ nbrs g v).
  { intros a. unfold fr. rewrite elem_of_list_In, filter_In, <- elem_of_list_In. split.
    - intros [Ha Hm]. split; [|exact Ha]. destruct (nbrs_lt g W v a Ha) as [_ Han]. now apply (ri_mask _ _ _ I).
    - intros [Hm Ha]. split; [exact Ha|]. destruct (nbrs_lt g W v a Ha) as [_ Han]. now apply (ri_mask _ _ _ I). }
  destruct (ri_dist _ _ _ I v) as (dv & Hdv); [apply elem_of_list_lookup; eauto|].
  assert (Hfd : forall a, a ∈ fr -> dist g s a (S dv)).
  { intros a Ha. apply Hfr in Ha as [Hna Ha]. split; [econstructor; [apply Hdv|exact Ha]|].
    intros k Hk Hw. apply Hna.
    apply (rinv_complete s i st v dv I Hv Hdv k a); [lia|exact Hw]. }
  destruct st as [order mask]. cbn [fst snd] in *.
  destruct (visit_ret fr order mask) as (mask' & E & Hl & Hm).
  { intros a Ha. apply Hfr in Ha as [_ Ha]. pose proof (ri_len _ _ _ I) as Hln. cbn in Hln. rewrite Hln. now apply (nbrs_lt g W v a). }
  rewrite E. eexists; split; [reflexivity|].
  assert (Hnear : forall k w dw, (order ++ fr) !! k = Some w -> dist g s w dw -> dw <= dv + 1).
  { intros k w dw Hk Hdw. destruct (decide (k < length order)) as [Hlt|Hge].
    - rewrite lookup_app_l in Hk by exact Hlt. exact (ri_near _ _ _ I k v w dv dw Hv Hk Hdv Hdw).
    - rewrite lookup_app_r in Hk by lia. apply elem_of_list_lookup_2 in Hk. apply Hfd in Hk.
      rewrite (dist_fun g _ _ _ _ Hdw Hk). lia. }
  pose proof (lookup_lt_Some _ _ _ Hv) as Hil.
  assert (Hsorted : forall j k v w dv dw, j <= k -> (order ++ fr) !! j = Some v -> (order ++ fr) !! k = Some w ->
    dist g s v dv -> dist g s w dw -> dv <= dw).
  { intros j k x w dx dw Hjk Hj Hk Hdx Hdw. destruct (decide (k < length order)) as [Hlt|Hge].
    - rewrite lookup_app_l in Hj, Hk by lia. exact (ri_sorted _ _ _ I j k x w dx dw Hjk Hj Hk Hdx Hdw).
    - rewrite lookup_app_r in Hk by lia. apply elem_of_list_lookup_2 in Hk. apply Hfd in Hk.
      rewrite (dist_fun g _ _ _ _ Hdw Hk). pose proof (Hnear j x dx Hj Hdx). lia. }
  constructor; cbn [fst snd].
  - pose proof (ri_len _ _ _ I). cbn in *. lia.
  - apply NoDup_app. split; [exact (ri_nodup _ _ _ I)|]. split; [intros a Ha Hb; apply Hfr in Hb; tauto|].
    unfold fr. apply NoDup_ListNoDup, List.NoDup_filter, NoDup_ListNoDup. now apply nbrs_nodup.
  - intros a Ha. apply elem_of_app in Ha as [Ha|Ha]; [exact (ri_lt _ _ _ I a Ha)|].
    apply Hfr in Ha as [_ Ha]. now apply (nbrs_lt g W v a).
  - intros a Han. rewrite Hm, andb_true_iff, negb_true_iff, bool_decide_eq_false, not_elem_of_app.
    rewrite (ri_mask _ _ _ I a Han). reflexivity.
  - rewrite lookup_app_l by lia. exact (ri_start _ _ _ I).
  - rewrite app_length. lia.
  - intros j x a Hj Hx Ha. rewrite lookup_app_l in Hx by lia. apply elem_of_app.
    destruct (decide (j = i)) as [->|Hne].
    + assert (x = v) as -> by congruence. destruct (decide (a ∈ order)); [now left|right]. now apply Hfr.
    + left. exact (ri_closed _ _ _ I j x a ltac:(lia) Hx Ha).
  - intros a Ha. apply elem_of_app in Ha as [Ha|Ha]; [exact (ri_dist _ _ _ I a Ha)|]. eauto.
  - exact Hsorted.
  - intros k x w dx dw Hx Hk Hdx Hdw. pose proof (Hnear k w dw Hk Hdw).
    assert (dv <= dx); [|lia]. apply (Hsorted i (S i) v x); auto. rewrite lookup_app_l by exact Hil. exact Hv.
Qed.

Lemma rinv_0 s mask : s < n -> set (replicate n true) s false = Ret mask -> rinv s 0 ([s], mask).
Proof.
  intros Hs E. rewrite set_lookup in E by now rewrite replicate_length. injection E as <-.
  assert (H0 : forall k w, [s] !! k = Some w -> w = s).
  { intros k w H. apply elem_of_list_lookup_2, elem_of_list_singleton in H. exact H. }
  assert (Hd : forall d, dist g s s d -> d = 0) by (intros d Hd; exact (dist_fun g _ _ _ _ Hd (dist_0 s))).
  constructor; cbn [fst snd].
  - now rewrite insert_length, replicate_length.
  - apply NoDup_singleton.
  - intros v Hv. apply elem_of_list_singleton in Hv. congruence.
  - intros v Hv. rewrite mk_insert by now rewrite replicate_length. rewrite elem_of_list_singleton.
    destruct (Nat.eqb_spec v s) as [->|Hne]; [split; [discriminate|tauto]|].
    split; [auto|]. intros _. unfold mk. apply nth_lookup_Some. now apply lookup_replicate_2.
  - reflexivity.
  - lia.
  - lia.
  - intros v Hv. apply elem_of_list_singleton in Hv as ->. exists 0. apply dist_0.
  - intros j k v w dv dw _ Hj Hk Hv Hw. apply H0 in Hj, Hk. subst. rewrite (Hd _ Hv), (Hd _ Hw). lia.
  - intros k v w dv dw Hj Hk Hv Hw. apply H0 in Hj, Hk. subst. rewrite (Hd _ Hv), (Hd _ Hw). lia.
Qed.

Lemma rcm_loop_cases s mask : s < n -> set (replicate n true) s false = Ret mask ->
  (rcm_loop g s mask = Panic /\ exists u, u < n /\ ~ reachable g s u) \/
  (exists om, rcm_loop g s mask = Ret om /\ rinv s n om).
Proof.
  intros Hs E. pose proof (rinv_0 s mask Hs E) as I0. change (rcm_loop g s mask) with (foldM rbody (range 0 n) ([s], mask)).
  unfold range. rewrite Nat.sub_0_r.
  assert (G : forall k i st, i + k = n -> rinv s i st ->
    (foldM rbody (seq i k) st = Panic /\ exists u, u < n /\ ~ reachable g s u) \/
    (exists om, foldM rbody (seq i k) st = Ret om /\ rinv s n om)).
  2:{ apply G; [reflexivity|exact I0]. }
  induction k as [|k IH]; intros i st Hik I; cbn [seq foldM].
  - right. exists st. split; [reflexivity|]. replace n with i by lia. exact I.
  - pose proof (rinv_step s i st I) as Hst. destruct (st.1 !! i) as [v|] eqn:Hv.
    + destruct Hst as (st' & E' & I'). rewrite E'. cbn [mbind out_bind]. apply IH; [lia|exact I'].
    + rewrite Hst. left. split; [reflexivity|].
      apply lookup_ge_None in Hv.
      assert (Hall : exists u, u ∈ seq 0 n /\ u ∉ st.1).
      { destruct (decide (Forall (fun u => u ∈ st.1) (seq 0 n))) as [Hf|Hf].
        - exfalso. assert (Hsub : seq 0 n ⊆ st.1) by (intros u Hu; rewrite Forall_forall in Hf; now apply Hf).
          assert (Hsm : seq 0 n ⊆+ st.1) by (apply NoDup_submseteq; [apply NoDup_seq|exact Hsub]).
          apply submseteq_length in Hsm. rewrite seq_length in Hsm. lia.
        - apply not_Forall_Exists in Hf; [|intros u; apply elem_of_list_dec]. apply Exists_exists in Hf as (u & Hu & Hn). eauto. }
      destruct Hall as (u & Hu & Hnu). exists u. split; [apply elem_of_seq in Hu; lia|].
      intros (m & Hw). apply Hnu. clear Hu Hnu.
      assert (Hcl : forall m u, walk g m s u -> u ∈ st.1); [|exact (Hcl m u Hw)].
      clear m u Hw. induction m as [|m IHm]; intros u Hw.
      * inversion Hw; subst. apply elem_of_list_lookup. exists 0. exact (ri_start _ _ _ I).
      * inversion Hw as [|m' s' p u' Hp Hup]; subst. apply IHm in Hp.
        apply elem_of_list_lookup in Hp as (j & Hj).
        apply (ri_closed _ _ _ I j p u); [apply lookup_lt_Some in Hj; lia|exact Hj|exact Hup].
Qed.

Lemma rinv_n_all s om : rinv s n om -> length om.1 = n /\ om.1 ≡ₚ seq 0 n.
Proof.
  intros I. assert (Hsub : om.1 ⊆+ seq 0 n).
  { apply NoDup_submseteq; [exact (ri_nodup _ _ _ I)|]. intros v Hv. apply elem_of_seq. pose proof (ri_lt _ _ _ I v Hv). lia. }
  pose proof (submseteq_length _ _ Hsub) as Hl. rewrite seq_length in Hl. pose proof (ri_i _ _ _ I).
  split; [lia|]. apply submseteq_Permutation_length_le; [|exact Hsub]. rewrite seq_length. lia.
Qed.

Lemma rcm_spec : 0 < n -> exists s, pseudo_peripheral g = Ret s /\ s < n /\
  ((forall u, u < n -> reachable g s u) -> exists p, rcm g = Ret p /\ perm_wf n p /\
     forall i j u v du dv, i <= j -> p_back p !! i = Some u -> p_back p !! j = Some v ->
       dist g s u du -> dist g s v dv -> dv <= du) /\
  ((exists u, u < n /\ ~ reachable g s u) -> rcm g = Panic).
Proof.
  intros Hn. destruct (pseudo_peripheral_ret g W Hn) as (s & Es & Hs). exists s. split; [exact Es|]. split; [exact Hs|].
  assert (Hset : exists mask, set (replicate n true) s false = Ret mask) by (rewrite set_lookup by (rewrite replicate_length; exact Hs); eauto).
  destruct Hset as (mask & Em). unfold rcm. rewrite Es. cbn [mbind out_bind]. rewrite Em. cbn [mbind out_bind].
  destruct (rcm_loop_cases s mask Hs Em) as [[E Hex]|(om & E & I)]; rewrite E; cbn [mbind out_bind].
  - split; [|reflexivity]. intros Hall. destruct Hex as (u & Hu & Hnu). now destruct (Hnu (Hall u Hu)).
  - destruct (rinv_n_all s om I) as [Hl Hp]. split.
    2:{ intros (u & Hu & Hnu). exfalso. apply Hnu. assert (Hin : u ∈ om.1) by (rewrite Hp; apply elem_of_seq; lia).
        destruct (ri_dist _ _ _ I u Hin) as (d & Hd & _). now exists d. }
    intros _. rewrite (proj2 (Nat.eqb_eq _ _) Hl). cbn [assert_ mbind out_bind].
    destruct (from_placement_ret (rev om.1)) as (p & Ep & Wp & Hpb).
    + rewrite <- (Permutation_rev om.1). exact (ri_nodup _ _ _ I).
    + intros x Hx. rewrite <- (Permutation_rev om.1) in Hx. rewrite rev_length, Hl. exact (ri_lt _ _ _ I x Hx).
    + rewrite rev_length, Hl in Wp. exists p. split; [exact Ep|]. split; [exact Wp|].
      intros i j u v du dv Hij Hi Hj Hdu Hdv. rewrite Hpb in Hi, Hj.
      assert (Hrev : forall i u, rev om.1 !! i = Some u -> i < n /\ om.1 !! (n - 1 - i) = Some u).
      { intros i0 u0 H0. pose proof (lookup_lt_Some _ _ _ H0) as Hlt. rewrite rev_length, Hl in Hlt. split; [exact Hlt|].
        rewrite rev_alt in H0. change (rev_append om.1 []) with (reverse om.1) in H0. rewrite reverse_lookup in H0 by lia. rewrite Hl in H0. rewrite <- H0. f_equal. lia. }
      apply Hrev in Hi as [Hi1 Hi], Hj as [Hj1 Hj].
      apply (ri_sorted _ _ _ I (n - 1 - j) (n - 1 - i) v u); auto. lia.
Qed.
End rcm.

(** undirected graphs *)
Definition graph_sym (g : graph) : Prop := forall u v, v ∈ nbrs g u -> u ∈ nbrs g v.

Lemma walk_app g j k u v w : walk g j u v -> walk g k v w -> walk g (j + k) u w.
Proof.
  intros H1 H2. revert H1. induction H2 as [|k v x w _ IH Hw]; intros H1.
  - now rewrite Nat.add_0_r.
  - rewrite Nat.add_succ_r. econstructor; [apply IH, H1|exact Hw].
Qed.

Lemma walk_sym g k u v : graph_sym g -> walk g k u v -> walk g k v u.
Proof.
  intros Sy. induction 1 as [|k u v w _ IH Hw]; [constructor|].
  change (S k) with (1 + k). apply walk_app with v; [|exact IH].
  apply (walk_S g 0 w w v); [constructor|]. now apply Sy.
Qed.

Lemma rcm_empty g : vertex_count g = 0 -> rcm g = Panic.
Proof. intros H. unfold rcm, pseudo_peripheral. rewrite H. cbn. unfold far_node. now rewrite H. Qed.
