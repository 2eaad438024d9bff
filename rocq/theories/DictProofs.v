(** The hash-backed dictionary and the conversions out of it. *)
From Verif Require Export BiEnvProofs PermProofs.

Section dict.
Context {A : arith}.
Notation entries := (list ((nat * nat) * A)).
Implicit Types d : dict A.

(** every stored key lies inside the shape: all constructors and writes keep this *)
Definition dict_wf d : Prop :=
  forall r c v, d_data d !! (r, c) = Some v -> r < (d_shape d).1 /\ c < (d_shape d).2.

(** [ord] is one of the orders in which the hash map of [d] can be traversed *)
Definition hash_order (ord : entries) d : Prop := ord ≡ₚ map_to_list (d_data d).

Lemma d_in_true d r c : d_in d (r, c) = true <-> r < (d_shape d).1 /\ c < (d_shape d).2.
Proof. unfold d_in; cbn. now rewrite andb_true_iff, !Nat.ltb_lt. Qed.

Lemma d_el d r c : dict_wf d -> el d r c = default s0 (d_data d !! (r, c)).
Proof.
  intros W. unfold el; cbn. unfold d_get. destruct (d_in d (r, c)) eqn:E; [reflexivity|].
  destruct (d_data d !! (r, c)) eqn:E2; [|reflexivity].
  apply W in E2. apply d_in_true in E2. congruence.
Qed.

Lemma d_laws : ml_laws (M := dict A) dict_wf full_dom.
Proof.
  constructor; cbn.
  - intros d r c W Hr Hc. rewrite d_el by assumption. unfold d_get.
    now rewrite (proj2 (d_in_true d r c)).
  - intros d r c W H. unfold d_get. destruct (d_in d (r, c)) eqn:E; [|reflexivity].
    apply d_in_true in E. lia.
  - intros d r c f W H. unfold d_mut.
    change (full_dom d r c) with (d_in d (r, c)) in H. rewrite H. apply d_in_true in H.
    eexists; split; [reflexivity|]. set (d' := Dict _ _).
    assert (W' : dict_wf d').
    { intros r' c' v. cbn. rewrite lookup_insert_Some. intros [[E _]|[_ E]]; [|now apply W in E].
      injection E as -> ->. exact H. }
    split; [exact W'|]. split; [reflexivity|]. split; [reflexivity|].
    intros r' c'. rewrite !d_el by assumption. cbn.
    destruct (Nat.eqb_spec r' r) as [->|], (Nat.eqb_spec c' c) as [->|]; cbn [andb];
      rewrite ?lookup_insert, ?lookup_insert_ne by congruence; reflexivity.
  - intros d r c f W H. unfold d_mut. change (full_dom d r c) with (d_in d (r, c)) in H. now rewrite H.
  - intros d r c W H. apply in_shape_true in H. exact H.
  - intros d r c W H. rewrite d_el by assumption. destruct (d_data d !! (r, c)) eqn:E; [|reflexivity].
    apply W in E. apply d_in_true in E. change (full_dom d r c) with (d_in d (r, c)) in H. congruence.
Qed.

Lemma d_zeros_wf s : dict_wf (d_zeros s).
Proof. intros r c v. cbn. now rewrite lookup_empty. Qed.
Lemma d_zeros_el s r c : el (d_zeros (A := A) s) r c = s0.
Proof. rewrite d_el by apply d_zeros_wf. reflexivity. Qed.

(** ** traversals *)

Lemma order_lookup ord d k v : hash_order ord d -> (k, v) ∈ ord <-> d_data d !! k = Some v.
Proof. intros H. rewrite H. apply elem_of_map_to_list. Qed.

Lemma order_nodup ord d : hash_order ord d -> NoDup (ord.*1).
Proof. intros H. rewrite H. apply NoDup_fst_map_to_list. Qed.

Lemma order_map ord d : hash_order ord d -> list_to_map ord = d_data d.
Proof.
  intros H. rewrite <- (list_to_map_to_list (d_data d)). apply list_to_map_proper; [|exact H].
  now apply (order_nodup ord d).
Qed.

(** writing a list of labelled values through IndexMut *)
Lemma write_entries {M} `{ML : MatrixLike A M} (wf : M -> Prop) dom (L : ml_laws wf dom)
    (skip : nat * nat -> bool) (l : entries) (m : M) :
  wf m -> NoDup (l.*1) ->
  (forall r c v, ((r, c), v) ∈ l -> skip (r, c) = false -> dom m r c = true) ->
  exists m', foldM (fun (kv : (nat * nat) * A) m =>
               if skip kv.1 then Ret m else index_set m kv.1 kv.2) l m = Ret m' /\
    wf m' /\ mshape m' = mshape m /\ (forall r c, dom m' r c = dom m r c) /\
    forall r c, el m' r c =
      if skip (r, c) then el m r c else default (el m r c) ((list_to_map l : gmap (nat * nat) A) !! (r, c)).
Proof.
  revert m; induction l as [|[[r0 c0] v0] l IH]; intros m W Hnd Hd; cbn [foldM fst snd].
  - exists m. repeat split; auto. intros r c. cbn. rewrite lookup_empty. cbn. now destruct (skip (r, c)).
  - cbn in Hnd. apply NoDup_cons in Hnd as [Hni Hnd].
    assert (Hnone : (list_to_map l : gmap (nat * nat) A) !! (r0, c0) = None)
      by now apply not_elem_of_list_to_map_1.
    destruct (skip (r0, c0)) eqn:Hs.
    + cbn [mbind out_bind]. destruct (IH m W Hnd) as (m' & E & W' & Hsh & Hdm & Hel).
      { intros r c v Hin. apply (Hd r c v). now right. }
      exists m'. split; [exact E|]. split; [exact W'|]. split; [exact Hsh|]. split; [exact Hdm|].
      intros r c. rewrite Hel. destruct (skip (r, c)) eqn:Hs2; [reflexivity|].
      cbn. rewrite lookup_insert_ne; [reflexivity|]. congruence.
    + assert (Hdm0 : dom m r0 c0 = true) by (apply (Hd r0 c0 v0); [left|exact Hs]).
      destruct (index_set_ret wf dom L m r0 c0 v0 W Hdm0) as (m1 & E1 & W1 & Hsh1 & Hd1 & Hel1).
      rewrite E1. cbn [mbind out_bind].
      destruct (IH m1 W1 Hnd) as (m' & E & W' & Hsh & Hdm & Hel).
      { intros r c v Hin Hsk. rewrite Hd1. apply (Hd r c v); [now right|exact Hsk]. }
      exists m'. split; [exact E|]. split; [exact W'|]. split; [congruence|].
      split; [intros; now rewrite Hdm, Hd1|].
      intros r c. rewrite Hel, Hel1. cbn.
      destruct (decide ((r, c) = (r0, c0))) as [Eq|Ne].
      * injection Eq as -> ->. rewrite lookup_insert, Hnone, !Nat.eqb_refl, Hs. reflexivity.
      * rewrite lookup_insert_ne by congruence.
        destruct (Nat.eqb_spec r r0) as [->|], (Nat.eqb_spec c c0) as [->|]; cbn [andb]; try reflexivity.
        congruence.
Qed.

(** ** permute *)
Lemma d_permute_spec ord d p n : dict_wf d -> hash_order ord d -> d_shape d = (n, n) -> perm_wf n p ->
  exists d', d_permute ord d p = Ret d' /\ dict_wf d' /\ d_shape d' = d_shape d /\
    forall r c, r < n -> c < n ->
      d_data d' !! (pf p r, pf p c) = d_data d !! (r, c) /\ el d' (pf p r) (pf p c) = el d r c.
Proof.
  intros W Ho Hsh Wp. unfold d_permute.
  set (body := fun (kv : (nat * nat) * A) acc =>
                  r ← permute p kv.1.1; c ← permute p kv.1.2;
                  Ret (<[(r, c) := kv.2]> acc) : out (gmap (nat * nat) A)).
  assert (Hb : forall r c v, ((r, c), v) ∈ ord -> r < n /\ c < n).
  { intros r c v Hin. apply (order_lookup ord d _ _ Ho) in Hin. apply W in Hin. rewrite Hsh in Hin. exact Hin. }
  pose proof (order_nodup ord d Ho) as Hnd.
  assert (G : forall (l : entries) acc, (forall x, x ∈ l -> x ∈ ord) -> NoDup (l.*1) ->
    (forall r c v, ((r, c), v) ∈ l -> acc !! (pf p r, pf p c) = None) ->
    exists acc', foldM body l acc = Ret acc' /\
      (forall r c, r < n -> c < n -> acc' !! (pf p r, pf p c) =
         match (list_to_map l : gmap (nat * nat) A) !! (r, c) with Some v => Some v | None => acc !! (pf p r, pf p c) end) /\
      (forall r' c' v, acc' !! (r', c') = Some v -> acc !! (r', c') = Some v \/ (r' < n /\ c' < n))).
  { induction l as [|[[r0 c0] v0] l IH]; intros acc Hsub Hn Hf; cbn [foldM].
    - exists acc. split; [reflexivity|]. split; [intros; cbn; now rewrite lookup_empty|]. auto.
    - destruct (Hb r0 c0 v0) as [Hr0 Hc0]; [apply Hsub; left|].
      assert (Hb0 : body ((r0, c0), v0) acc = Ret (<[(pf p r0, pf p c0) := v0]> acc)).
      { unfold body; cbn [fst snd]. rewrite (permute_ret n p r0) by assumption. cbn [mbind out_bind].
        rewrite (permute_ret n p c0) by assumption. reflexivity. }
      rewrite Hb0. cbn [mbind out_bind].
      cbn in Hn. apply NoDup_cons in Hn as [Hni Hn].
      destruct (IH (<[(pf p r0, pf p c0) := v0]> acc)) as (acc' & E & H1 & H2).
      + intros x Hx. apply Hsub. now right.
      + exact Hn.
      + intros r c v Hin. destruct (Hb r c v) as [Hr Hc]; [apply Hsub; now right|].
        rewrite lookup_insert_ne; [apply (Hf r c v); now right|].
        intros E. injection E as E1 E2. apply (pf_inj n) in E1, E2; auto. subst.
        apply Hni. apply elem_of_list_fmap. exists ((r, c), v). auto.
      + exists acc'. split; [exact E|]. split.
        * intros r c Hr Hc. rewrite H1 by assumption. cbn.
          destruct (decide ((r, c) = (r0, c0))) as [Eq|Ne].
          -- injection Eq as -> ->. rewrite !lookup_insert.
             rewrite (not_elem_of_list_to_map_1 (M := gmap (nat * nat))) by exact Hni. reflexivity.
          -- rewrite (lookup_insert_ne _ (r0, c0)) by congruence.
             destruct (list_to_map l !! (r, c)); [reflexivity|].
             apply lookup_insert_ne. intros E1. injection E1 as E1 E2.
             apply (pf_inj n) in E1, E2; auto; congruence.
        * intros r' c' v Hv. apply H2 in Hv as [Hv|Hv]; [|auto].
          apply lookup_insert_Some in Hv as [[E1 _]|[_ Hv]]; [|auto].
          injection E1 as <- <-. right. split; now apply (pf_lookup n). }
  destruct (G ord ∅) as (acc' & E & H1 & H2); [auto|exact Hnd|intros; apply lookup_empty|].
  rewrite E. cbn [mbind out_bind]. eexists; split; [reflexivity|].
  assert (W' : dict_wf (Dict (d_shape d) acc')).
  { intros r c v Hv. cbn in *. apply H2 in Hv as [Hv|Hv]; [now rewrite lookup_empty in Hv|].
    now rewrite Hsh. }
  split; [exact W'|]. split; [reflexivity|]. intros r c Hr Hc.
  assert (Hl : acc' !! (pf p r, pf p c) = d_data d !! (r, c)).
  { rewrite H1 by assumption. rewrite (order_map ord d Ho). rewrite lookup_empty.
    now destruct (d_data d !! (r, c)). }
  split; [exact Hl|]. rewrite !d_el by assumption. cbn. now rewrite Hl.
Qed.

(** ** transposed *)
Lemma d_transposed_data ord d r c : hash_order ord d ->
  d_data (d_transposed ord d) !! (r, c) = d_data d !! (c, r).
Proof.
  intros Ho. rewrite <- (order_map ord d Ho). unfold d_transposed; cbn.
  assert (G : forall (l : entries) (acc : gmap (nat * nat) A), NoDup (l.*1) ->
    fold_left (fun acc (kv : (nat * nat) * A) => <[(kv.1.2, kv.1.1) := kv.2]> acc) l acc !! (r, c)
    = match (list_to_map l : gmap (nat * nat) A) !! (c, r) with Some v => Some v | None => acc !! (r, c) end).
  { induction l as [|[[r0 c0] v0] l IH]; intros acc Hn; cbn [fold_left fst snd].
    - cbn. now rewrite lookup_empty.
    - cbn in Hn. apply NoDup_cons in Hn as [Hni Hn]. rewrite IH by exact Hn. cbn.
      destruct (decide ((c, r) = (r0, c0))) as [Eq|Ne].
      + injection Eq as -> ->. rewrite !lookup_insert.
        now rewrite (not_elem_of_list_to_map_1 (M := gmap (nat * nat))) by exact Hni.
      + rewrite (lookup_insert_ne _ (r0, c0)) by congruence. destruct (list_to_map l !! (c, r)); [reflexivity|].
        rewrite lookup_insert_ne; [reflexivity|congruence]. }
  rewrite G by now apply (order_nodup ord d). rewrite lookup_empty. now destruct (list_to_map ord !! (c, r)).
Qed.

Lemma d_transposed_spec ord d n : dict_wf d -> hash_order ord d -> d_shape d = (n, n) ->
  dict_wf (d_transposed ord d) /\ d_shape (d_transposed ord d) = (n, n) /\
  forall r c, el (d_transposed ord d) r c = el d c r.
Proof.
  intros W Ho Hs.
  assert (W' : dict_wf (d_transposed ord d)).
  { intros r c v Hv. rewrite d_transposed_data in Hv by exact Ho. apply W in Hv. cbn. rewrite Hs in *. cbn in *. lia. }
  split; [exact W'|]. split; [exact Hs|]. intros r c. rewrite !d_el by assumption.
  now rewrite d_transposed_data by exact Ho.
Qed.

(** ** mask: [kept mask] is the increasing list of selected positions *)
Definition kept (mask : list bool) : list nat :=
  List.filter (fun i => nth i mask false) (seq 0 (length mask)).

Lemma kept_snoc mask b : kept (mask ++ [b]) = kept mask ++ (if b then [length mask] else []).
Proof.
  unfold kept. rewrite app_length; cbn [length]. rewrite Nat.add_1_r, seq_S_app, List.filter_app. f_equal.
  - apply filter_ext_in. intros i Hi. apply in_seq in Hi. now rewrite app_nth1 by lia.
  - cbn [List.filter]. rewrite Nat.add_0_l, app_nth2, Nat.sub_diag by lia. cbn. now destruct b.
Qed.

Lemma mask_idxs_snoc mask b : mask_idxs (mask ++ [b]) =
  (fun st : list (option nat) * nat => if b then (st.1 ++ [Some st.2], st.2 + 1) else (st.1 ++ [None], st.2))
    (mask_idxs mask).
Proof. unfold mask_idxs. now rewrite fold_left_app. Qed.

Lemma mask_idxs_spec mask :
  length (mask_idxs mask).1 = length mask /\ (mask_idxs mask).2 = length (kept mask) /\
  (forall q i, kept mask !! q = Some i -> (mask_idxs mask).1 !! i = Some (Some q)) /\
  (forall i q, (mask_idxs mask).1 !! i = Some (Some q) -> kept mask !! q = Some i).
Proof.
  induction mask as [|b mask IH] using rev_ind.
  - cbn. repeat split; auto; intros ? ? H; now rewrite lookup_nil in H.
  - rewrite mask_idxs_snoc, kept_snoc. destruct (mask_idxs mask) as [idxs n]. cbn [fst snd] in *.
    destruct IH as (H1 & H2 & H3 & H4).
    assert (Hk : forall q i, kept mask !! q = Some i -> i < length mask).
    { intros q i Hq. apply elem_of_list_lookup_2 in Hq. unfold kept in Hq.
      apply elem_of_list_In, filter_In in Hq as [Hq _]. apply in_seq in Hq. lia. }
    destruct b; cbn [fst snd]; rewrite ?app_length, ?app_nil_r; cbn [length].
    + split; [lia|]. split; [lia|]. split.
      * intros q i Hq. apply lookup_app_Some in Hq as [Hq|[Hq1 Hq]].
        -- rewrite lookup_app_l; [now apply H3|]. apply Hk in Hq. lia.
        -- apply list_lookup_singleton_Some in Hq as [Hq <-].
           rewrite lookup_app_r, H1, Nat.sub_diag by lia. cbn. do 2 f_equal. lia.
      * intros i q Hi. apply lookup_app_Some in Hi as [Hi|[Hi1 Hi]].
        -- apply H4 in Hi. rewrite lookup_app_l; [exact Hi|]. now apply lookup_lt_Some in Hi.
        -- apply list_lookup_singleton_Some in Hi as [Hi Eq]. injection Eq as <-.
           rewrite lookup_app_r, H2, Nat.sub_diag by lia. cbn. f_equal. lia.
    + split; [lia|]. split; [lia|]. split.
      * intros q i Hq. rewrite lookup_app_l; [now apply H3|]. apply Hk in Hq. lia.
      * intros i q Hi. apply lookup_app_Some in Hi as [Hi|[Hi1 Hi]]; [now apply H4|].
        apply list_lookup_singleton_Some in Hi as [Hi Eq]. discriminate.
Qed.

Lemma d_mask_spec ord d mask n : dict_wf d -> hash_order ord d -> d_shape d = (n, n) -> length mask = n ->
  exists d', d_mask ord d mask = Ret d' /\ dict_wf d' /\
    d_shape d' = (length (kept mask), length (kept mask)) /\
    forall i j r c, kept mask !! i = Some r -> kept mask !! j = Some c -> el d' i j = el d r c.
Proof.
  intros W Ho Hs Hm. unfold d_mask. rewrite Hs; cbn [fst snd]. rewrite Nat.eqb_refl, Hm, Nat.eqb_refl.
  cbn [assert_ mbind out_bind]. pose proof (mask_idxs_spec mask) as (H1 & H2 & H3 & H4).
  destruct (mask_idxs mask) as [idxs k]. cbn [fst snd] in *. subst k.
  set (K := length (kept mask)).
  match goal with |- exists x, foldM ?F _ _ = _ /\ _ => set (body := F) end.
  assert (Hb : forall r c v, ((r, c), v) ∈ ord -> r < n /\ c < n).
  { intros r c v Hin. apply (order_lookup ord d _ _ Ho) in Hin. apply W in Hin. rewrite Hs in Hin. exact Hin. }
  pose proof (order_nodup ord d Ho) as Hnd.
  assert (G : forall (l : entries) (res : dict A), (forall x, x ∈ l -> x ∈ ord) -> NoDup (l.*1) ->
    dict_wf res -> d_shape res = (K, K) ->
    exists res', foldM body l res = Ret res' /\ dict_wf res' /\ d_shape res' = (K, K) /\
      forall i j r c, kept mask !! i = Some r -> kept mask !! j = Some c ->
        el res' i j = default (el res i j) ((list_to_map l : gmap (nat * nat) A) !! (r, c))).
  { induction l as [|[[r0 c0] v0] l IH]; intros res Hsub Hn Wr Hsr; cbn [foldM].
    - exists res. split; [reflexivity|]. split; [exact Wr|]. split; [exact Hsr|].
      intros. cbn. now rewrite lookup_empty.
    - destruct (Hb r0 c0 v0) as [Hr0 Hc0]; [apply Hsub; left|].
      cbn in Hn. apply NoDup_cons in Hn as [Hni Hn].
      assert (Hnone : (list_to_map l : gmap (nat * nat) A) !! (r0, c0) = None)
        by now apply not_elem_of_list_to_map_1.
      assert (Hb0 : body ((r0, c0), v0) res = i ← idx idxs r0; j ← idx idxs c0;
           match i, j with
           | Some i, Some j => index_set res (i, j) v0
           | _, _ => Ret res
           end) by reflexivity.
      rewrite Hb0.
      destruct (lookup_lt_is_Some_2 idxs r0 ltac:(lia)) as [oi Hoi].
      destruct (lookup_lt_is_Some_2 idxs c0 ltac:(lia)) as [oj Hoj].
      rewrite (idx_lookup _ _ _ Hoi). cbn [mbind out_bind]. rewrite (idx_lookup _ _ _ Hoj). cbn [mbind out_bind].
      assert (Hsub' : forall x, x ∈ l -> x ∈ ord) by (intros x Hx; apply Hsub; now right).
      assert (Hskip : oi = None \/ oj = None ->
        exists res', foldM body l res = Ret res' /\ dict_wf res' /\ d_shape res' = (K, K) /\
        forall i j r c, kept mask !! i = Some r -> kept mask !! j = Some c ->
        el res' i j = default (el res i j) ((list_to_map (((r0, c0), v0) :: l) : gmap (nat * nat) A) !! (r, c))).
      { intros Hno. destruct (IH res Hsub' Hn Wr Hsr) as (res' & E & Wr' & Hsr' & Hel).
        exists res'. split; [exact E|]. split; [exact Wr'|]. split; [exact Hsr'|].
        intros i j r c Hi Hj. rewrite (Hel i j r c Hi Hj). cbn.
        rewrite lookup_insert_ne; [reflexivity|]. intros Eq. injection Eq as -> ->.
        apply H3 in Hi, Hj. destruct Hno; congruence. }
      destruct oi as [i0|]; [destruct oj as [j0|]|]; cbn [mbind out_bind]; try (apply Hskip; now auto).
      apply H4 in Hoi, Hoj.
      pose proof (lookup_lt_Some _ _ _ Hoi) as Hi0. pose proof (lookup_lt_Some _ _ _ Hoj) as Hj0.
      destruct (index_set_ret _ _ d_laws res i0 j0 v0 Wr) as (m1 & E1 & W1 & Hsh1 & Hd1 & Hel1).
      { apply in_shape_true. cbn. rewrite Hsr. cbn. unfold K. lia. }
      rewrite E1. cbn [mbind out_bind].
      destruct (IH m1 Hsub' Hn W1) as (res' & E & Wr' & Hsr' & Hel).
      { change (mshape m1 = (K, K)). now rewrite Hsh1. }
      exists res'. split; [exact E|]. split; [exact Wr'|]. split; [exact Hsr'|].
      intros i j r c Hi Hj. rewrite (Hel i j r c Hi Hj), Hel1. cbn.
      destruct (decide ((r, c) = (r0, c0))) as [Eq|Ne].
      + injection Eq as -> ->. rewrite lookup_insert, Hnone. cbn.
        apply H3 in Hi, Hj, Hoi, Hoj. replace i with i0 by congruence. replace j with j0 by congruence.
        now rewrite !Nat.eqb_refl.
      + rewrite lookup_insert_ne by congruence.
        destruct (Nat.eqb_spec i i0) as [->|], (Nat.eqb_spec j j0) as [->|]; cbn [andb]; try reflexivity.
        exfalso. apply Ne. congruence. }
  destruct (G ord (d_zeros (K, K))) as (d' & E & W' & Hs' & Hel); auto.
  { apply d_zeros_wf. }
  exists d'. split; [exact E|]. split; [exact W'|]. split; [exact Hs'|].
  intros i j r c Hi Hj. rewrite (Hel i j r c Hi Hj), d_zeros_el, (order_map ord d Ho), d_el by assumption.
  reflexivity.
Qed.

Lemma d_mask_refuses ord d mask : (d_shape d).1 <> (d_shape d).2 \/ (d_shape d).1 <> length mask ->
  d_mask ord d mask = Panic.
Proof.
  intros H. unfold d_mask. destruct (Nat.eqb_spec (d_shape d).1 (d_shape d).2); [|reflexivity].
  cbn [assert_ mbind out_bind]. rewrite (proj2 (Nat.eqb_neq _ _)) by lia. reflexivity.
Qed.

(** ** envelopes *)
Lemma d_envelope_spec ord d : dict_wf d -> hash_order ord d ->
  exists env, d_envelope ord d = Ret env /\ length env = (d_shape d).1 /\
    (forall r, nz env r <= r + 1) /\
    (forall r c v, d_data d !! (r, c) = Some v -> c <= r -> r + 1 - nz env r <= c /\ 1 <= nz env r) /\
    (forall r, r < (d_shape d).1 -> nz env r = 0 \/ exists v, d_data d !! (r, r + 1 - nz env r) = Some v).
Proof.
  intros W Ho. unfold d_envelope.
  match goal with |- exists x, foldM ?F _ _ = _ /\ _ => set (body := F) end.
  destruct (foldM_list_inv
    (fun (pre : entries) (env : list nat) => length env = (d_shape d).1 /\
       (forall r, nz env r <= r + 1) /\
       (forall r c v, ((r, c), v) ∈ pre -> c <= r -> r + 1 - nz env r <= c /\ 1 <= nz env r) /\
       (forall r, r < (d_shape d).1 -> nz env r = 0 \/ exists v, d_data d !! (r, r + 1 - nz env r) = Some v))
    body ord (replicate (d_shape d).1 0)) as (env & E & H1 & H2 & H3 & H4).
  - assert (Hz : forall r, nz (replicate (d_shape d).1 0) r = 0).
    { intros r. unfold nz. destruct (decide (r < (d_shape d).1)).
      - apply nth_lookup_Some. now apply lookup_replicate_2.
      - apply nth_overflow. rewrite replicate_length. lia. }
    split; [apply replicate_length|]. split; [intros r; rewrite Hz; lia|].
    split; [intros r c v H; now apply elem_of_nil in H|]. intros r _. left. apply Hz.
  - intros pre [[r0 c0] v0] post env Hsplit (H1 & H2 & H3 & H4). subst body. cbn beta. cbn [fst snd].
    assert (Hin : d_data d !! (r0, c0) = Some v0).
    { apply (order_lookup ord d _ _ Ho). rewrite Hsplit. apply elem_of_app. right. left. }
    destruct (W _ _ _ Hin) as [Hr Hc].
    destruct (Nat.ltb_spec r0 c0) as [Hlt|Hge].
    + exists env. split; [reflexivity|]. split; [exact H1|]. split; [exact H2|]. split; [|exact H4].
      intros r c v Hrc Hle. apply elem_of_app in Hrc as [Hrc|Hrc]; [now apply (H3 r c v)|].
      apply elem_of_list_singleton in Hrc. injection Hrc as -> -> ->. lia.
    + rewrite (idx_lookup _ _ _ (nz_lookup env r0 ltac:(lia))). cbn [mbind out_bind].
      rewrite set_lookup by lia. eexists; split; [reflexivity|].
      set (env' := <[r0 := _]> env).
      assert (Hn0 : nz env' r0 = nz env r0 `max` (r0 - c0 + 1)).
      { unfold nz at 1. apply nth_lookup_Some. apply list_lookup_insert. lia. }
      assert (Hn1 : forall r, r <> r0 -> nz env' r = nz env r).
      { intros r Hne. unfold nz, env'. rewrite !nth_lookup, list_lookup_insert_ne by auto. reflexivity. }
      split; [unfold env'; now rewrite insert_length|]. split; [|split].
      * intros r. destruct (decide (r = r0)) as [->|Hne]; [rewrite Hn0; pose proof (H2 r0); lia|rewrite Hn1; auto].
      * intros r c v Hrc Hle. apply elem_of_app in Hrc as [Hrc|Hrc].
        -- pose proof (H3 r c v Hrc Hle). destruct (decide (r = r0)) as [->|Hne]; [rewrite Hn0; lia|rewrite Hn1; auto].
        -- apply elem_of_list_singleton in Hrc. injection Hrc as -> -> ->. rewrite Hn0. lia.
      * intros r Hr'. destruct (decide (r = r0)) as [->|Hne]; [|rewrite Hn1; auto].
        rewrite Hn0. destruct (Nat.max_spec (nz env r0) (r0 - c0 + 1)) as [[Hm ->]|[Hm ->]].
        -- right. exists v0. replace (r0 + 1 - (r0 - c0 + 1)) with c0 by lia. exact Hin.
        -- now apply H4.
  - exists env. split; [exact E|]. split; [exact H1|]. split; [exact H2|]. split; [|exact H4].
    intros r c v Hin. apply (H3 r c v). now apply (order_lookup ord d _ _ Ho).
Qed.

Lemma le_of_dict_spec ord1 ord2 d n : dict_wf d -> d_shape d = (n, n) ->
  hash_order ord1 d -> hash_order ord2 d ->
  (forall r, r < n -> exists c v, c <= r /\ d_data d !! (r, c) = Some v) ->
  exists m, le_of_dict ord1 ord2 d = Ret m /\ le_wf m /\ lev_n m = n /\
    d_envelope ord1 d = Ret (le_nnz m) /\
    (forall r c, c <= r -> el m r c = el d r c) /\
    (forall r c, r < c -> el m r c = s0) /\
    (forall r, r < n -> exists v, d_data d !! (r, lsc m r) = Some v).
Proof.
  intros W Hs Ho1 Ho2 Hrow. unfold le_of_dict.
  destruct (d_envelope_spec ord1 d W Ho1) as (env & E & H1 & H2 & H3 & H4). rewrite E. cbn [mbind out_bind].
  rewrite Hs in *. cbn [fst snd] in *.
  destruct (from_envelope_ret (A := A) env) as (m0 & E0 & W0 & Hnz & Hz0).
  { intros i Hi. destruct (Hrow i ltac:(lia)) as (c & v & Hc & Hv). pose proof (H3 i c v Hv Hc). pose proof (H2 i). lia. }
  rewrite E0. cbn [mbind out_bind].
  assert (Hn0 : lev_n m0 = n) by (rewrite (lw_n m0 W0), Hnz; exact H1).
  destruct (write_entries le_wf le_dom le_laws (fun k => k.1 <? k.2) ord2 m0 W0) as (m & Em & Wm & Hsh & Hd & Hel).
  { now apply (order_nodup ord2 d). }
  { intros r c v Hin Hsk. cbn in Hsk. apply Nat.ltb_ge in Hsk.
    apply (order_lookup ord2 d _ _ Ho2) in Hin. destruct (W _ _ _ Hin) as [Hr Hc]. rewrite Hs in *. cbn in Hr, Hc.
    pose proof (H3 r c v Hin Hsk). apply le_dom_true. unfold lsc. rewrite Hnz, Hn0. lia. }
  exists m. split; [exact Em|]. split; [exact Wm|].
  assert (Hn : lev_n m = n). { cbn in Hsh. congruence. }
  split; [exact Hn|].
  assert (Helm : forall r c, c <= r -> el m r c = el d r c).
  { intros r c Hle. rewrite Hel. cbn [fst snd]. rewrite (proj2 (Nat.ltb_ge r c)) by exact Hle.
    rewrite Hz0, (order_map ord2 d Ho2), d_el by exact W. reflexivity. }
  (* the profile is untouched by the writes *)
  assert (Hprof : le_nnz m = le_nnz m0).
  { assert (G : forall (l : entries) m1 m2, foldM (fun (kv : (nat * nat) * A) m =>
               if kv.1.1 <? kv.1.2 then Ret m else index_set m kv.1 kv.2) l m1 = Ret m2 -> le_nnz m2 = le_nnz m1).
    { induction l as [|kv l IH]; intros m1 m2 Hf; cbn [foldM] in Hf; [injection Hf as <-; reflexivity|].
      apply bind_ret_inv in Hf as (m3 & Ha & Hb). apply IH in Hb. rewrite Hb.
      destruct (kv.1.1 <? kv.1.2); [injection Ha as <-; reflexivity|].
      unfold index_set, index_upd in Ha. apply bind_ret_inv in Ha as (o & Ha & Hc). cbn in Ha.
      unfold le_mut in Ha. apply bind_ret_inv in Ha as (e & _ & Ha).
      destruct e; [injection Ha as <-; discriminate Hc..|].
      apply bind_ret_inv in Ha as (dd & _ & Ha). injection Ha as <-. injection Hc as <-. reflexivity. }
    exact (G _ _ _ Em). }
  split; [rewrite Hprof, Hnz; reflexivity|]. split; [exact Helm|]. split.
  { intros r c Hlt. apply el_right; assumption. }
  intros r Hr. destruct (H4 r ltac:(lia)) as [Hz|Hv].
  - destruct (Hrow r Hr) as (c & v & Hc & Hv). pose proof (H3 r c v Hv Hc). lia.
  - unfold lsc. rewrite Hprof, Hnz. exact Hv.
Qed.

(** without an entry on or left of the diagonal of some row the conversion is refused *)
Lemma le_of_dict_refuses ord1 ord2 d r : dict_wf d -> hash_order ord1 d -> r < (d_shape d).1 ->
  (forall c v, c <= r -> d_data d !! (r, c) <> Some v) -> le_of_dict ord1 ord2 d = Panic.
Proof.
  intros W Ho Hr Hno. unfold le_of_dict.
  destruct (d_envelope_spec ord1 d W Ho) as (env & E & H1 & H2 & H3 & H4). rewrite E. cbn [mbind out_bind].
  rewrite (from_envelope_panic env r); [reflexivity|lia|].
  destruct (H4 r Hr) as [Hz|(v & Hv)]; [auto|]. destruct (decide (nz env r = 0)); [auto|].
  exfalso. apply (Hno (r + 1 - nz env r) v); [lia|exact Hv].
Qed.

Definition bd (b : list (nat * nat)) (r : nat) : nat * nat := nth r b (0, 0).

Lemma d_row_bounds_spec ord d : dict_wf d -> hash_order ord d ->
  exists b, d_row_bounds ord d = Ret b /\ length b = (d_shape d).1 /\
    (forall r, r < (d_shape d).1 -> (bd b r).1 <= (d_shape d).2 /\ (bd b r).2 <= (d_shape d).2) /\
    (forall r c v, d_data d !! (r, c) = Some v -> (bd b r).1 <= c < (bd b r).2) /\
    (forall r, r < (d_shape d).1 -> bd b r = ((d_shape d).2, 0) \/
        ((bd b r).1 < (bd b r).2 /\ is_Some (d_data d !! (r, (bd b r).1)) /\ is_Some (d_data d !! (r, (bd b r).2 - 1)))).
Proof.
  intros W Ho. unfold d_row_bounds.
  match goal with |- exists x, foldM ?F _ _ = _ /\ _ => set (body := F) end.
  set (P := fun (pre : entries) (b : list (nat * nat)) => length b = (d_shape d).1 /\
    (forall r, r < (d_shape d).1 -> (bd b r).1 <= (d_shape d).2 /\ (bd b r).2 <= (d_shape d).2) /\
    (forall r c v, ((r, c), v) ∈ pre -> (bd b r).1 <= c < (bd b r).2) /\
    (forall r, r < (d_shape d).1 -> bd b r = ((d_shape d).2, 0) \/
        ((bd b r).1 < (bd b r).2 /\ is_Some (d_data d !! (r, (bd b r).1)) /\ is_Some (d_data d !! (r, (bd b r).2 - 1))))).
  destruct (foldM_list_inv P body ord (replicate (d_shape d).1 ((d_shape d).2, 0))) as (b & E & H1 & H2 & H3 & H4).
  - assert (Hz : forall r, r < (d_shape d).1 -> bd (replicate (d_shape d).1 ((d_shape d).2, 0)) r = ((d_shape d).2, 0)).
    { intros r Hr. unfold bd. apply nth_lookup_Some. now apply lookup_replicate_2. }
    split; [apply replicate_length|]. split; [intros r Hr; rewrite Hz by exact Hr; cbn; lia|].
    split; [intros r c v H; now apply elem_of_nil in H|]. intros r Hr. left. now apply Hz.
  - intros pre [[r0 c0] v0] post b Hsplit (H1 & H2 & H3 & H4). subst body. cbn beta. cbn [fst snd].
    assert (Hin : d_data d !! (r0, c0) = Some v0).
    { apply (order_lookup ord d _ _ Ho). rewrite Hsplit. apply elem_of_app. right. left. }
    destruct (W _ _ _ Hin) as [Hr Hc].
    assert (Hl : b !! r0 = Some (bd b r0)).
    { destruct (lookup_lt_is_Some_2 b r0 ltac:(lia)) as [x Hx]. rewrite Hx. f_equal. symmetry. now apply nth_lookup_Some. }
    rewrite (idx_lookup _ _ _ Hl). cbn [mbind out_bind]. rewrite set_lookup by lia. eexists; split; [reflexivity|].
    set (b' := <[r0 := _]> b).
    assert (Hn0 : bd b' r0 = ((bd b r0).1 `min` c0, (bd b r0).2 `max` (c0 + 1))).
    { unfold bd at 1. apply nth_lookup_Some. apply list_lookup_insert. lia. }
    assert (Hn1 : forall r, r <> r0 -> bd b' r = bd b r).
    { intros r Hne. unfold bd, b'. rewrite !nth_lookup, list_lookup_insert_ne by auto. reflexivity. }
    split; [unfold b'; now rewrite insert_length|]. split; [|split].
    + intros r Hr'. destruct (decide (r = r0)) as [->|Hne]; [rewrite Hn0; pose proof (H2 r0 Hr); cbn; lia|rewrite Hn1; auto].
    + intros r c v Hrc. apply elem_of_app in Hrc as [Hrc|Hrc].
      * pose proof (H3 r c v Hrc). destruct (decide (r = r0)) as [->|Hne]; [rewrite Hn0; cbn; lia|rewrite Hn1; auto].
      * apply elem_of_list_singleton in Hrc. injection Hrc as -> -> ->. rewrite Hn0. cbn. lia.
    + intros r Hr'. destruct (decide (r = r0)) as [->|Hne]; [|rewrite Hn1; auto]. right.
      rewrite Hn0. cbn [fst snd]. destruct (H4 r0 Hr) as [Hz|(Hlt & Ha & Hb)].
      * rewrite Hz. cbn [fst snd]. replace ((d_shape d).2 `min` c0) with c0 by lia. replace (0 `max` (c0 + 1)) with (c0 + 1) by lia.
        replace (c0 + 1 - 1) with c0 by lia. split; [lia|]. eauto.
      * split; [lia|]. split.
        -- destruct (Nat.min_spec (bd b r0).1 c0) as [[_ ->]|[_ ->]]; eauto.
        -- destruct (Nat.max_spec (bd b r0).2 (c0 + 1)) as [[_ ->]|[_ ->]]; eauto.
           replace (c0 + 1 - 1) with c0 by lia. eauto.
  - exists b. split; [exact E|]. split; [exact H1|]. split; [exact H2|]. split; [|exact H4].
    intros r c v Hin. apply (H3 r c v). now apply (order_lookup ord d _ _ Ho).
Qed.

Lemma be_of_dict_spec ord1 ord2 d n : dict_wf d -> d_shape d = (n, n) ->
  hash_order ord1 d -> hash_order ord2 d ->
  (forall r, r < n -> exists c v, d_data d !! (r, c) = Some v) ->
  exists m, be_of_dict ord1 ord2 d = Ret m /\ be_wf m /\ be_n m = n /\
    d_row_bounds ord1 d = Ret (be_bounds m) /\
    (forall r c, el m r c = el d r c) /\
    (forall r, r < n -> is_Some (d_data d !! (r, (bnd m r).1)) /\ (bnd m r).1 < (bnd m r).2).
Proof.
  intros W Hs Ho1 Ho2 Hrow. unfold be_of_dict.
  destruct (d_row_bounds_spec ord1 d W Ho1) as (b & E & H1 & H2 & H3 & H4). rewrite E. cbn [mbind out_bind].
  rewrite Hs in *. cbn [fst snd] in *.
  assert (H4' : forall r, r < n -> (bd b r).1 < (bd b r).2 /\ is_Some (d_data d !! (r, (bd b r).1))).
  { intros r Hr. destruct (Hrow r Hr) as (c & v & Hv). pose proof (H3 r c v Hv).
    destruct (H4 r Hr) as [Hz|(Ha & Hb & _)]; [rewrite Hz in *; cbn in *; lia|auto]. }
  destruct (from_row_bounds_ret (A := A) b) as (m0 & E0 & W0 & Hb0 & Hn0 & Hz0).
  { intros i Hi. change (nth i b (0, 0)) with (bd b i). destruct (H4' i ltac:(lia)). pose proof (H2 i ltac:(lia)). lia. }
  rewrite E0. cbn [mbind out_bind].
  assert (Hbd : forall i, bnd m0 i = bd b i) by (intros i; unfold bnd; now rewrite Hb0).
  destruct (write_entries be_wf be_dom be_laws (fun k => false) ord2 m0 W0) as (m & Em & Wm & Hsh & Hd & Hel).
  { now apply (order_nodup ord2 d). }
  { intros r c v Hin _. apply (order_lookup ord2 d _ _ Ho2) in Hin. destruct (W _ _ _ Hin) as [Hr Hc].
    rewrite Hs in *. cbn in Hr, Hc. pose proof (H3 r c v Hin). apply be_dom_true. rewrite Hbd. lia. }
  exists m. split; [exact Em|]. split; [exact Wm|].
  assert (Hn : be_n m = n). { cbn in Hsh. congruence. }
  split; [exact Hn|].
  assert (Hprof : be_bounds m = be_bounds m0).
  { assert (G : forall (l : entries) m1 m2, foldM (fun (kv : (nat * nat) * A) m =>
               if (fun _ : nat * nat => false) kv.1 then Ret m else index_set m kv.1 kv.2) l m1 = Ret m2 -> be_bounds m2 = be_bounds m1).
    { induction l as [|kv l IH]; intros m1 m2 Hf; cbn [foldM] in Hf; [injection Hf as <-; reflexivity|].
      apply bind_ret_inv in Hf as (m3 & Ha & Hb). apply IH in Hb. rewrite Hb. cbn beta iota in Ha.
      unfold index_set, index_upd in Ha. apply bind_ret_inv in Ha as (o & Ha & Hc). cbn in Ha.
      unfold be_mut in Ha. apply bind_ret_inv in Ha as (e & _ & Ha).
      destruct e; [injection Ha as <-; discriminate Hc..|].
      apply bind_ret_inv in Ha as (dd & _ & Ha). injection Ha as <-. injection Hc as <-. reflexivity. }
    exact (G _ _ _ Em). }
  split; [rewrite Hprof, Hb0; reflexivity|]. split.
  { intros r c. rewrite Hel. rewrite Hz0, (order_map ord2 d Ho2), d_el by exact W. reflexivity. }
  intros r Hr. unfold bnd. rewrite Hprof, Hb0. change (nth r b (0, 0)) with (bd b r). destruct (H4' r Hr); auto.
Qed.

(** an empty row makes the (overflow-checked) conversion panic *)
Lemma be_of_dict_refuses ord1 ord2 d r : dict_wf d -> hash_order ord1 d -> r < (d_shape d).1 -> 0 < (d_shape d).2 ->
  (forall c v, d_data d !! (r, c) <> Some v) -> be_of_dict ord1 ord2 d = Panic.
Proof.
  intros W Ho Hr Hc Hno. unfold be_of_dict.
  destruct (d_row_bounds_spec ord1 d W Ho) as (b & E & H1 & H2 & H3 & H4). rewrite E. cbn [mbind out_bind].
  destruct (H4 r Hr) as [Hz|(_ & (v & Hv) & _)]; [|exfalso; eapply Hno; exact Hv].
  rewrite (from_row_bounds_panic b (bd b r)); [reflexivity| |rewrite Hz; cbn; lia].
  unfold bd. apply elem_of_list_In, nth_In. lia.
Qed.

(** ** dense copy *)
Lemma lm_of_dict_spec d : dict_wf d ->
  exists m, lm_of_dict d = Ret m /\ lm_wf m /\ mshape m = d_shape d /\ forall r c, el m r c = el d r c.
Proof.
  intros W. unfold lm_of_dict. destruct (d_shape d) as [R C] eqn:Hs. cbn [fst snd].
  match goal with |- exists x, foldM ?F _ _ = _ /\ _ => set (body := F) end.
  destruct (foldM_range_inv (fun k (m : lm A) => lm_wf m /\ mshape m = (R, C) /\
      forall r c, r < R -> c < C -> r < k -> el m r c = el d r c) body 0 R (lm_zeros (R, C))) as (m & E & Wm & Hsh & Hel).
  - lia.
  - split; [apply lm_zeros_wf|]. split; [reflexivity|]. lia.
  - intros r m Hr (Wm & Hsh & Hel). subst body. cbn beta.
    match goal with |- exists x, foldM ?F _ _ = _ /\ _ => set (body := F) end.
    destruct (foldM_range_inv (fun k (m : lm A) => lm_wf m /\ mshape m = (R, C) /\
      forall r' c, r' < R -> c < C -> r' < r \/ (r' = r /\ c < k) -> el m r' c = el d r' c) body 0 C m) as (m' & E' & Wm' & Hsh' & Hel').
    + lia.
    + split; [exact Wm|]. split; [exact Hsh|]. intros r' c Hr' Hc [Hlt|[]]; [auto|lia].
    + intros c m1 Hc (W1 & Hsh1 & Hel1). subst body. cbn beta.
      rewrite (index_ret _ _ d_laws) by (cbn; try rewrite Hs; cbn; (assumption || lia)). cbn [mbind out_bind].
      destruct (index_set_ret _ _ lm_laws m1 r c (el d r c) W1) as (m2 & E2 & W2 & Hsh2 & _ & Hel2).
      { apply in_shape_true. rewrite Hsh1. cbn. lia. }
      exists m2. split; [exact E2|]. split; [exact W2|]. split; [congruence|].
      intros r' c' Hr' Hc' Hcase. rewrite Hel2.
      destruct (Nat.eqb_spec r' r) as [->|], (Nat.eqb_spec c' c) as [->|]; cbn [andb]; try reflexivity; apply Hel1; lia.
    + exists m'. split; [exact E'|]. split; [exact Wm'|]. split; [exact Hsh'|].
      intros r' c Hr' Hc Hlt. apply Hel'; [assumption..|]. lia.
  - exists m. split; [exact E|]. split; [exact Wm|]. split; [exact Hsh|]. intros r c.
    destruct (decide (r < R)), (decide (c < C)); [apply Hel; auto|..].
    all: rewrite (el_out _ _ lm_laws m r c Wm), (el_out _ _ d_laws d r c W); auto.
    all: cbn in *; rewrite ?Hs; try (unfold mshape in Hsh; cbn in Hsh); cbn; try lia.
    all: injection Hsh as -> ->; cbn; lia.
Qed.
End dict.
