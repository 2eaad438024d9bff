(** The lower half of a bi-envelope matrix as a lower envelope (from_bienv), and
    lower envelopes from dense value lists. *)
From Verif Require Export CrProofs.

Section s.
Context {A : arith}.
Implicit Types b : bienv A.

Definition lrow b (r : nat) : list A := map (el b r) (seq (bnd b r).1 (r + 1 - (bnd b r).1)).
Definition lnnz b (n : nat) : list nat := map (fun r => r + 1 - (bnd b r).1) (seq 0 n).

Lemma lrow_length b r : length (lrow b r) = r + 1 - (bnd b r).1.
Proof. unfold lrow. now rewrite map_length, seq_length. Qed.

Lemma lnnz_off b n i : i <= n -> off (lnnz b n) i = length (concat (map (lrow b) (seq 0 i))).
Proof.
  induction i as [|i IH]; intros H; [reflexivity|].
  rewrite off_S by (unfold lnnz; rewrite map_length, seq_length; lia). rewrite IH by lia.
  rewrite seq_S_app, map_app, concat_app, app_length. f_equal. cbn [map concat]. rewrite Nat.add_0_l, app_nil_r, lrow_length.
  unfold nz, lnnz. apply nth_lookup_Some. rewrite list_lookup_fmap, lookup_seq_lt by lia. reflexivity.
Qed.

Lemma lnnz_nz b n i : i < n -> nz (lnnz b n) i = i + 1 - (bnd b i).1.
Proof. intros H. unfold nz, lnnz. apply nth_lookup_Some. rewrite list_lookup_fmap, lookup_seq_lt by lia. reflexivity. Qed.

Lemma lnnz_sum b n : sum_list (lnnz b n) = length (concat (map (lrow b) (seq 0 n))).
Proof.
  rewrite <- off_all. unfold lnnz at 2. rewrite map_length, seq_length. now apply lnnz_off.
Qed.

Lemma concat_vel b n i k : i < n -> k < length (lrow b i) ->
  vel (concat (map (lrow b) (seq 0 n))) (length (concat (map (lrow b) (seq 0 i))) + k) = vel (lrow b i) k.
Proof.
  intros Hi Hk. replace n with (i + (1 + (n - i - 1))) by lia. rewrite !seq_app, !map_app, !concat_app. cbn [seq map concat].
  rewrite app_nil_r. unfold vel. rewrite app_nth2 by lia.
  replace (length (concat (map (lrow b) (seq 0 i))) + k - length (concat (map (lrow b) (seq 0 i)))) with k by lia.
  now rewrite app_nth1.
Qed.

Lemma le_from_bienv_spec b : be_wf b ->
  (forall r, r < be_n b -> (bnd b r).1 <= r < (bnd b r).2) ->
  exists m, le_from_bienv b = Ret m /\ le_wf m /\ lev_n m = be_n b /\
    (forall r, r < be_n b -> lsc m r = (bnd b r).1) /\
    (forall r c, c <= r -> el m r c = el b r c).
Proof.
  intros W Hd. unfold le_from_bienv.
  match goal with |- context [foldM ?F _ ?s] => set (body := F) end.
  destruct (foldM_range_inv (fun r (st : list A * list nat * list nat) =>
      st = (concat (map (lrow b) (seq 0 r)), map (off (lnnz b (be_n b))) (seq 0 r), lnnz b r))
      body 0 (be_n b) ([], [], [])) as (st & E & ->).
  - lia.
  - reflexivity.
  - intros r st Hr ->. unfold body; cbn beta iota.
    pose proof (bw_n b W) as Hn. pose proof (Hd r ltac:(lia)) as Hdr.
    rewrite (idx_lookup _ _ _ (bnd_lookup b r ltac:(lia))). cbn [mbind out_bind].
    rewrite (proj2 (Nat.ltb_ge r (bnd b r).1)), (proj2 (Nat.leb_gt (bnd b r).2 r)) by lia. cbn [orb].
    rewrite usub_ret by lia. cbn [mbind out_bind].
    rewrite (bw_starts b W), (idx_lookup _ _ (off (blens b) r)) by (apply map_off_lookup; lia). cbn [mbind out_bind].
    assert (Hseg : off (blens b) r + ((bnd b r).2 - (bnd b r).1) <= length (be_data b)).
    { rewrite (bw_data b W), <- nz_blens by lia. apply seg_le. rewrite blens_length; lia. }
    rewrite slice_vel by lia. cbn [mbind out_bind]. eexists; split; [reflexivity|].
    rewrite !seq_S_app, !map_app, concat_app, !Nat.add_0_l. cbn [map concat]. rewrite app_nil_r. f_equal; [f_equal|].
    + f_equal. unfold lrow. replace (off (blens b) r + (r + 1 - (bnd b r).1) - off (blens b) r) with (r + 1 - (bnd b r).1) by lia.
      rewrite map_seq_shift, (map_seq_shift _ (bnd b r).1). apply map_ext_in. intros k Hk. apply in_seq in Hk.
      rewrite be_el by exact W. rewrite (proj2 (be_dom_true b r ((bnd b r).1 + k))) by lia. f_equal. lia.
    + f_equal. f_equal. symmetry. apply lnnz_off. lia.
    + unfold lnnz. now rewrite seq_S_app, map_app.
  - rewrite E. cbn [mbind out_bind fst snd]. eexists; split; [reflexivity|]. set (m := LE _ _ _ _).
    assert (Hz : forall i, i < be_n b -> nz (le_nnz m) i = i + 1 - (bnd b i).1) by (intros i Hi; apply lnnz_nz; exact Hi).
    assert (Wm : le_wf m).
    { constructor; cbn [lev_n le_nnz le_starts le_data m].
      - unfold lnnz. now rewrite map_length, seq_length.
      - intros i Hi. rewrite lnnz_nz by exact Hi. pose proof (Hd i Hi). lia.
      - reflexivity.
      - symmetry. apply lnnz_sum. }
    split; [exact Wm|]. split; [reflexivity|].
    assert (Hsc : forall r, r < be_n b -> lsc m r = (bnd b r).1).
    { intros r Hr. unfold lsc. rewrite Hz by exact Hr. pose proof (Hd r Hr). lia. }
    split; [exact Hsc|]. intros r c Hc.
    destruct (decide (r < be_n b)) as [Hr|Hr].
    2:{ rewrite (el_out _ _ le_laws m r c Wm), (el_out _ _ be_laws b r c W); auto; left; cbn; lia. }
    rewrite le_el by exact Wm. destruct (le_dom m r c) eqn:Hdm.
    + apply le_dom_true in Hdm as (_ & _ & Hsr). rewrite Hsc in Hsr by exact Hr. rewrite Hsc by exact Hr.
      cbn [le_nnz le_data m]. rewrite lnnz_off by lia. rewrite concat_vel by (rewrite ?lrow_length; lia).
      unfold lrow. apply vel_lookup. rewrite list_lookup_fmap, lookup_seq_lt by lia. cbn. do 2 f_equal. lia.
    + symmetry. apply (law_nodom _ _ be_laws); [exact W|]. destruct (be_dom b r c) eqn:Hbd; [|reflexivity].
      apply be_dom_true in Hbd. exfalso. assert (le_dom m r c = true); [|congruence].
      apply le_dom_true. rewrite Hsc by exact Hr. cbn. lia.
Qed.

Lemma le_from_bienv_panic b r : be_wf b -> r < be_n b -> ~ ((bnd b r).1 <= r < (bnd b r).2) -> le_from_bienv b = Panic.
Proof.
  intros W Hr Hno. unfold le_from_bienv.
  match goal with |- context [foldM ?F _ ?s] => set (body := F) end.
  enough (G : foldM body (range 0 (be_n b)) ([], [], []) = Panic) by now rewrite G.
  apply foldM_panic with (x := r).
  - apply elem_of_seq. lia.
  - intros y [[d s] z] Hy. apply elem_of_seq in Hy. unfold body; cbn beta iota. pose proof (bw_n b W).
    rewrite (idx_lookup _ _ _ (bnd_lookup b y ltac:(lia))). cbn [mbind out_bind].
    destruct ((y <? (bnd b y).1) || ((bnd b y).2 <=? y)) eqn:E; [now left|]. apply orb_false_iff in E as [E1 E2].
    apply Nat.ltb_ge in E1. apply Nat.leb_gt in E2. right.
    rewrite usub_ret by lia. cbn [mbind out_bind].
    rewrite (bw_starts b W), (idx_lookup _ _ (off (blens b) y)) by (apply map_off_lookup; lia). cbn [mbind out_bind].
    assert (Hseg : off (blens b) y + ((bnd b y).2 - (bnd b y).1) <= length (be_data b)).
    { rewrite (bw_data b W), <- nz_blens by lia. apply seg_le. rewrite blens_length; lia. }
    rewrite slice_vel by lia. cbn [mbind out_bind]. eauto.
  - intros [[d s] z]. unfold body; cbn beta iota. pose proof (bw_n b W).
    rewrite (idx_lookup _ _ _ (bnd_lookup b r ltac:(lia))). cbn [mbind out_bind].
    destruct (Nat.ltb_spec r (bnd b r).1); [reflexivity|]. cbn [orb].
    rewrite (proj2 (Nat.leb_le (bnd b r).2 r)) by lia. reflexivity.
Qed.
End s.
