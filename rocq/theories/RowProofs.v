(** Stored rows of envelope matrices. *)
From Verif Require Export Safety.

Section rows.
Context {A : arith}.
Implicit Types m : lenv A.

Lemma le_get_el m r c : le_wf m -> r < lev_n m -> c < lev_n m -> mget m (r, c) = Ret (Some (el m r c)).
Proof.
  intros W Hr Hc. unfold el. cbn. unfold le_get. rewrite le_pos_dom by assumption. destruct (le_dom m r c) eqn:Hd; cbn; [|reflexivity].
  unfold get_unchecked. rewrite lookup_vel by now apply le_off_lt. reflexivity.
Qed.
Lemma row_of m i : le_wf m -> i < lev_n m -> exists s front d,
  le_row_stored m i = Ret (s, front ++ [d]) /\ le_row_stored_nodiag m i = Ret (s, front) /\ s + length front = i /\
  mget m (i, i) = Ret (Some d) /\ (forall k x, front !! k = Some x -> mget m (i, s + k) = Ret (Some x)) /\
  (forall c, c < lev_n m -> c < s \/ i < c -> mget m (i, c) = Ret (Some s0)).
Proof.
  intros W Hi. pose proof (lw_bound m W i Hi) as Hb. set (w := nz (le_nnz m) i) in *.
  assert (Hw : seq (lsc m i) w = seq (lsc m i) (w - 1) ++ [i]).
  { replace w with (S (w - 1)) at 1 by lia. rewrite seq_S. do 2 f_equal. unfold lsc. fold w. lia. }
  exists (lsc m i), (map (el m i) (seq (lsc m i) (w - 1))), (el m i i). split; [|split; [|split; [|split; [|split]]]].
  - rewrite le_row_stored_ret by assumption. fold w. rewrite Hw, map_app. reflexivity.
  - assert (E := le_row_stored_ret m i W Hi). unfold le_row_stored, le_row_stored_nodiag in *. rewrite le_row_pos_ret in * by assumption.
    cbn [mbind out_bind] in *. pose proof (le_stored_bound m i W Hi). fold w in E, H |- *. rewrite slice_ret in * by lia. cbn [mbind out_bind] in *.
    injection E as E. do 2 f_equal. rewrite Hw, map_app in E.
    replace (off (le_nnz m) i + w - 1 + 1 - off (le_nnz m) i) with w in E by lia.
    replace (off (le_nnz m) i + w - 1 - off (le_nnz m) i) with (w - 1) by lia.
    apply (f_equal (take (w - 1))) in E. rewrite take_take, Nat.min_l in E by lia. rewrite E.
    rewrite take_app_alt; [reflexivity|]. now rewrite map_length, seq_length.
  - rewrite map_length, seq_length. unfold lsc. fold w. lia.
  - now apply le_get_el.
  - intros k x Hk. apply list_lookup_fmap_inv in Hk as (c & -> & Hk). apply lookup_seq in Hk as [-> Hk].
    apply le_get_el; [assumption..|]. unfold lsc. fold w. lia.
  - intros c Hc Ho. rewrite le_get_el by assumption. do 2 f_equal. rewrite le_el by assumption. destruct (le_dom m i c) eqn:Hd; [|reflexivity].
    apply le_dom_true in Hd. lia.
Qed.
Lemma row_out m i : le_wf m -> lev_n m <= i -> le_row_stored m i = Panic /\ le_row_stored_nodiag m i = Panic.
Proof.
  intros W Hi. assert (E : le_row_pos m i = Panic); [|unfold le_row_stored, le_row_stored_nodiag; rewrite E; auto].
  unfold le_row_pos, idx. rewrite (lw_starts m W), (lookup_ge_None_2 (map _ _)); [reflexivity|]. rewrite map_length, seq_length. exact Hi.
Qed.
Lemma row_write m i s vals row : le_wf m -> i < lev_n m -> le_row_stored m i = Ret (s, vals) ->
  (length row = length vals -> exists m', le_row_write m i row = Ret m' /\ le_wf m' /\ lev_n m' = lev_n m /\ le_row_stored m' i = Ret (s, row) /\
    forall j, j <> i -> le_row_stored m' j = le_row_stored m j) /\
  (length row <> length vals -> le_row_write m i row = Panic).
Proof.
  intros W Hi E. pose proof (le_row_stored_ret m i W Hi) as Er. rewrite Er in E. injection E as <- <-. rewrite map_length, seq_length. pose proof (lw_bound m W i Hi) as Hb. split.
  - intros Hl. destruct (le_row_write_ret m i row W Hi Hl) as (m' & Ew & W' & Hz & Hn & He). exists m'. split; [exact Ew|]. split; [exact W'|]. split; [exact Hn|].
    assert (Hs : forall j, lsc m' j = lsc m j) by (intros j; unfold lsc; now rewrite Hz). split.
    + rewrite le_row_stored_ret by (assumption || lia). rewrite Hs, Hz. do 2 f_equal. rewrite map_seq_shift.
      rewrite (list_vel row), Hl. apply map_ext_in. intros k Hk. apply in_seq in Hk. rewrite He, Nat.eqb_refl.
      assert (le_dom m i (lsc m i + k) = true) as -> by (apply le_dom_true; unfold lsc; lia). cbn. f_equal. lia.
    + intros j Hj. destruct (decide (j < lev_n m)) as [Hjn|Hjn].
      * rewrite !le_row_stored_ret by (assumption || lia). rewrite Hs, Hz. do 2 f_equal. apply map_ext. intros c. rewrite He.
        rewrite (proj2 (Nat.eqb_neq j i)) by exact Hj. reflexivity.
      * rewrite (proj1 (row_out m j W ltac:(lia))), (proj1 (row_out m' j W' ltac:(lia))). reflexivity.
  - intros Hl. unfold le_row_write. rewrite le_row_pos_ret by assumption. cbn [mbind out_bind]. pose proof (le_stored_bound m i W Hi).
    rewrite slice_ret by lia. cbn [mbind out_bind]. rewrite take_length, drop_length.
    rewrite (proj2 (Nat.eqb_neq (length row) _)) by lia. reflexivity.
Qed.
End rows.
