(** Sums over entry lists, dictionary products and compressed-row storage. *)
From Verif Require Export DictProofs.

(** ** sorting *)
Section sorting.
Context {B : Type} (le : B -> B -> bool).
Hypothesis le_total : forall x y, le x y = true \/ le y x = true.
Hypothesis le_trans : forall x y z, le x y = true -> le y z = true -> le x z = true.

Lemma insert_by_perm x l : insert_by le x l ≡ₚ x :: l.
Proof.
  induction l as [|y l IH]; [reflexivity|]. cbn. destruct (le x y); [reflexivity|].
  rewrite IH. apply Permutation_swap.
Qed.

Lemma sort_by_perm l : sort_by le l ≡ₚ l.
Proof.
  induction l as [|x l IH]; [reflexivity|]. cbn. rewrite insert_by_perm. now rewrite IH.
Qed.

Lemma insert_by_sorted x l : StronglySorted (fun a b => le a b = true) l ->
  StronglySorted (fun a b => le a b = true) (insert_by le x l).
Proof.
  induction 1 as [|y l Hs IH Hf]; cbn; [repeat constructor|].
  destruct (le x y) eqn:E.
  - constructor; [constructor; assumption|]. constructor; [exact E|].
    eapply Forall_impl; [exact Hf|]. intros z Hz. now apply le_trans with y.
  - constructor; [exact IH|]. rewrite insert_by_perm. constructor; [|exact Hf].
    destruct (le_total x y); congruence.
Qed.

Lemma sort_by_sorted l : StronglySorted (fun a b => le a b = true) (sort_by le l).
Proof. induction l as [|x l IH]; cbn; [constructor|now apply insert_by_sorted]. Qed.
End sorting.

Lemma lex_total x y : lex_le x y = true \/ lex_le y x = true.
Proof.
  unfold lex_le. rewrite !orb_true_iff, !andb_true_iff, !Nat.ltb_lt, !Nat.eqb_eq, !Nat.leb_le. lia.
Qed.
Lemma lex_trans x y z : lex_le x y = true -> lex_le y z = true -> lex_le x z = true.
Proof.
  unfold lex_le. rewrite !orb_true_iff, !andb_true_iff, !Nat.ltb_lt, !Nat.eqb_eq, !Nat.leb_le. lia.
Qed.
Lemma lex_row x y : lex_le x y = true -> x.1 <= y.1.
Proof.
  unfold lex_le. rewrite !orb_true_iff, !andb_true_iff, !Nat.ltb_lt, !Nat.eqb_eq, !Nat.leb_le. lia.
Qed.

Lemma ssorted_impl {B} (P Q : B -> B -> Prop) l : (forall a b, P a b -> Q a b) ->
  StronglySorted P l -> StronglySorted Q l.
Proof.
  intros H. induction 1 as [|x l _ IH Hf]; constructor; [exact IH|].
  eapply Forall_impl; [exact Hf|]. intros y. apply H.
Qed.

(** [cnt rows j]: how many entries lie in rows before j *)
Definition cnt (rows : list nat) (j : nat) : nat := length (List.filter (fun r => r <? j) rows).

Lemma cnt_cons x rows j : cnt (x :: rows) j = (if x <? j then 1 else 0) + cnt rows j.
Proof. unfold cnt; cbn. destruct (x <? j); reflexivity. Qed.

Lemma cnt_all rows j : (forall x, x ∈ rows -> x < j) -> cnt rows j = length rows.
Proof.
  induction rows as [|x rows IH]; intros H; [reflexivity|]. rewrite cnt_cons.
  rewrite (proj2 (Nat.ltb_lt x j)) by (apply H; left). rewrite IH; [reflexivity|].
  intros y Hy; apply H; now right.
Qed.

Lemma cnt_none rows j : (forall x, x ∈ rows -> j <= x) -> cnt rows j = 0.
Proof.
  induction rows as [|x rows IH]; intros H; [reflexivity|]. rewrite cnt_cons.
  rewrite (proj2 (Nat.ltb_ge x j)) by (apply H; left). rewrite IH; [reflexivity|].
  intros y Hy; apply H; now right.
Qed.

Lemma cnt_app a b j : cnt (a ++ b) j = cnt a j + cnt b j.
Proof. unfold cnt. now rewrite List.filter_app, app_length. Qed.

Lemma cnt_le rows j : cnt rows j <= length rows.
Proof. induction rows as [|x rows IH]; [reflexivity|]. rewrite cnt_cons. cbn. destruct (x <? j); lia. Qed.

Lemma cnt_mono rows j k : j <= k -> cnt rows j <= cnt rows k.
Proof.
  intros H. induction rows as [|x rows IH]; [reflexivity|]. rewrite !cnt_cons.
  destruct (Nat.ltb_spec x j), (Nat.ltb_spec x k); lia.
Qed.

Lemma cnt_lt rows i x j : StronglySorted le rows -> rows !! i = Some x -> i < cnt rows j <-> x < j.
Proof.
  intros Hs. revert i. induction Hs as [|y rows Hs IH Hf]; intros i Hi; [now rewrite lookup_nil in Hi|].
  rewrite cnt_cons. destruct (Nat.ltb_spec y j) as [Hlt|Hge].
  - destruct i as [|i]; cbn in Hi; [injection Hi as ->; lia|]. rewrite <- (IH i Hi). lia.
  - rewrite cnt_none.
    + destruct i as [|i]; cbn in Hi; [injection Hi as ->; lia|].
      rewrite Forall_forall in Hf. pose proof (Hf x (elem_of_list_lookup_2 _ _ _ Hi)). lia.
    + intros z Hz. rewrite Forall_forall in Hf. pose proof (Hf z Hz). lia.
Qed.

Lemma label_starts_spec rows : StronglySorted le rows ->
  exists mx, label_starts rows = (map (cnt rows) (seq 0 (S mx)), mx) /\
    (forall x, x ∈ rows -> x <= mx) /\ (rows = [] -> mx = 0) /\ (rows <> [] -> mx ∈ rows).
Proof.
  unfold label_starts. induction rows as [|r pre IH] using rev_ind; intros Hs.
  - exists 0. cbn. split; [reflexivity|]. repeat split; auto; [|intros []; reflexivity].
    intros x H; now apply elem_of_nil in H.
  - assert (Hs' : StronglySorted le pre /\ forall x, x ∈ pre -> x <= r).
    { clear IH. induction pre as [|y pre IHp]; [split; [constructor|]; intros x H; now apply elem_of_nil in H|].
      cbn in Hs. inversion Hs as [|? ? Hs1 Hf]; subst. destruct (IHp Hs1) as [Ha Hb].
      rewrite Forall_app in Hf. destruct Hf as [Hf1 Hf2]. split; [constructor; assumption|].
      intros x Hx. apply elem_of_cons in Hx as [->|Hx]; [|now apply Hb].
      now rewrite Forall_singleton in Hf2. }
    destruct Hs' as [Hs1 Hle]. destruct (IH Hs1) as (mx & E & Hmx & Hnil & Hin).
    rewrite app_length; cbn [length]. rewrite Nat.add_1_r, seq_S_app, Nat.add_0_l.
    rewrite zip_with_app by now rewrite seq_length. rewrite fold_left_app.
    change (zip_with pair (seq 0 (length pre)) pre) with (zip (seq 0 (length pre)) pre). rewrite E.
    cbn [fold_left zip_with fst snd].
    assert (Hmr : mx <= r).
    { destruct pre as [|y pre]; [rewrite Hnil by reflexivity; lia|]. apply Hle, Hin. discriminate. }
    exists r. replace (mx `max` r) with r by lia. split; [f_equal|].
    + replace (S r) with (S mx + (r - mx)) by lia. rewrite seq_app, map_app. f_equal.
      * apply map_ext_in. intros j Hj. apply in_seq in Hj. rewrite cnt_app, cnt_cons.
        rewrite (proj2 (Nat.ltb_ge r j)) by lia. cbn. lia.
      * apply list_eq. intros k. destruct (decide (k < r - mx)) as [Hk|Hk].
        -- rewrite lookup_replicate_2 by lia. rewrite list_lookup_fmap, lookup_seq_lt by lia. cbn [fmap option_fmap option_map].
           f_equal. rewrite cnt_app, cnt_cons. rewrite (proj2 (Nat.ltb_ge r _)) by lia.
           rewrite cnt_all; [cbn; lia|]. intros x Hx. apply Hmx in Hx. lia.
        -- rewrite !lookup_ge_None_2; [reflexivity|rewrite ?map_length, ?replicate_length, ?seq_length; lia..].
    + repeat split.
      * intros x Hx. apply elem_of_app in Hx as [Hx|Hx]; [now apply Hle|].
        apply elem_of_list_singleton in Hx. lia.
      * intros Hc. now destruct pre.
      * intros _. apply elem_of_app. right. left.
Qed.

Lemma resize_starts rows R : StronglySorted le rows -> (forall x, x ∈ rows -> x < R) ->
  Sparse.resize R (length rows) (label_starts rows).1 = map (cnt rows) (seq 0 R).
Proof.
  intros Hs Hb. destruct (label_starts_spec rows Hs) as (mx & E & Hmx & Hnil & Hin). rewrite E. cbn [fst].
  unfold Sparse.resize. rewrite map_length, seq_length.
  change (map (cnt rows) (seq 0 (S mx))) with (cnt rows <$> seq 0 (S mx)).
  rewrite <- fmap_take, take_seq. change (cnt rows <$> seq 0 (R `min` S mx)) with (map (cnt rows) (seq 0 (R `min` S mx))).
  destruct (decide (S mx <= R)) as [Hle|Hgt].
  - replace (R `min` S mx) with (S mx) by lia. replace R with (S mx + (R - S mx)) at 2 by lia.
    rewrite seq_app, map_app. f_equal. apply list_eq. intros k.
    destruct (decide (k < R - S mx)) as [Hk|Hk].
    + rewrite lookup_replicate_2 by lia. rewrite list_lookup_fmap, lookup_seq_lt by lia. cbn [fmap option_fmap option_map].
      f_equal. symmetry. apply cnt_all. intros x Hx. apply Hmx in Hx. lia.
    + rewrite !lookup_ge_None_2; [reflexivity|rewrite ?map_length, ?replicate_length, ?seq_length; lia..].
  - assert (R = 0).
    { destruct rows as [|x rows]; [rewrite Hnil in Hgt by reflexivity; lia|].
      specialize (Hin ltac:(discriminate)). apply Hb in Hin. lia. }
    subst R. cbn. reflexivity.
Qed.

(** ** compressed rows *)
Section crow.
Context {A : arith}.
Notation entries := (list ((nat * nat) * A)).
Implicit Types m : crow A.

Definition erows (S : entries) : list nat := map (fun v => v.1.1) S.
Definition ecols (S : entries) : list nat := map (fun v => v.1.2) S.

(** [S] is the list of stored entries, sorted by row, and the three arrays describe it *)
Record cr_repr m (S : entries) : Prop := CrRepr {
  crr_sorted : StronglySorted le (erows S);
  crr_nodup : NoDup (S.*1);
  crr_bound : forall r c v, ((r, c), v) ∈ S -> r < (cr_shape m).1 /\ c < (cr_shape m).2;
  crr_nz : cr_nz m = length S;
  crr_data : cr_data m = map snd S;
  crr_cols : cr_cols m = ecols S;
  crr_starts : cr_starts m = map (cnt (erows S)) (seq 0 (cr_shape m).1)
}.

Definition cr_wf m : Prop := exists S, cr_repr m S.

Lemma cr_row_range m S r : cr_repr m S -> r < (cr_shape m).1 ->
  idx (cr_starts m) r = Ret (cnt (erows S) r) /\
  row_end (cr_starts m) r (cr_nz m) = cnt (erows S) (r + 1) /\
  row_end (cr_starts m) r (length (cr_data m)) = cnt (erows S) (r + 1).
Proof.
  intros H Hr. pose proof (crr_starts _ _ H) as Hst. split.
  - rewrite Hst. apply idx_lookup. rewrite list_lookup_fmap, lookup_seq_lt by lia. reflexivity.
  - unfold row_end. rewrite (crr_nz _ _ H), (crr_data _ _ H), map_length, Hst.
    assert (G : default (length S) (map (cnt (erows S)) (seq 0 (cr_shape m).1) !! (r + 1)) = cnt (erows S) (r + 1)).
    { destruct (decide (r + 1 < (cr_shape m).1)) as [Hlt|Hge].
      - rewrite list_lookup_fmap, lookup_seq_lt by lia. reflexivity.
      - rewrite lookup_ge_None_2 by (rewrite map_length, seq_length; lia). cbn. symmetry.
        rewrite cnt_all; [apply map_length|]. intros x Hx. unfold erows in Hx.
        apply elem_of_list_fmap in Hx as ([[r' c'] v'] & -> & Hx). apply (crr_bound _ _ H) in Hx. cbn. lia. }
    auto.
Qed.

Lemma cr_find_spec cols c : forall k a, a + k <= length cols ->
  (exists i, a <= i < a + k /\ cols !! i = Some c /\ cr_find cols c (seq a k) = Ret (EData i) /\
     forall j, a <= j < i -> cols !! j <> Some c) \/
  ((forall i, a <= i < a + k -> cols !! i <> Some c) /\ cr_find cols c (seq a k) = Ret EZero).
Proof.
  induction k as [|k IH]; intros a H; cbn [seq cr_find].
  - right. split; [lia|reflexivity].
  - destruct (lookup_lt_is_Some_2 cols a ltac:(lia)) as [x Hx]. rewrite (idx_lookup _ _ _ Hx). cbn [mbind out_bind].
    destruct (Nat.eqb_spec x c) as [->|Hne].
    + left. exists a. repeat split; auto; lia.
    + destruct (IH (S a) ltac:(lia)) as [(i & Hi & Hc & E & Hf)|[Hno E]].
      * left. exists i. rewrite E. repeat split; auto; try lia. intros j Hj.
        destruct (decide (j = a)) as [->|]; [congruence|apply Hf; lia].
      * right. rewrite E. split; [|reflexivity]. intros i Hi.
        destruct (decide (i = a)) as [->|]; [congruence|apply Hno; lia].
Qed.

Lemma cr_entry_range (S : entries) i r' c v r : StronglySorted le (erows S) -> S !! i = Some ((r', c), v) ->
  cnt (erows S) r <= i < cnt (erows S) (r + 1) <-> r' = r.
Proof.
  intros Hs Hi. assert (He : erows S !! i = Some r') by (unfold erows; now rewrite list_lookup_fmap, Hi).
  pose proof (cnt_lt _ _ _ r Hs He). pose proof (cnt_lt _ _ _ (r + 1) Hs He). lia.
Qed.

Lemma cr_pos_spec m S r c : cr_repr m S -> r < (cr_shape m).1 -> c < (cr_shape m).2 ->
  (exists i v, S !! i = Some ((r, c), v) /\ cr_pos m (r, c) = Ret (EData i)) \/
  ((r, c) ∉ S.*1 /\ cr_pos m (r, c) = Ret EZero).
Proof.
  intros H Hr Hc. unfold cr_pos; cbn [fst snd].
  destruct (Nat.leb_spec (cr_shape m).2 c), (Nat.leb_spec (cr_shape m).1 r); try lia. cbn [orb].
  destruct (cr_row_range m S r H Hr) as (E1 & E2 & _). rewrite E1. cbn [mbind out_bind]. rewrite E2.
  rewrite (crr_cols _ _ H). unfold range.
  set (a := cnt (erows S) r). set (b := cnt (erows S) (r + 1)).
  assert (Hab : a <= b) by (apply cnt_mono; lia).
  assert (Hbl : b <= length S) by (unfold b; rewrite <- (map_length (fun v => v.1.1) S); apply cnt_le).
  assert (Hcl : length (ecols S) = length S) by apply map_length.
  assert (Hlk : forall i x, ecols S !! i = Some x -> exists r' v, S !! i = Some ((r', x), v)).
  { intros i x Hi. unfold ecols in Hi. rewrite list_lookup_fmap in Hi.
    destruct (S !! i) as [[[r' c'] v']|] eqn:E; [|discriminate]. injection Hi as ->. eauto. }
  destruct (cr_find_spec (ecols S) c (b - a) a ltac:(lia)) as [(i & Hi & Hci & E & _)|[Hno E]]; rewrite E.
  - left. destruct (Hlk i c Hci) as (r' & v & HS). exists i, v. split; [|reflexivity].
    assert (r' = r) as <-; [|exact HS].
    apply (cr_entry_range S i r' c v r (crr_sorted _ _ H) HS). fold a b. lia.
  - right. split; [|reflexivity]. intros Hin. apply elem_of_list_fmap in Hin as ([k v] & Hk & Hin). cbn in Hk. subst k.
    apply elem_of_list_lookup in Hin as [i HS].
    pose proof (proj2 (cr_entry_range S i r c v r (crr_sorted _ _ H) HS) eq_refl) as Hi. fold a b in Hi.
    apply (Hno i ltac:(lia)). unfold ecols. now rewrite list_lookup_fmap, HS.
Qed.

Lemma cr_lookup_map (S : entries) i k v : NoDup (S.*1) -> S !! i = Some (k, v) ->
  (list_to_map S : gmap (nat * nat) A) !! k = Some v.
Proof. intros Hn Hi. apply elem_of_list_to_map_1; [exact Hn|]. now apply elem_of_list_lookup_2 in Hi. Qed.

Lemma cr_el m S r c : cr_repr m S -> el m r c = default s0 ((list_to_map S : gmap (nat * nat) A) !! (r, c)).
Proof.
  intros H. unfold el; cbn. unfold cr_get.
  destruct (decide (r < (cr_shape m).1)) as [Hr|Hr], (decide (c < (cr_shape m).2)) as [Hc|Hc].
  1:{ destruct (cr_pos_spec m S r c H Hr Hc) as [(i & v & HS & E)|[Hno E]]; rewrite E; cbn [mbind out_bind].
      - unfold get_unchecked. rewrite (crr_data _ _ H). rewrite list_lookup_fmap, HS. cbn.
        rewrite (cr_lookup_map S i (r, c) v (crr_nodup _ _ H) HS). reflexivity.
      - rewrite not_elem_of_list_to_map_1 by exact Hno. reflexivity. }
  all: unfold cr_pos; cbn [fst snd].
  all: destruct (Nat.leb_spec (cr_shape m).2 c), (Nat.leb_spec (cr_shape m).1 r); try lia; cbn [orb mbind out_bind].
  all: rewrite not_elem_of_list_to_map_1; [reflexivity|].
  all: intros Hin; apply elem_of_list_fmap in Hin as ([k v] & Hk & Hin); cbn in Hk; subst k.
  all: apply (crr_bound _ _ H) in Hin; lia.
Qed.

Definition cr_dom m (r c : nat) : bool :=
  match cr_pos m (r, c) with Ret (EData _) => true | _ => false end.

Lemma cr_dom_spec m S r c : cr_repr m S -> cr_dom m r c = true <-> (r, c) ∈ S.*1.
Proof.
  intros H. unfold cr_dom.
  destruct (decide (r < (cr_shape m).1)) as [Hr|Hr], (decide (c < (cr_shape m).2)) as [Hc|Hc].
  1:{ destruct (cr_pos_spec m S r c H Hr Hc) as [(i & v & HS & E)|[Hno E]]; rewrite E.
      - split; [intros _|reflexivity]. apply elem_of_list_fmap. exists ((r, c), v).
        split; [reflexivity|]. now apply elem_of_list_lookup_2 in HS.
      - split; [discriminate|]. tauto. }
  all: unfold cr_pos; cbn [fst snd].
  all: destruct (Nat.leb_spec (cr_shape m).2 c), (Nat.leb_spec (cr_shape m).1 r); try lia; cbn [orb].
  all: split; [discriminate|].
  all: intros Hin; apply elem_of_list_fmap in Hin as ([k v] & Hk & Hin); cbn in Hk; subst k.
  all: apply (crr_bound _ _ H) in Hin; lia.
Qed.

Lemma cr_laws : ml_laws (M := crow A) cr_wf cr_dom.
Proof.
  constructor; cbn.
  - intros m r c [S H] Hr Hc. rewrite (cr_el m S) by exact H. unfold cr_get.
    destruct (cr_pos_spec m S r c H Hr Hc) as [(i & v & HS & E)|[Hno E]]; rewrite E; cbn [mbind out_bind].
    + unfold get_unchecked. rewrite (crr_data _ _ H), list_lookup_fmap, HS. cbn.
      rewrite (cr_lookup_map S i (r, c) v (crr_nodup _ _ H) HS). reflexivity.
    + rewrite not_elem_of_list_to_map_1 by exact Hno. reflexivity.
  - intros m r c _ H. unfold cr_get, cr_pos; cbn [fst snd].
    destruct (Nat.leb_spec (cr_shape m).2 c), (Nat.leb_spec (cr_shape m).1 r); try lia; reflexivity.
  - intros m r c f [S H] Hd. unfold cr_mut. unfold cr_dom in Hd.
    assert (Hr : r < (cr_shape m).1 /\ c < (cr_shape m).2).
    { unfold cr_pos in Hd; cbn [fst snd] in Hd.
      destruct (Nat.leb_spec (cr_shape m).2 c), (Nat.leb_spec (cr_shape m).1 r); cbn in Hd; try discriminate. lia. }
    destruct (cr_pos_spec m S r c H (proj1 Hr) (proj2 Hr)) as [(i & v & HS & E)|[Hno E]]; rewrite E in *; [|discriminate].
    cbn [mbind out_bind]. unfold upd_unchecked. rewrite (crr_data _ _ H), list_lookup_fmap, HS. cbn [fmap option_fmap option_map].
    cbn [mbind out_bind]. eexists; split; [reflexivity|].
    set (S' := <[i := ((r, c), f v)]> S). set (m' := CR _ _ _ _ _).
    assert (Hfst : S'.*1 = S.*1).
    { unfold S'. rewrite list_fmap_insert. cbn. apply list_insert_id. now rewrite list_lookup_fmap, HS. }
    assert (Her : erows S' = erows S).
    { unfold erows. rewrite <- !(map_map fst fst). f_equal. exact Hfst. }
    assert (Hec : ecols S' = ecols S).
    { unfold ecols. rewrite <- !(map_map fst snd). f_equal. exact Hfst. }
    assert (H' : cr_repr m' S').
    { destruct H as [a1 a2 a3 a4 a5 a6 a7]. constructor; cbn [cr_shape cr_nz cr_data cr_cols cr_starts m'].
      - now rewrite Her.
      - now rewrite Hfst.
      - intros r' c' v' Hin. assert (Hk : (r', c') ∈ S.*1).
        { rewrite <- Hfst. apply elem_of_list_fmap. exists ((r', c'), v'). auto. }
        apply elem_of_list_fmap in Hk as ([k v''] & Hk & Hin2). cbn in Hk. subst k. now apply (a3 _ _ v'').
      - rewrite a4. unfold S'. now rewrite insert_length.
      - change (map snd S') with (snd <$> S'). unfold S'. rewrite list_fmap_insert. reflexivity.
      - rewrite Hec. exact a6.
      - rewrite Her. exact a7. }
    split; [now exists S'|]. split; [reflexivity|]. split.
    + intros r' c'. apply eq_true_iff_eq. rewrite (cr_dom_spec m' S' r' c' H'), (cr_dom_spec m S r' c' H), Hfst. reflexivity.
    + intros r' c'. rewrite (cr_el m' S'), !(cr_el m S) by assumption.
      assert (Hmap : (list_to_map S' : gmap (nat * nat) A) = <[(r, c) := f v]> (list_to_map S)).
      { apply map_eq. intros k. destruct (decide (k = (r, c))) as [->|Hne].
        - rewrite lookup_insert. apply (cr_lookup_map S' i); [rewrite Hfst; apply (crr_nodup _ _ H)|].
          apply list_lookup_insert. now apply lookup_lt_Some in HS.
        - rewrite lookup_insert_ne by auto. apply option_eq. intros x.
          rewrite <- !elem_of_list_to_map by (rewrite ?Hfst; apply (crr_nodup _ _ H)).
          rewrite !elem_of_list_lookup. unfold S'. split; intros [j Hj]; exists j.
          + destruct (decide (j = i)) as [->|Hji].
            * rewrite list_lookup_insert in Hj by now apply lookup_lt_Some in HS. injection Hj as <- <-. congruence.
            * now rewrite list_lookup_insert_ne in Hj by auto.
          + destruct (decide (j = i)) as [->|Hji]; [congruence|]. now rewrite list_lookup_insert_ne by auto. }
      rewrite Hmap. rewrite (cr_lookup_map S i (r, c) v (crr_nodup _ _ H) HS).
      destruct (Nat.eqb_spec r' r) as [->|], (Nat.eqb_spec c' c) as [->|]; cbn [andb];
        rewrite ?lookup_insert, ?lookup_insert_ne by congruence; reflexivity.
  - intros m r c f [S H] Hd. unfold cr_mut, cr_dom in *.
    destruct (decide (r < (cr_shape m).1)) as [Hr|Hr], (decide (c < (cr_shape m).2)) as [Hc|Hc].
    1:{ destruct (cr_pos_spec m S r c H Hr Hc) as [(i & v & HS & E)|[Hno E]]; rewrite E in *; [discriminate|reflexivity]. }
    all: unfold cr_pos in *; cbn [fst snd] in *.
    all: destruct (Nat.leb_spec (cr_shape m).2 c), (Nat.leb_spec (cr_shape m).1 r); try lia; reflexivity.
  - intros m r c _ Hd. unfold cr_dom, cr_pos in Hd; cbn [fst snd] in Hd.
    destruct (Nat.leb_spec (cr_shape m).2 c), (Nat.leb_spec (cr_shape m).1 r); cbn in Hd; try discriminate. lia.
  - intros m r c [S H] Hd. rewrite (cr_el m S) by exact H. rewrite not_elem_of_list_to_map_1; [reflexivity|].
    intros Hin. apply (cr_dom_spec m S r c H) in Hin. congruence.
Qed.

(** ** construction from labelled values *)
Lemma from_labeled_vals_repr shape (vals : entries) : NoDup (vals.*1) ->
  (forall r c v, ((r, c), v) ∈ vals -> r < shape.1 /\ c < shape.2) ->
  exists S, cr_repr (from_labeled_vals shape vals) S /\ S ≡ₚ vals.
Proof.
  intros Hn Hb. unfold from_labeled_vals.
  set (S := sort_by _ vals). exists S.
  assert (Hp : S ≡ₚ vals) by apply sort_by_perm.
  assert (Hs : StronglySorted le (erows S)).
  { assert (G : StronglySorted (fun a b : (nat * nat) * A => lex_le a.1 b.1 = true) S).
    { apply sort_by_sorted.
      - intros x y. apply lex_total.
      - intros x y z. apply lex_trans. }
    clear -G. unfold erows. induction G as [|x S _ IH Hf]; cbn; constructor; [exact IH|].
    apply Forall_map. eapply Forall_impl; [exact Hf|]. intros y Hy. now apply lex_row. }
  split; [|exact Hp]. constructor; cbn [cr_shape cr_nz cr_data cr_cols cr_starts]; auto.
  - now rewrite Hp.
  - intros r c v Hin. rewrite Hp in Hin. now apply (Hb r c v).
  - rewrite <- (map_length (fun v => v.1.1) S). apply resize_starts; [exact Hs|].
    intros x Hx. apply elem_of_list_fmap in Hx as ([[r c] v] & -> & Hx). rewrite Hp in Hx. cbn. now apply (Hb r c v).
Qed.

Lemma from_labeled_vals_spec shape (vals : entries) : NoDup (vals.*1) ->
  (forall r c v, ((r, c), v) ∈ vals -> r < shape.1 /\ c < shape.2) ->
  let m := from_labeled_vals shape vals in
  cr_wf m /\ mshape m = shape /\
  (forall r c v, ((r, c), v) ∈ vals -> el m r c = v) /\
  (forall r c, (r, c) ∉ vals.*1 -> el m r c = s0).
Proof.
  intros Hn Hb m. destruct (from_labeled_vals_repr shape vals Hn Hb) as (S & H & Hp). fold m in H.
  split; [now exists S|]. split; [reflexivity|].
  assert (Hel : forall r c, el m r c = default s0 ((list_to_map vals : gmap (nat * nat) A) !! (r, c))).
  { intros r c. rewrite (cr_el m S) by exact H. f_equal. f_equal.
    apply list_to_map_proper; [apply (crr_nodup _ _ H)|exact Hp]. }
  split.
  - intros r c v Hin. rewrite Hel. now rewrite (elem_of_list_to_map_1 vals (r, c) v Hn Hin).
  - intros r c Hni. rewrite Hel. now rewrite not_elem_of_list_to_map_1.
Qed.

(** ** construction from a dense value list *)
Definition rowS (C : nat) (vals : list A) (q : nat) : entries :=
  List.filter (fun kv => negb (seqb kv.2 s0)) (map (fun c => ((q, c), vel vals (C * q + c))) (seq 0 C)).
Definition rowsS (C : nat) (vals : list A) (r : nat) : entries := concat (map (rowS C vals) (seq 0 r)).

Lemma rowsS_S C vals r : rowsS C vals (S r) = rowsS C vals r ++ rowS C vals r.
Proof. unfold rowsS. rewrite seq_S_app, map_app, concat_app. cbn. now rewrite app_nil_r. Qed.

Lemma rowS_in C vals q k v : (k, v) ∈ rowS C vals q <->
  exists c, c < C /\ k = (q, c) /\ v = vel vals (C * q + c) /\ seqb v s0 = false.
Proof.
  unfold rowS. rewrite elem_of_list_In, filter_In, in_map_iff. split.
  - intros [(c & E & Hc) Hz]. apply in_seq in Hc. injection E as <- <-. exists c.
    apply negb_true_iff in Hz. repeat split; auto. lia.
  - intros (c & Hc & -> & -> & Hz). split; [|cbn; now rewrite Hz]. exists c. split; [reflexivity|]. apply in_seq. lia.
Qed.

Lemma rowsS_in C vals n r c v : ((r, c), v) ∈ rowsS C vals n <->
  r < n /\ c < C /\ v = vel vals (C * r + c) /\ seqb v s0 = false.
Proof.
  induction n as [|n IH].
  - split; [intros H; now apply elem_of_nil in H|lia].
  - rewrite rowsS_S, elem_of_app, IH, rowS_in. split.
    + intros [(H1 & H2 & H3)|(c' & H1 & H2 & H3)].
      * repeat split; auto; try lia; tauto.
      * injection H2 as -> ->. repeat split; auto; try lia; tauto.
    + intros (H1 & H2 & H3). destruct (decide (r = n)) as [->|Hne]; [right; eauto|left].
      repeat split; try lia; tauto.
Qed.

Lemma rowS_nodup C vals q : NoDup ((rowS C vals q).*1).
Proof.
  unfold rowS. generalize (NoDup_seq 0 C). generalize (seq 0 C). intros l.
  induction 1 as [|c l Hc Hl IH]; cbn; [constructor|].
  destruct (negb _); [|exact IH]. cbn. constructor; [|exact IH].
  intros Hin. apply Hc. apply elem_of_list_fmap in Hin as ([k v] & Hk & Hin). cbn in Hk. subst k.
  apply elem_of_list_In, filter_In in Hin as [Hin _]. apply in_map_iff in Hin as (c' & E & Hin).
  injection E as -> _. now apply elem_of_list_In.
Qed.

Lemma rowsS_nodup C vals n : NoDup ((rowsS C vals n).*1).
Proof.
  induction n as [|n IH]; [constructor|]. rewrite rowsS_S, fmap_app. apply NoDup_app.
  split; [exact IH|]. split; [|apply rowS_nodup].
  intros [r c] Hin Hin2. apply elem_of_list_fmap in Hin as ([k v] & Hk & Hin). cbn in Hk. subst k.
  apply elem_of_list_fmap in Hin2 as ([k v'] & Hk & Hin2). cbn in Hk. subst k.
  apply rowsS_in in Hin. apply rowS_in in Hin2 as (c' & _ & E & _). injection E as -> ->. lia.
Qed.

Lemma rowsS_rows C vals n : StronglySorted le (erows (rowsS C vals n)) /\
  (forall x, x ∈ erows (rowsS C vals n) -> x < n) /\
  (forall j, j <= n -> cnt (erows (rowsS C vals n)) j = length (rowsS C vals j)).
Proof.
  induction n as [|n (IH1 & IH2 & IH3)].
  - split; [constructor|]. split; [intros x Hx; now apply elem_of_nil in Hx|]. intros j Hj. now replace j with 0 by lia.
  - assert (Hrow : forall x, x ∈ erows (rowS C vals n) -> x = n).
    { intros x Hx. apply elem_of_list_fmap in Hx as ([[r c] v] & -> & Hx).
      apply rowS_in in Hx as (c' & _ & E & _). now injection E as -> ->. }
    assert (Hb : forall x, x ∈ erows (rowsS C vals (S n)) -> x < S n).
    { intros x Hx. apply elem_of_list_fmap in Hx as ([[r c] v] & -> & Hx). apply rowsS_in in Hx. cbn. lia. }
    assert (Hap : erows (rowsS C vals (S n)) = erows (rowsS C vals n) ++ erows (rowS C vals n)).
    { rewrite rowsS_S. apply map_app. }
    split; [|split; [exact Hb|]].
    + rewrite Hap. clear Hap Hb IH3. revert IH1 IH2. generalize (erows (rowsS C vals n)). intros l Hl Hlt.
      induction Hl as [|x l Hs IH Hf]; cbn.
      * clear -Hrow. revert Hrow. generalize (erows (rowS C vals n)). intros l.
        induction l as [|x l IH]; intros Hx; constructor.
        -- apply IH. intros y Hy. apply Hx. now right.
        -- apply Forall_forall. intros y Hy. rewrite (Hx x ltac:(left)), (Hx y ltac:(now right)). lia.
      * constructor; [apply IH; intros y Hy; apply Hlt; now right|]. apply Forall_app. split; [exact Hf|].
        apply Forall_forall. intros y Hy. rewrite (Hrow y Hy). pose proof (Hlt x ltac:(left)). lia.
    + intros j Hj. destruct (decide (j = S n)) as [->|Hne].
      * rewrite cnt_all by exact Hb. apply map_length.
      * rewrite Hap, cnt_app, IH3 by lia. rewrite cnt_none; [lia|].
        intros x Hx. rewrite (Hrow x Hx). lia.
Qed.

Lemma cr_from_flat_ret (R C : nat) (vals : list A) : R * C <= length vals ->
  exists m, cr_from_flat (R, C) vals = Ret m /\ cr_repr m (rowsS C vals R) /\ cr_shape m = (R, C).
Proof.
  intros Hl. unfold cr_from_flat; cbn [fst snd].
  match goal with |- context [foldM ?F (range 0 R) ?s] => set (body := F); set (s0' := s) end.
  destruct (foldM_range_inv (fun r (st : list A * list A * list nat * list nat) =>
      st = (drop (C * r) vals, map snd (rowsS C vals r), ecols (rowsS C vals r),
            map (fun q => length (rowsS C vals q)) (seq 0 r))) body 0 R s0') as (st & E & HP).
  - lia.
  - unfold s0'. now rewrite Nat.mul_0_r.
  - intros r st Hr ->. unfold body; cbn beta iota.
    match goal with |- context [foldM ?F (range 0 C) ?s] => set (cell := F); set (s1' := s) end.
    set (part := fun k => List.filter (fun kv : (nat * nat) * A => negb (seqb kv.2 s0))
                   (map (fun c => ((r, c), vel vals (C * r + c))) (seq 0 k))).
    destruct (foldM_range_inv (fun k (st : list A * list A * list nat) =>
       st = (drop (C * r + k) vals, map snd (rowsS C vals r ++ part k), ecols (rowsS C vals r ++ part k)))
       cell 0 C s1') as (st' & E' & HP').
    + lia.
    + unfold s1', part; cbn. now rewrite Nat.add_0_r, app_nil_r.
    + intros k st Hk ->. unfold cell; cbn beta iota.
      assert (Hkl : C * r + k < length vals) by nia.
      rewrite (drop_S _ (vel vals (C * r + k)) (C * r + k)) by now apply lookup_vel.
      assert (Hpart : part (S k) = part k ++ (if seqb (vel vals (C * r + k)) s0 then [] else [((r, k), vel vals (C * r + k))])).
      { unfold part. rewrite seq_S_app, map_app, List.filter_app. f_equal. cbn.
        now destruct (seqb (vel vals (C * r + k)) s0). }
      eexists; split; [reflexivity|]. rewrite Hpart, Nat.add_succ_r.
      destruct (seqb (vel vals (C * r + k)) s0).
      * now rewrite app_nil_r.
      * unfold ecols. rewrite !map_app. cbn. now rewrite !app_assoc.
    + rewrite E'. cbn [mbind out_bind]. subst st'. cbn [fst snd]. eexists; split; [reflexivity|].
      change (part C) with (rowS C vals r). rewrite <- rowsS_S.
      replace (C * S r) with (C * r + C) by lia. f_equal.
      rewrite seq_S_app, map_app, map_length. reflexivity.
  - rewrite E. subst st. cbn [mbind out_bind]. eexists; split; [reflexivity|].
    destruct (rowsS_rows C vals R) as (H1 & H2 & H3).
    split; [|reflexivity]. constructor; cbn [cr_shape cr_nz cr_data cr_cols cr_starts fst snd]; auto.
    + apply rowsS_nodup.
    + intros r c v Hin. apply rowsS_in in Hin. lia.
    + apply map_length.
    + apply map_ext_in. intros j Hj. apply in_seq in Hj. symmetry. apply H3. lia.
Qed.

Lemma cr_from_flat_spec (R C : nat) (vals : list A) : R * C <= length vals ->
  exists m, cr_from_flat (R, C) vals = Ret m /\ cr_wf m /\ mshape m = (R, C) /\
    forall r c, r < R -> c < C ->
      el m r c = if seqb (vel vals (C * r + c)) s0 then s0 else vel vals (C * r + c).
Proof.
  intros Hl. destruct (cr_from_flat_ret R C vals Hl) as (m & E & H & Hs). exists m.
  split; [exact E|]. split; [now exists (rowsS C vals R)|]. split; [exact Hs|].
  intros r c Hr Hc. rewrite (cr_el m _ r c H).
  destruct (seqb (vel vals (C * r + c)) s0) eqn:Hz.
  - rewrite not_elem_of_list_to_map_1; [reflexivity|]. intros Hin.
    apply elem_of_list_fmap in Hin as ([k v] & Hk & Hin). cbn in Hk. subst k.
    apply rowsS_in in Hin as (_ & _ & -> & Hv). congruence.
  - rewrite (elem_of_list_to_map_1 _ (r, c) (vel vals (C * r + c))); [reflexivity|apply rowsS_nodup|].
    apply rowsS_in. auto.
Qed.

Lemma cr_from_flat_panic (R C : nat) (vals : list A) : length vals < R * C ->
  cr_from_flat (R, C) vals = Panic.
Proof.
  intros Hl. unfold cr_from_flat; cbn [fst snd].
  match goal with |- context [foldM ?F (range 0 R) ?s] => set (body := F) end.
  assert (Hrow : forall r (v d : list A) (cs st : list nat),
    body r (v, d, cs, st) = if decide (C <= length v)
      then match body r (v, d, cs, st) with Ret (_, d', cs', st') => Ret (drop C v, d', cs', st') | o => o end
      else Panic).
  { intros r v d cs st. unfold body; cbn beta iota. unfold range. rewrite Nat.sub_0_r.
    match goal with |- context [foldM ?F (seq 0 C)] => set (cell := F) end.
    assert (G : forall k a (v d : list A) (cs : list nat), 
       (if decide (k <= length v) then exists d' cs', foldM cell (seq a k) (v, d, cs) = Ret (drop k v, d', cs')
        else foldM cell (seq a k) (v, d, cs) = Panic)).
    { clear. induction k as [|k IH]; intros a v d cs.
      - rewrite decide_True by lia. exists d, cs. reflexivity.
      - cbn [seq foldM]. destruct v as [|x v]; [rewrite decide_False by (cbn; lia); reflexivity|].
        assert (Hc : cell a (x :: v, d, cs) =
                  Ret (if seqb x s0 then (v, d, cs) else (v, d ++ [x], cs ++ [a]))) by reflexivity.
        rewrite !Hc. cbn [mbind out_bind].
        destruct (seqb x s0).
        + specialize (IH (S a) v d cs). destruct (decide (k <= length v)).
          * rewrite decide_True by (cbn; lia). exact IH.
          * rewrite decide_False by (cbn; lia). exact IH.
        + specialize (IH (S a) v (d ++ [x]) (cs ++ [a])). destruct (decide (k <= length v)).
          * rewrite decide_True by (cbn; lia). exact IH.
          * rewrite decide_False by (cbn; lia). exact IH. }
    specialize (G C 0 v d cs). destruct (decide (C <= length v)).
    - destruct G as (d' & cs' & E). rewrite E. reflexivity.
    - rewrite G. reflexivity. }
  assert (G : forall n a (v d : list A) (cs st : list nat), length v < n * C -> foldM body (seq a n) (v, d, cs, st) = Panic).
  { induction n as [|n IH]; intros a v d cs st Hv; [lia|]. cbn [seq foldM]. rewrite Hrow.
    destruct (decide (C <= length v)); [|reflexivity].
    destruct (body a (v, d, cs, st)) as [[[[v' d'] cs'] st']| | |] eqn:E; try reflexivity.
    - cbn [mbind out_bind]. apply IH. rewrite drop_length. lia.
    - exfalso. clear -E. unfold body in E; cbn beta iota in E.
      revert E. match goal with |- context [foldM ?F (range 0 C) ?s] => set (cell := F); generalize s end.
      generalize (range 0 C). induction l as [|x l IH]; intros [[v1 d1] c1] E; [discriminate|].
      cbn [foldM] in E. destruct v1 as [|y v1]; [discriminate|]. cbn [cell mbind out_bind] in E.
      destruct (seqb y s0); eapply IH; exact E.
    - exfalso. clear -E. unfold body in E; cbn beta iota in E.
      revert E. match goal with |- context [foldM ?F (range 0 C) ?s] => set (cell := F); generalize s end.
      generalize (range 0 C). induction l as [|x l IH]; intros [[v1 d1] c1] E; [discriminate|].
      cbn [foldM] in E. destruct v1 as [|y v1]; [discriminate|]. cbn [cell mbind out_bind] in E.
      destruct (seqb y s0); eapply IH; exact E. }
  unfold range. rewrite Nat.sub_0_r, G by lia. reflexivity.
Qed.
End crow.

(** ** sums over entry lists *)
Section esum.
Context {A : arith} (FL : field_laws A).
Add Field AfieldCR : (fl_field A FL).
Local Open Scope arith_scope.
Notation entries := (list ((nat * nat) * A)).

Fixpoint esum (F : (nat * nat) * A -> A) (l : entries) : A :=
  match l with [] => 0 | kv :: l' => F kv + esum F l' end.

Lemma esum_app F l1 l2 : esum F (l1 ++ l2) = esum F l1 + esum F l2.
Proof. induction l1 as [|x l1 IH]; cbn; [ring|]. rewrite IH. ring. Qed.

Lemma esum_ext F G l : (forall kv, kv ∈ l -> F kv = G kv) -> esum F l = esum G l.
Proof.
  induction l as [|x l IH]; intros H; [reflexivity|]. cbn. rewrite (H x) by left.
  rewrite IH; [reflexivity|]. intros kv Hk; apply H; now right.
Qed.

Lemma esum_filter F p l : esum F (List.filter p l) = esum (fun kv => if p kv : bool then F kv else 0) l.
Proof. induction l as [|x l IH]; [reflexivity|]. cbn. destruct (p x); cbn; rewrite IH; ring. Qed.

Lemma esum_index F l : esum F l = bigsum (length l) (fun i => match l !! i with Some kv => F kv | None => 0 end).
Proof.
  induction l as [|x l IH]; [reflexivity|]. cbn [esum length]. rewrite IH.
  change (S (length l)) with (1 + length l)%nat. rewrite (bigsum_app FL). f_equal. cbn. ring.
Qed.

Lemma esum_bigsum F l R C : NoDup (l.*1) ->
  (forall r c v, ((r, c), v) ∈ l -> (r < R)%nat /\ (c < C)%nat) ->
  esum (fun kv => F kv.1.1 kv.1.2 kv.2) l =
  bigsum R (fun r => bigsum C (fun c =>
    match (list_to_map l : gmap (nat * nat) A) !! (r, c) with Some v => F r c v | None => 0 end)).
Proof.
  induction l as [|[[r0 c0] v0] l IH]; intros Hn Hb; cbn [esum fst snd].
  - symmetry. apply (bigsum_0 FL). intros r _. apply (bigsum_0 FL). intros c _. cbn. now rewrite lookup_empty.
  - cbn in Hn. apply NoDup_cons in Hn as [Hni Hn].
    rewrite IH; [|exact Hn|intros r c v Hin; apply (Hb r c v); now right].
    destruct (Hb r0 c0 v0 ltac:(left)) as [Hr0 Hc0].
    assert (E : F r0 c0 v0 = bigsum R (fun r => bigsum C (fun c => if ((r =? r0) && (c =? c0))%nat then F r0 c0 v0 else 0))).
    { rewrite (bigsum_single FL R r0 _ Hr0).
      - rewrite (bigsum_single FL C c0 _ Hc0).
        + now rewrite !Nat.eqb_refl.
        + intros c _ Hne. rewrite (proj2 (Nat.eqb_neq c c0)) by auto. now rewrite andb_false_r.
      - intros r _ Hne. apply (bigsum_0 FL). intros c _. now rewrite (proj2 (Nat.eqb_neq r r0)) by auto. }
    rewrite E at 1. rewrite <- (bigsum_add FL). apply bigsum_ext. intros r Hr. rewrite <- (bigsum_add FL).
    apply bigsum_ext. intros c Hc. cbn.
    destruct (Nat.eqb_spec r r0) as [Er|], (Nat.eqb_spec c c0) as [Ec|]; cbn [andb];
      rewrite ?lookup_insert_ne by congruence; try ring.
    subst. rewrite lookup_insert.
    rewrite (not_elem_of_list_to_map_1 (M := gmap (nat * nat))) by exact Hni. ring.
Qed.

(** ** products of dictionaries *)
Lemma take_row_spec i (l : entries) : StronglySorted (fun a b : (nat * nat) * A => (a.1.1 <= b.1.1)%nat) l ->
  take_row i (List.filter (fun kv => i <=? kv.1.1)%nat l)
  = (List.filter (fun kv => kv.1.1 =? i)%nat l, List.filter (fun kv => S i <=? kv.1.1)%nat l).
Proof.
  induction 1 as [|x l Hs IH Hf]; [reflexivity|]. cbn [List.filter].
  destruct (Nat.leb_spec i x.1.1) as [Hle|Hgt].
  - cbn [take_row]. destruct (Nat.eqb_spec x.1.1 i) as [He|Hne].
    + rewrite IH. rewrite (proj2 (Nat.leb_gt (S i) x.1.1)) by lia. reflexivity.
    + rewrite (proj2 (Nat.leb_le (S i) x.1.1)) by lia.
      rewrite Forall_forall in Hf.
      assert (E1 : List.filter (fun kv : (nat * nat) * A => kv.1.1 =? i)%nat l = []).
      { clear -Hf Hle Hne. induction l as [|y l IH]; [reflexivity|]. cbn.
        pose proof (Hf y ltac:(left)). rewrite (proj2 (Nat.eqb_neq _ _)) by lia. apply IH. intros z Hz; apply Hf; now right. }
      rewrite E1. f_equal. f_equal. apply filter_ext_in. intros y Hy. apply elem_of_list_In in Hy.
      pose proof (Hf y Hy). rewrite (proj2 (Nat.leb_le i _)), (proj2 (Nat.leb_le (S i) _)) by lia. reflexivity.
  - rewrite (proj2 (Nat.eqb_neq x.1.1 i)) by lia. rewrite (proj2 (Nat.leb_gt (S i) x.1.1)) by lia. exact IH.
Qed.

Lemma row_slices_spec n (l : entries) : StronglySorted (fun a b : (nat * nat) * A => (a.1.1 <= b.1.1)%nat) l ->
  row_slices n l = map (fun i => List.filter (fun kv : (nat * nat) * A => kv.1.1 =? i)%nat l) (seq 0 n).
Proof.
  intros Hs. unfold row_slices, range. rewrite Nat.sub_0_r.
  enough (fold_left (fun (st : list entries * entries) i => let '(a, b) := take_row i st.2 in (st.1 ++ [a], b)) (seq 0 n) ([], l)
    = (map (fun i => List.filter (fun kv : (nat * nat) * A => kv.1.1 =? i)%nat l) (seq 0 n), List.filter (fun kv => n <=? kv.1.1)%nat l)) as ->
    by reflexivity.
  induction n as [|n IH].
  - cbn. f_equal. symmetry. clear. induction l as [|x l IH]; [reflexivity|]. cbn. now rewrite IH.
  - rewrite seq_S_app, fold_left_app, IH. cbn [fold_left fst snd]. rewrite take_row_spec by exact Hs.
    rewrite map_app. reflexivity.
Qed.

Lemma mul_dict_spec (ord1 ord2 : entries) (a b : dict A) : dict_wf a -> dict_wf b ->
  hash_order ord1 a -> hash_order ord2 b ->
  StronglySorted (fun x y : (nat * nat) * A => (x.1.1 <= y.1.1)%nat) ord2 ->
  (d_shape a).2 = (d_shape b).1 ->
  exists d, mul_dict ord1 ord2 a b = Ret d /\ dict_wf d /\ d_shape d = ((d_shape a).1, (d_shape b).2) /\
    forall r c, (r < (d_shape a).1)%nat -> (c < (d_shape b).2)%nat ->
      el d r c = bigsum (d_shape a).2 (fun k => el a r k * el b k c).
Proof.
  intros Wa Wb Ho1 Ho2 Hs Hsh. unfold mul_dict. rewrite (proj2 (Nat.eqb_eq _ _)) by exact Hsh.
  cbn [assert_ mbind out_bind]. rewrite row_slices_spec by exact Hs.
  set (slice := fun i => List.filter (fun kv : (nat * nat) * A => kv.1.1 =? i)%nat ord2).
  match goal with |- exists x, foldM ?F _ _ = _ /\ _ => set (body := F) end.
  set (T := fun (r c : nat) (kv : (nat * nat) * A) =>
     if (kv.1.1 =? r)%nat then esum (fun kv2 => if (kv2.1.2 =? c)%nat then kv.2 * kv2.2 else 0) (slice kv.1.2) else 0).
  destruct (foldM_list_inv (fun (pre : entries) (res : dict A) => dict_wf res /\ d_shape res = ((d_shape a).1, (d_shape b).2) /\
     forall r c, (r < (d_shape a).1)%nat -> (c < (d_shape b).2)%nat -> el res r c = esum (T r c) pre)
     body ord1 (d_zeros ((d_shape a).1, (d_shape b).2))) as (d & E & Wd & Hsd & Hel).
  - split; [apply d_zeros_wf|]. split; [reflexivity|]. intros r c _ _. now rewrite d_zeros_el.
  - intros pre [[r0 k0] v0] post res Hsplit (Wr & Hsr & Helr). unfold body; cbn [fst snd].
    assert (Hin : d_data a !! (r0, k0) = Some v0).
    { apply (order_lookup ord1 a _ _ Ho1). rewrite Hsplit. apply elem_of_app. right. left. }
    destruct (Wa _ _ _ Hin) as [Hr0 Hk0].
    rewrite (idx_lookup _ _ (slice k0)).
    2:{ rewrite list_lookup_fmap, lookup_seq_lt by lia. reflexivity. }
    cbn [mbind out_bind].
    match goal with |- exists x, foldM ?F _ _ = _ /\ _ => set (inner := F) end.
    destruct (foldM_list_inv (fun (pre2 : entries) (res2 : dict A) => dict_wf res2 /\ d_shape res2 = ((d_shape a).1, (d_shape b).2) /\
       forall r c, (r < (d_shape a).1)%nat -> (c < (d_shape b).2)%nat -> el res2 r c = el res r c +
         (if (r0 =? r)%nat then esum (fun kv2 => if (kv2.1.2 =? c)%nat then v0 * kv2.2 else 0) pre2 else 0))
       inner (slice k0) res) as (res' & E' & W' & Hs' & Hel').
    + split; [exact Wr|]. split; [exact Hsr|]. intros r c _ _. cbn. destruct (r0 =? r)%nat; ring.
    + intros pre2 [[r1 c1] v1] post2 res2 Hsp2 (W2 & Hs2 & Hel2). unfold inner; cbn [fst snd].
      assert (Hin2 : ((r1, c1), v1) ∈ slice k0) by (rewrite Hsp2; apply elem_of_app; right; left).
      unfold slice in Hin2. apply elem_of_list_In, filter_In in Hin2 as [Hin2 Hk]. cbn in Hk. apply Nat.eqb_eq in Hk. subst r1.
      apply elem_of_list_In in Hin2. apply (order_lookup ord2 b _ _ Ho2) in Hin2. destruct (Wb _ _ _ Hin2) as [_ Hc1].
      rewrite Nat.eqb_refl. cbn [assert_ mbind out_bind].
      destruct (index_upd_ret _ _ d_laws res2 r0 c1 (fun x => x + v0 * v1) W2) as (m2 & E2 & Wm2 & Hsm2 & _ & Helm2).
      { apply in_shape_true. cbn. rewrite Hs2. cbn. lia. }
      exists m2. split; [exact E2|]. split; [exact Wm2|]. split; [change (mshape m2 = ((d_shape a).1, (d_shape b).2)); now rewrite Hsm2|].
      intros r c Hr Hc. rewrite Helm2, esum_app. cbn [esum fst snd].
      rewrite (Nat.eqb_sym r r0), (Nat.eqb_sym c c1).
      destruct (Nat.eqb_spec r0 r) as [<-|], (Nat.eqb_spec c1 c) as [<-|]; cbn [andb]; rewrite Hel2 by assumption.
      * rewrite Nat.eqb_refl. ring.
      * rewrite Nat.eqb_refl. ring.
      * rewrite (proj2 (Nat.eqb_neq r0 r)) by auto. ring.
      * rewrite (proj2 (Nat.eqb_neq r0 r)) by auto. ring.
    + exists res'. split; [exact E'|]. split; [exact W'|]. split; [exact Hs'|].
      intros r c Hr Hc. rewrite Hel', Helr, esum_app by assumption. cbn [esum].
      set (X := esum (T r c) pre). unfold T; cbn [fst snd]. ring.
  - exists d. split; [exact E|]. split; [exact Wd|]. split; [exact Hsd|]. intros r c Hr Hc. rewrite Hel by assumption.
    assert (Hsl : forall k x, (k < (d_shape b).1)%nat ->
      esum (fun kv2 => if (kv2.1.2 =? c)%nat then x * kv2.2 else 0) (slice k) = x * el b k c).
    { intros k x Hk. unfold slice. rewrite esum_filter.
      rewrite (esum_bigsum (fun r c' v => if (r =? k)%nat then (if (c' =? c)%nat then x * v else 0) else 0)
                 ord2 (d_shape b).1 (d_shape b).2).
      - rewrite (bigsum_single FL _ k _ Hk).
        + rewrite (bigsum_single FL _ c _ Hc).
          * rewrite !Nat.eqb_refl, (order_map ord2 b Ho2), d_el by exact Wb. destruct (d_data b !! (k, c)); cbn; ring.
          * intros c' _ Hne. rewrite (proj2 (Nat.eqb_neq c' c)) by auto. rewrite Nat.eqb_refl. now destruct (_ !! _).
        + intros r' _ Hne. apply (bigsum_0 FL). intros c' _. rewrite (proj2 (Nat.eqb_neq r' k)) by auto. now destruct (_ !! _).
      - now apply (order_nodup ord2 b).
      - intros r' c' v Hin. apply (order_lookup ord2 b _ _ Ho2) in Hin. now apply Wb in Hin. }
    rewrite (esum_ext _ (fun kv => (fun r' k v => if (r' =? r)%nat then v * el b k c else 0) kv.1.1 kv.1.2 kv.2)).
    2:{ intros [[r' k'] v'] Hin. unfold T; cbn. destruct (r' =? r)%nat; [|reflexivity]. apply Hsl.
        apply (order_lookup ord1 a _ _ Ho1) in Hin. apply Wa in Hin. lia. }
    rewrite (esum_bigsum (fun r' k v => if (r' =? r)%nat then v * el b k c else 0) ord1 (d_shape a).1 (d_shape a).2).
    + rewrite (bigsum_single FL _ r _ Hr).
      * apply bigsum_ext. intros k Hk. rewrite Nat.eqb_refl, (order_map ord1 a Ho1), (d_el a) by exact Wa.
        destruct (d_data a !! (r, k)); cbn; ring.
      * intros r' _ Hne. apply (bigsum_0 FL). intros k _. rewrite (proj2 (Nat.eqb_neq r' r)) by auto. now destruct (_ !! _).
    + now apply (order_nodup ord1 a).
    + intros r' c' v Hin. apply (order_lookup ord1 a _ _ Ho1) in Hin. now apply Wa in Hin.
Qed.

Lemma mul_dict_refuses (ord1 ord2 : entries) (a b : dict A) : (d_shape a).2 <> (d_shape b).1 -> mul_dict ord1 ord2 a b = Panic.
Proof. intros H. unfold mul_dict. rewrite (proj2 (Nat.eqb_neq _ _)) by exact H. reflexivity. Qed.

(** ** product of a compressed-row matrix with any matrix *)
Lemma cr_row_sum (m : crow A) S r (y : nat -> A) : cr_repr m S -> (r < (cr_shape m).1)%nat ->
  let a := cnt (erows S) r in let b := cnt (erows S) (r + 1) in
  bigsum (b - a) (fun i => match S !! (a + i)%nat with Some kv => kv.2 * y kv.1.2 | None => 0 end)
  = bigsum (cr_shape m).2 (fun k => el m r k * y k).
Proof.
  intros H Hr a b.
  assert (Hab : (a <= b)%nat) by (apply cnt_mono; lia).
  assert (Hbl : (b <= length S)%nat) by (unfold b; rewrite <- (map_length (fun v => v.1.1) S); apply cnt_le).
  transitivity (esum (fun kv => (fun r' c v => if (r' =? r)%nat then v * y c else 0) kv.1.1 kv.1.2 kv.2) S).
  - rewrite esum_index. rewrite (bigsum_split FL (length S) a) by lia.
    rewrite (bigsum_split FL (length S - a) (b - a)) by lia.
    assert (Hout : forall i, (i < a \/ b <= i)%nat ->
       match S !! i with Some kv => if (kv.1.1 =? r)%nat then kv.2 * y kv.1.2 else 0 | None => 0 end = 0).
    { intros i Hi. destruct (S !! i) as [[[r' c'] v']|] eqn:E; [|reflexivity]. cbn.
      destruct (Nat.eqb_spec r' r) as [->|]; [|reflexivity].
      pose proof (proj2 (cr_entry_range S i r c' v' r (crr_sorted _ _ H) E) eq_refl). fold a b in H0. lia. }
    rewrite (bigsum_0 FL a) by (intros; apply Hout; lia).
    rewrite (bigsum_0 FL (length S - a - (b - a))) by (intros; apply Hout; lia).
    rewrite (bigsum_ext (fun i => match S !! (a + i)%nat with Some kv => kv.2 * y kv.1.2 | None => 0 end)
       (fun i => match S !! (a + i)%nat with Some kv => if (kv.1.1 =? r)%nat then kv.2 * y kv.1.2 else 0 | None => 0 end)); [ring|].
    intros i Hi. destruct (S !! (a + i)%nat) as [[[r' c'] v']|] eqn:E; [|reflexivity]. cbn.
    rewrite (proj1 (cr_entry_range S _ r' c' v' r (crr_sorted _ _ H) E)), Nat.eqb_refl by (fold a b; lia). reflexivity.
  - rewrite (esum_bigsum (fun r' c v => if (r' =? r)%nat then v * y c else 0) S (cr_shape m).1 (cr_shape m).2).
    + rewrite (bigsum_single FL _ r _ Hr).
      * apply bigsum_ext. intros k Hk. rewrite Nat.eqb_refl, (cr_el m S) by exact H. destruct (_ !! _); cbn; ring.
      * intros r' _ Hne. apply (bigsum_0 FL). intros k _. rewrite (proj2 (Nat.eqb_neq r' r)) by auto. now destruct (_ !! _).
    + apply (crr_nodup _ _ H).
    + apply (crr_bound _ _ H).
Qed.

Lemma cr_mul_spec {T} `{ML : MatrixLike A T} wf dom (L : ml_laws (M := T) wf dom) (m : crow A) (o : T) :
  cr_wf m -> wf o -> (cr_shape m).2 = (mshape o).1 ->
  exists p : lm A, cr_mul m o = Ret p /\ lm_wf p /\ mshape p = ((cr_shape m).1, (mshape o).2) /\
    forall r c, (r < (cr_shape m).1)%nat -> (c < (mshape o).2)%nat ->
      el p r c = bigsum (cr_shape m).2 (fun k => el m r k * el o k c).
Proof.
  intros [S H] Wo Hsh. unfold cr_mul. rewrite (proj2 (Nat.eqb_eq _ _)) by exact Hsh. cbn [negb].
  set (R := (cr_shape m).1). set (C := (mshape o).2). set (K := (cr_shape m).2) in *.
  set (val := fun r c => bigsum K (fun k => el m r k * el o k c)).
  match goal with |- context [foldM ?F (range 0 R) ?s] => set (body := F) end.
  destruct (foldM_range_inv (fun r (acc : list A) => acc = rm_list r C val) body 0 R []) as (acc & E & ->).
  - lia.
  - reflexivity.
  - intros r acc Hr ->. unfold body; cbn beta.
    match goal with |- context [foldM ?F (range 0 C) ?s] => set (cell := F) end.
    destruct (foldM_range_inv (fun c (acc : list A) => acc = rm_list r C val ++ map (val r) (seq 0 c)) cell 0 C (rm_list r C val))
      as (acc & E & ->).
    + lia.
    + cbn. now rewrite app_nil_r.
    + intros c acc Hc ->. unfold cell; cbn beta.
      destruct (cr_row_range m S r H ltac:(unfold R in Hr; lia)) as (E1 & _ & E3). rewrite E1. cbn [mbind out_bind]. rewrite E3.
      set (a := cnt (erows S) r). set (b := cnt (erows S) (r + 1)).
      assert (Hbl : (b <= length S)%nat) by (unfold b; rewrite <- (map_length (fun v => v.1.1) S); apply cnt_le).
      rewrite (mapM_out_Ret _ (fun i => match S !! i with Some kv => kv.2 * el o kv.1.2 c | None => 0 end)).
      2:{ intros i Hi. unfold range in Hi. apply elem_of_seq in Hi.
          destruct (lookup_lt_is_Some_2 S i ltac:(lia)) as [[[r' c'] v'] HS].
          rewrite (crr_data _ _ H), (crr_cols _ _ H).
          rewrite (idx_lookup _ _ v') by now rewrite list_lookup_fmap, HS. cbn [mbind out_bind].
          rewrite (idx_lookup _ _ c') by (unfold ecols; now rewrite list_lookup_fmap, HS). cbn [mbind out_bind].
          assert (Hb : (c' < K)%nat).
          { apply elem_of_list_lookup_2 in HS. apply (crr_bound _ _ H) in HS. unfold K. lia. }
          rewrite (index_ret wf dom L) by (auto; lia). cbn [mbind out_bind]. rewrite HS. reflexivity. }
      cbn [mbind out_bind]. eexists; split; [reflexivity|].
      rewrite seq_S_app, map_app, app_assoc, Nat.add_0_l. cbn [map]. do 2 f_equal. unfold range. rewrite ssum_map_seq.
      exact (cr_row_sum m S r (fun k => el o k c) H ltac:(unfold R in Hr; lia)).
    + rewrite E. eexists; split; [reflexivity|]. unfold rm_list. rewrite seq_S_app, map_app, concat_app. cbn. now rewrite app_nil_r.
  - rewrite E. cbn [mbind out_bind]. exact (lm_from_flat_rm R C val).
Qed.

Lemma cr_mul_refuses {T} `{ML : MatrixLike A T} (m : crow A) (o : T) :
  (cr_shape m).2 <> (mshape o).1 -> cr_mul (U := lm A) m o = Panic.
Proof. intros H. unfold cr_mul. rewrite (proj2 (Nat.eqb_neq _ _)) by exact H. reflexivity. Qed.
End esum.
