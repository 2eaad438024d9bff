(** Bi-envelope storage: laws, construction, products and scaled updates. *)
From Verif Require Export EnvSolve.

Section bienv.
Context {A : arith}.
Implicit Types m : bienv A.

Definition blen (ab : nat * nat) : nat := ab.2 - ab.1.
Definition bnd m (i : nat) : nat * nat := nth i (be_bounds m) (0, 0).
Definition blens m : list nat := map blen (be_bounds m).

Record be_wf m : Prop := BeWf {
  bw_n : be_n m = length (be_bounds m);
  bw_bound : forall i, i < be_n m -> (bnd m i).1 <= (bnd m i).2 <= be_n m;
  bw_starts : be_starts m = map (off (blens m)) (seq 0 (S (be_n m)));
  bw_data : length (be_data m) = sum_list (blens m)
}.

Definition be_dom m (r c : nat) : bool := (r <? be_n m) && ((bnd m r).1 <=? c) && (c <? (bnd m r).2).

Lemma be_dom_true m r c : be_dom m r c = true <-> r < be_n m /\ (bnd m r).1 <= c < (bnd m r).2.
Proof. unfold be_dom. rewrite !andb_true_iff, !Nat.ltb_lt, !Nat.leb_le. tauto. Qed.

Lemma bnd_lookup m r : r < length (be_bounds m) -> be_bounds m !! r = Some (bnd m r).
Proof.
  intros H. destruct (lookup_lt_is_Some_2 _ _ H) as [x E]. rewrite E. f_equal. symmetry.
  now apply nth_lookup_Some.
Qed.

Lemma nz_blens m r : r < length (be_bounds m) -> nz (blens m) r = (bnd m r).2 - (bnd m r).1.
Proof.
  intros H. assert (E : blens m !! r = Some (blen (bnd m r))).
  { unfold blens. now rewrite list_lookup_fmap, bnd_lookup. }
  assert (H' : r < length (blens m)) by (unfold blens; now rewrite map_length).
  rewrite (nz_lookup _ _ H') in E. injection E as ->. reflexivity.
Qed.

Lemma blens_length m : length (blens m) = length (be_bounds m).
Proof. apply map_length. Qed.

Lemma be_pos_dom m r c : be_wf m -> r < be_n m -> c < be_n m ->
  be_pos m (r, c) = Ret (if be_dom m r c then EData (off (blens m) r + (c - (bnd m r).1)) else EZero).
Proof.
  intros W Hr Hc. unfold be_pos, be_dom; cbn [fst snd].
  destruct (Nat.leb_spec (be_n m) r), (Nat.leb_spec (be_n m) c), (Nat.ltb_spec r (be_n m)); try lia.
  cbn [orb andb]. assert (Hl : r < length (be_bounds m)) by (rewrite <- (bw_n m W); exact Hr).
  rewrite (idx_lookup _ _ _ (bnd_lookup m r Hl)). cbn [mbind out_bind].
  destruct (Nat.ltb_spec c (bnd m r).1), (Nat.leb_spec (bnd m r).1 c); try lia; [reflexivity|].
  destruct (Nat.leb_spec (bnd m r).2 c), (Nat.ltb_spec c (bnd m r).2); try lia; [reflexivity|].
  cbn [andb]. rewrite (bw_starts m W), (idx_lookup _ _ (off (blens m) r)); [reflexivity|].
  apply map_off_lookup. lia.
Qed.

Lemma be_off_lt m r c : be_wf m -> be_dom m r c = true ->
  off (blens m) r + (c - (bnd m r).1) < length (be_data m).
Proof.
  intros W H. apply be_dom_true in H. rewrite (bw_data m W). pose proof (bw_n m W).
  apply seg_lt; [rewrite blens_length; lia|]. rewrite nz_blens by lia. lia.
Qed.

Lemma be_off_inj m r c r' c' : be_wf m -> be_dom m r c = true -> be_dom m r' c' = true ->
  off (blens m) r + (c - (bnd m r).1) = off (blens m) r' + (c' - (bnd m r').1) -> r = r' /\ c = c'.
Proof.
  intros W H H' E. apply be_dom_true in H, H'. pose proof (bw_n m W).
  apply seg_inj in E; rewrite ?blens_length, ?nz_blens by lia; try lia.
  destruct E as [-> E]. lia.
Qed.

Lemma be_el m r c : be_wf m -> el m r c =
  if be_dom m r c then vel (be_data m) (off (blens m) r + (c - (bnd m r).1)) else s0.
Proof.
  intros W. unfold el; cbn. unfold be_get.
  destruct (decide (r < be_n m)) as [Hr|Hr], (decide (c < be_n m)) as [Hc|Hc].
  1:{ rewrite be_pos_dom by assumption. destruct (be_dom m r c) eqn:Hd; cbn; [|reflexivity].
      unfold get_unchecked. rewrite lookup_vel by now apply be_off_lt. reflexivity. }
  all: unfold be_pos; cbn [fst snd].
  all: destruct (Nat.leb_spec (be_n m) r), (Nat.leb_spec (be_n m) c); try lia; cbn.
  all: destruct (be_dom m r c) eqn:Hd; [|reflexivity]; apply be_dom_true in Hd.
  all: pose proof (bw_bound m W r); lia.
Qed.

Lemma be_laws : ml_laws (M := bienv A) be_wf be_dom.
Proof.
  constructor; cbn.
  - intros m r c W Hr Hc. rewrite be_el by assumption. unfold be_get. rewrite be_pos_dom by assumption.
    destruct (be_dom m r c) eqn:Hd; cbn; [|reflexivity].
    unfold get_unchecked. rewrite lookup_vel by now apply be_off_lt. reflexivity.
  - intros m r c W H. unfold be_get, be_pos; cbn [fst snd].
    destruct (Nat.leb_spec (be_n m) r), (Nat.leb_spec (be_n m) c); try lia; reflexivity.
  - intros m r c f W Hd. pose proof Hd as Hd'. apply be_dom_true in Hd'.
    pose proof (bw_bound m W r ltac:(lia)).
    unfold be_mut. rewrite be_pos_dom, Hd by (assumption || lia). cbn [mbind out_bind].
    unfold upd_unchecked. rewrite lookup_vel by now apply be_off_lt. cbn [mbind out_bind].
    eexists; split; [reflexivity|]. set (m' := BE _ _ _ _).
    assert (W' : be_wf m').
    { destruct W as [W1 W2 W3 W4]. constructor; cbn; try assumption. now rewrite insert_length. }
    split; [exact W'|]. split; [reflexivity|]. split; [reflexivity|].
    intros r' c'. rewrite (be_el m') by assumption. change (be_dom m' r' c') with (be_dom m r' c').
    change (bnd m') with (bnd m). change (blens m') with (blens m).
    cbn [be_data m']. rewrite (be_el m r c), Hd by assumption.
    destruct (be_dom m r' c') eqn:Hd2.
    + rewrite vel_insert by now apply be_off_lt.
      rewrite (be_el m r' c'), Hd2 by assumption.
      destruct (Nat.eqb_spec (off (blens m) r' + (c' - (bnd m r').1)) (off (blens m) r + (c - (bnd m r).1))) as [E|E].
      * apply be_off_inj in E; [|assumption..]. destruct E as [-> ->]. now rewrite !Nat.eqb_refl.
      * destruct (Nat.eqb_spec r' r) as [->|], (Nat.eqb_spec c' c) as [->|]; try reflexivity.
        exfalso; now apply E.
    + rewrite (be_el m r' c'), Hd2 by assumption.
      destruct (Nat.eqb_spec r' r) as [->|], (Nat.eqb_spec c' c) as [->|]; try reflexivity. congruence.
  - intros m r c f W Hd. unfold be_mut.
    destruct (decide (r < be_n m)) as [Hr|Hr], (decide (c < be_n m)) as [Hc|Hc].
    1:{ rewrite be_pos_dom, Hd by assumption. reflexivity. }
    all: unfold be_pos; cbn [fst snd].
    all: destruct (Nat.leb_spec (be_n m) r), (Nat.leb_spec (be_n m) c); try lia; reflexivity.
  - intros m r c W Hd. apply be_dom_true in Hd. pose proof (bw_bound m W r). lia.
  - intros m r c W Hd. now rewrite be_el, Hd.
Qed.

(** ** Construction *)

Lemma from_row_bounds_starts (bs : list (nat * nat)) : (forall ab, ab ∈ bs -> ab.1 <= ab.2) ->
  forall acc s, last acc = Some s ->
  foldM (fun (ab : nat * nat) starts =>
           len ← usub ab.2 ab.1;
           l ← unwrap (last starts); Ret (starts ++ [l + len])) bs acc
  = Ret (acc ++ map (fun i => s + off (map blen bs) (S i)) (seq 0 (length bs))).
Proof.
  induction bs as [|x bs IH]; intros H acc s Hl; cbn [foldM length seq map].
  - now rewrite app_nil_r.
  - rewrite usub_ret by (apply H; left). rewrite Hl. cbn [unwrap mbind out_bind].
    rewrite (IH ltac:(intros y Hy; apply H; now right) _ (s + (x.2 - x.1))) by apply last_snoc.
    f_equal. rewrite <- app_assoc. f_equal. cbn [app].
    f_equal; [rewrite off_cons; change (off (map blen bs) 0) with 0; unfold blen; lia|].
    rewrite <- seq_shift, map_map. apply map_ext. intros i. rewrite off_cons. unfold blen. lia.
Qed.

Lemma from_row_bounds_ret (bs : list (nat * nat)) :
  (forall i, i < length bs -> (nth i bs (0, 0)).1 <= (nth i bs (0, 0)).2 <= length bs) ->
  exists m : bienv A, from_row_bounds bs = Ret m /\ be_wf m /\ be_bounds m = bs /\ be_n m = length bs /\
    forall r c, el m r c = s0.
Proof.
  intros H. unfold from_row_bounds.
  assert (Hst : foldM (fun (ab : nat * nat) starts =>
           len ← usub ab.2 ab.1;
           l ← unwrap (last starts); Ret (starts ++ [l + len])) bs [0]
       = Ret (map (off (map blen bs)) (seq 0 (S (length bs))))).
  { rewrite from_row_bounds_starts with (s := 0); [|intros x Hx|reflexivity].
    - cbn [app seq map]. do 2 f_equal. rewrite <- seq_shift, map_map. reflexivity.
    - apply elem_of_list_lookup in Hx as [i Hi]. pose proof (lookup_lt_Some _ _ _ Hi) as Hl.
      pose proof (H i Hl) as Hb. rewrite (nth_lookup_Some _ _ _ _ Hi) in Hb. lia. }
  rewrite Hst. cbn [mbind out_bind]. rewrite last_map_seq. cbn [unwrap mbind out_bind].
  eexists; split; [reflexivity|]. set (m := BE _ _ _ _).
  assert (W : be_wf m).
  { constructor; cbn [be_n be_bounds be_starts be_data m]; try assumption; try reflexivity.
    rewrite replicate_length. unfold blens; cbn [be_bounds m].
    rewrite Nat.add_0_l, <- off_all, map_length. reflexivity. }
  split; [exact W|]. split; [reflexivity|]. split; [reflexivity|].
  intros r c. rewrite be_el by assumption. destruct (be_dom m r c); [|reflexivity].
  apply vel_replicate.
Qed.

Lemma from_row_bounds_panic (bs : list (nat * nat)) ab : ab ∈ bs -> ab.2 < ab.1 ->
  from_row_bounds (A := A) bs = Panic.
Proof.
  intros Hin Hlt. unfold from_row_bounds.
  enough (foldM (fun (ab : nat * nat) starts =>
           len ← usub ab.2 ab.1;
           l ← unwrap (last starts); Ret (starts ++ [l + len])) bs [0] = Panic) as -> by reflexivity.
  apply foldM_panic with (x := ab); [exact Hin| |].
  - intros y s _. unfold usub. destruct (decide _); [|now left]. cbn.
    destruct (last s); [right; eexists; reflexivity|now left].
  - intros s. unfold usub. rewrite decide_False by lia. reflexivity.
Qed.

(** ** Stored rows *)

Lemma be_row_stored_ret m i : be_wf m -> i < be_n m ->
  be_row_stored m i = Ret ((bnd m i).1, map (el m i) (seq (bnd m i).1 ((bnd m i).2 - (bnd m i).1))).
Proof.
  intros W Hi. unfold be_row_stored. pose proof (bw_n m W). pose proof (bw_bound m W i Hi).
  assert (Hl : i < length (be_bounds m)) by lia.
  rewrite (idx_lookup _ _ _ (bnd_lookup m i Hl)). cbn [mbind out_bind].
  rewrite usub_ret by lia. cbn [mbind out_bind].
  rewrite (bw_starts m W), (idx_lookup _ _ (off (blens m) i)) by (apply map_off_lookup; lia).
  cbn [mbind out_bind].
  assert (Hs : off (blens m) i + ((bnd m i).2 - (bnd m i).1) <= length (be_data m)).
  { rewrite (bw_data m W), <- nz_blens by exact Hl. apply seg_le. now rewrite blens_length. }
  rewrite slice_vel by lia. cbn [mbind out_bind]. do 2 f_equal.
  replace (off (blens m) i + ((bnd m i).2 - (bnd m i).1) - off (blens m) i)
    with ((bnd m i).2 - (bnd m i).1) by lia.
  rewrite map_seq_shift, (map_seq_shift _ (bnd m i).1). apply map_ext_in. intros k Hk. apply in_seq in Hk.
  rewrite be_el by assumption.
  assert (be_dom m i ((bnd m i).1 + k) = true) as ->.
  { apply be_dom_true. lia. }
  f_equal. lia.
Qed.

Lemma zip_axpy_length (s b : list A) k : length (zip_axpy s b k) = length s.
Proof. revert b; induction s as [|x s IH]; intros [|y b]; cbn; auto. Qed.

Lemma zip_axpy_vel (s b : list A) k i : i < length s ->
  vel (zip_axpy s b k) i = if i <? length b then sadd (vel s i) (smul (vel b i) k) else vel s i.
Proof.
  revert b i; induction s as [|x s IH]; intros [|y b] i H; cbn [zip_axpy length] in *; try lia.
  - now rewrite (proj2 (Nat.ltb_ge i 0)) by lia.
  - destruct i as [|i]; [reflexivity|]. unfold vel in *; cbn [nth].
    rewrite IH by lia. destruct (Nat.ltb_spec i (length b)), (Nat.ltb_spec (S i) (S (length b))); try lia; reflexivity.
Qed.
End bienv.

Section bienv_field.
Context {A : arith} (FL : field_laws A).
Add Field AfieldBE : (fl_field A FL).
Local Open Scope arith_scope.
Implicit Types m : bienv A.

Lemma be_row_sum m i (y : nat -> A) : be_wf m -> (i < be_n m)%nat ->
  bigsum ((bnd m i).2 - (bnd m i).1) (fun j => y ((bnd m i).1 + j)%nat * el m i ((bnd m i).1 + j))
  = mv (be_n m) (el m) y i.
Proof.
  intros W Hi. pose proof (bw_bound m W i Hi). unfold mv.
  rewrite (bigsum_split FL (be_n m) (bnd m i).1) by lia. rewrite (bigsum_0 FL (bnd m i).1).
  2:{ intros c Hc. rewrite (law_nodom _ _ be_laws); [ring|exact W|].
      destruct (be_dom m i c) eqn:E; [|reflexivity]. apply be_dom_true in E. lia. }
  rewrite (bigsum_split FL (be_n m - (bnd m i).1) ((bnd m i).2 - (bnd m i).1)) by lia.
  rewrite (bigsum_0 FL (be_n m - (bnd m i).1 - _)).
  2:{ intros c Hc. rewrite (law_nodom _ _ be_laws); [ring|exact W|].
      match goal with |- be_dom _ _ ?x = _ => destruct (be_dom m i x) eqn:E end; [|reflexivity].
      apply be_dom_true in E. lia. }
  rewrite (bigsum_ext (fun i0 => el m i ((bnd m i).1 + i0) * y ((bnd m i).1 + i0)%nat)
             (fun j => y ((bnd m i).1 + j)%nat * el m i ((bnd m i).1 + j))); [ring|]. intros; ring.
Qed.

Lemma be_mul_vec_spec m (x y0 : list A) : be_wf m -> length x = be_n m -> length y0 = be_n m ->
  exists y, be_mul_vec m x y0 = Ret y /\ length y = be_n m /\
    forall i, (i < be_n m)%nat -> vel y i = mv (be_n m) (el m) (vel x) i.
Proof.
  intros W Hx Hy. unfold be_mul_vec.
  rewrite (proj2 (Nat.eqb_eq _ _)) by congruence. cbn [assert_ mbind out_bind].
  rewrite (proj2 (Nat.eqb_eq _ _)) by congruence. cbn [assert_ mbind out_bind].
  match goal with |- exists x, foldM ?F _ _ = _ /\ _ => set (body := F) end.
  destruct (foldM_range_inv
    (fun k (y : list A) => length y = be_n m /\
       forall i, (i < k)%nat -> vel y i = mv (be_n m) (el m) (vel x) i) body 0 (be_n m) y0)
    as (y & E & Hl & Hs).
  - lia.
  - split; [exact Hy|lia].
  - intros i y Hi (Hl & Hs). subst body. cbn beta.
    rewrite be_row_stored_ret by (assumption || lia). cbn [mbind out_bind fst snd].
    pose proof (bw_bound m W i ltac:(lia)).
    rewrite slice_vel by lia. cbn [mbind out_bind]. rewrite set_lookup by lia.
    eexists; split; [reflexivity|]. split; [now rewrite insert_length|].
    intros j Hj. rewrite vel_insert by lia. destruct (Nat.eqb_spec j i) as [->|Hne]; [|apply Hs; lia].
    rewrite <- be_row_sum by (assumption || lia).
    set (a := (bnd m i).1) in *. set (k := ((bnd m i).2 - a)%nat).
    assert (zip_with smul (map (vel x) (seq a (length x - a))) (map (el m i) (seq a k))
            = map (fun j => vel x j * el m i j) (seq a k)) as ->.
    { replace (length x - a)%nat with (k + (length x - a - k))%nat by lia.
      rewrite seq_app, map_app. rewrite <- (zip_with_seq smul (vel x) (el m i) a k).
      generalize (map (vel x) (seq (a + k) (length x - a - k))). intros tl.
      rewrite <- (app_nil_r (map (el m i) (seq a k))) at 1.
      rewrite zip_with_app by now rewrite !map_length. now rewrite zip_with_nil_r, app_nil_r. }
    apply ssum_map_seq.
  - exists y. auto.
Qed.

Lemma be_mul_vec_refuses m (x y0 : list A) : length x <> length y0 \/ length y0 <> be_n m ->
  be_mul_vec m x y0 = Panic.
Proof.
  intros H. unfold be_mul_vec. destruct (Nat.eqb_spec (length x) (length y0)); [|reflexivity].
  cbn [assert_ mbind out_bind]. rewrite (proj2 (Nat.eqb_neq _ _)) by lia. reflexivity.
Qed.

Lemma add_scaled_spec (m : lenv A) (b : bienv A) (k : A) : le_wf m -> be_wf b -> lev_n m = be_n b ->
  (forall i, (i < be_n b)%nat -> (lsc m i <= (bnd b i).1)%nat) ->
  exists m' : lenv A, add_scaled_bienv m b k = Ret m' /\ le_wf m' /\ le_nnz m' = le_nnz m /\ lev_n m' = lev_n m /\
    forall r c, (c <= r)%nat -> el m' r c = el m r c + el b r c * k.
Proof.
  intros W Wb Hn Hsc. unfold add_scaled_bienv.
  rewrite (proj2 (Nat.eqb_eq _ _)) by congruence. cbn [assert_ mbind out_bind].
  match goal with |- exists x, foldM ?F _ _ = _ /\ _ => set (body := F) end.
  destruct (foldM_range_inv
    (fun q (m' : lenv A) => le_wf m' /\ le_nnz m' = le_nnz m /\ lev_n m' = lev_n m /\
       forall r c, (c <= r)%nat -> el m' r c = if (r <? q)%nat then el m r c + el b r c * k else el m r c)
    body 0 (lev_n m) m) as (m' & E & W' & Hz & Hn' & Hel).
  - lia.
  - split; [exact W|]. split; [reflexivity|]. split; [reflexivity|]. intros r c _.
    now rewrite (proj2 (Nat.ltb_ge r 0)) by lia.
  - intros i m1 Hi (W1 & Hz1 & Hn1 & Hel1). subst body. cbn beta.
    rewrite be_row_stored_ret by (assumption || lia). cbn [mbind out_bind fst snd].
    rewrite le_row_stored_ret by (assumption || lia). cbn [mbind out_bind fst snd].
    assert (Hs1 : lsc m1 i = lsc m i) by (unfold lsc; now rewrite Hz1).
    pose proof (Hsc i ltac:(lia)) as Hsci. pose proof (bw_bound b Wb i ltac:(lia)) as Hbb.
    rewrite (proj2 (Nat.ltb_ge _ _)) by lia.
    destruct (lsc_le m1 i W1 ltac:(lia)) as [Hq1 Hq2].
    set (o := ((bnd b i).1 - lsc m1 i)%nat).
    set (row := map (el m1 i) (seq (lsc m1 i) (nz (le_nnz m1) i))).
    set (brow := map (el b i) (seq (bnd b i).1 ((bnd b i).2 - (bnd b i).1))).
    assert (Hrl : length row = nz (le_nnz m1) i) by (subst row; now rewrite map_length, seq_length).
    destruct (le_row_write_ret m1 i (take o row ++ zip_axpy (drop o row) brow k)) as (m2 & E2 & W2 & Hz2 & Hn2 & Hel2).
    { exact W1. } { lia. }
    { rewrite app_length, zip_axpy_length, take_length, drop_length. lia. }
    exists m2. split; [exact E2|]. split; [exact W2|]. split; [congruence|]. split; [congruence|].
    intros r c Hcr. rewrite Hel2.
    destruct (Nat.eqb_spec r i) as [Ei|Hne]; cbn [andb].
    + subst r. rewrite (proj2 (Nat.ltb_lt i (S i))) by lia.
      assert (Hold : el m1 i c = el m i c).
      { rewrite Hel1 by exact Hcr. now rewrite (proj2 (Nat.ltb_ge i i)) by lia. }
      destruct (le_dom m1 i c) eqn:Hd.
      * apply le_dom_true in Hd. destruct Hd as (_ & _ & Hd).
        assert (Hrow : forall j, (j < nz (le_nnz m1) i)%nat -> vel row j = el m1 i (lsc m1 i + j)).
        { intros j Hj. apply vel_lookup. subst row. rewrite list_lookup_fmap, lookup_seq_lt by lia. reflexivity. }
        destruct (decide (c < (bnd b i).1)) as [Hlt|Hge].
        -- unfold vel. rewrite app_nth1 by (rewrite take_length; lia). rewrite nth_take by lia.
           fold (vel row (c - lsc m1 i)). rewrite Hrow by lia.
           replace (lsc m1 i + (c - lsc m1 i))%nat with c by lia. rewrite Hold.
           assert (el b i c = 0) as ->.
           { apply (law_nodom _ _ be_laws); [exact Wb|].
             destruct (be_dom b i c) eqn:Hdb; [|reflexivity]. apply be_dom_true in Hdb. lia. }
           ring.
        -- unfold vel. rewrite app_nth2 by (rewrite take_length; lia). rewrite take_length.
           fold (vel (zip_axpy (drop o row) brow k) (c - lsc m1 i - o `min` length row)).
           rewrite zip_axpy_vel by (rewrite drop_length; lia).
           assert (Hv : vel (drop o row) (c - lsc m1 i - o `min` length row) = el m i c).
           { unfold vel. rewrite nth_drop. fold (vel row (o + (c - lsc m1 i - o `min` length row))).
             rewrite Hrow by lia. rewrite <- Hold. f_equal. lia. }
           rewrite Hv. assert (Hbl : length brow = ((bnd b i).2 - (bnd b i).1)%nat)
             by (subst brow; now rewrite map_length, seq_length).
           rewrite Hbl.
           destruct (Nat.ltb_spec (c - lsc m1 i - o `min` length row) ((bnd b i).2 - (bnd b i).1)) as [Hin|Hout].
           ++ f_equal. f_equal. apply vel_lookup. subst brow. rewrite list_lookup_fmap, lookup_seq_lt by lia.
              cbn. do 2 f_equal. lia.
           ++ assert (el b i c = 0) as ->.
              { apply (law_nodom _ _ be_laws); [exact Wb|].
                destruct (be_dom b i c) eqn:Hdb; [|reflexivity]. apply be_dom_true in Hdb. lia. }
              ring.
      * rewrite Hold.
        assert (el b i c = 0) as ->; [|ring].
        apply (law_nodom _ _ be_laws); [exact Wb|].
        destruct (be_dom b i c) eqn:Hdb; [|reflexivity]. apply be_dom_true in Hdb.
        destruct (le_dom m1 i c) eqn:Hd'; [discriminate|]. exfalso.
        assert (le_dom m1 i c = true) by (apply le_dom_true; lia). congruence.
    + rewrite Hel1 by exact Hcr.
      destruct (Nat.ltb_spec r i), (Nat.ltb_spec r (S i)); try lia; reflexivity.
  - exists m'. split; [exact E|]. split; [exact W'|]. split; [exact Hz|]. split; [exact Hn'|].
    intros r c Hcr. rewrite Hel by exact Hcr. destruct (Nat.ltb_spec r (lev_n m)); [reflexivity|].
    rewrite (el_out _ _ be_laws b r c Wb); [ring|]. left. cbn. lia.
Qed.

Lemma add_scaled_refuses (m : lenv A) (b : bienv A) (k : A) i : le_wf m -> be_wf b ->
  (i < be_n b)%nat -> ((bnd b i).1 < lsc m i)%nat -> add_scaled_bienv m b k = Panic.
Proof.
  intros W Wb Hi Hlt. unfold add_scaled_bienv. destruct (Nat.eqb_spec (lev_n m) (be_n b)) as [Hn|]; [|reflexivity].
  cbn [assert_ mbind out_bind].
  match goal with |- foldM ?F _ _ = _ => set (body := F) end.
  assert (G : forall (l : list nat) (m1 : lenv A), le_wf m1 -> le_nnz m1 = le_nnz m -> lev_n m1 = lev_n m -> i ∈ l ->
             (forall j, j ∈ l -> j < be_n b)%nat -> foldM body l m1 = Panic).
  { induction l as [|j l IH]; intros m1 W1 Hz1 Hn1 Hin Hb; [now apply elem_of_nil in Hin|].
    cbn [foldM]. subst body. cbn beta.
    assert (Hj : (j < be_n b)%nat) by (apply Hb; left).
    rewrite be_row_stored_ret by assumption. cbn [mbind out_bind fst snd].
    rewrite le_row_stored_ret by (assumption || lia). cbn [mbind out_bind fst snd].
    destruct (Nat.ltb_spec (bnd b j).1 (lsc m1 j)); [reflexivity|].
    apply elem_of_cons in Hin as [->|Hin].
    - unfold lsc in *. rewrite Hz1 in *. lia.
    - set (o := ((bnd b j).1 - lsc m1 j)%nat).
      edestruct (le_row_write_ret m1 j) as (m2 & E2 & W2 & Hz2 & Hn2 & _); [exact W1|lia| |].
      2:{ rewrite E2. cbn [mbind out_bind]. apply IH; auto; try congruence.
          intros q Hq; apply Hb; now right. }
      rewrite app_length, zip_axpy_length, take_length, drop_length, map_length, seq_length. lia. }
  apply G; auto.
  - unfold range. apply elem_of_seq. lia.
  - intros j Hj. unfold range in Hj. apply elem_of_seq in Hj. lia.
Qed.
End bienv_field.
