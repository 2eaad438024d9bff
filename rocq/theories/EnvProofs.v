(** Envelope storage: laws, conversions, triangular solves. *)
From Verif Require Export Sparse Rep TriProofs.

(** ** Consecutive segments of a buffer *)

Definition off (lens : list nat) (i : nat) : nat := sum_list (take i lens).
Definition nz (lens : list nat) (i : nat) : nat := nth i lens 0.

Lemma nz_lookup lens i : i < length lens -> lens !! i = Some (nz lens i).
Proof.
  intros H. destruct (lookup_lt_is_Some_2 lens i H) as [x E]. rewrite E. f_equal. symmetry.
  now apply nth_lookup_Some.
Qed.

Lemma off_S lens i : i < length lens -> off lens (S i) = off lens i + nz lens i.
Proof.
  intros H. unfold off. rewrite (take_S_r _ _ _ (nz_lookup lens i H)).
  rewrite sum_list_with_app. cbn. lia.
Qed.

Lemma off_cons x lens i : off (x :: lens) (S i) = x + off lens i.
Proof. reflexivity. Qed.

Lemma off_all lens : off lens (length lens) = sum_list lens.
Proof. unfold off. now rewrite take_ge. Qed.

Lemma off_le lens i j : i <= j -> off lens i <= off lens j.
Proof.
  intros H. unfold off.
  replace (take j lens) with (take i lens ++ take (j - i) (drop i lens)).
  - rewrite sum_list_with_app. lia.
  - rewrite <- (take_drop i (take j lens)), take_take, skipn_firstn_comm.
    now replace (i `min` j) with i by lia.
Qed.

Lemma seg_lt lens i k : i < length lens -> k < nz lens i -> off lens i + k < sum_list lens.
Proof.
  intros H Hk. rewrite <- off_all. pose proof (off_S lens i H).
  pose proof (off_le lens (S i) (length lens)). lia.
Qed.

Lemma seg_le lens i : i < length lens -> off lens i + nz lens i <= sum_list lens.
Proof.
  intros H. rewrite <- off_all. pose proof (off_S lens i H).
  pose proof (off_le lens (S i) (length lens)). lia.
Qed.

Lemma seg_inj lens i j a b : i < length lens -> j < length lens -> a < nz lens i -> b < nz lens j ->
  off lens i + a = off lens j + b -> i = j /\ a = b.
Proof.
  intros Hi Hj Ha Hb E. pose proof (off_S lens i Hi). pose proof (off_S lens j Hj).
  destruct (Nat.lt_trichotomy i j) as [Hlt|[->|Hlt]].
  - pose proof (off_le lens (S i) j). lia.
  - lia.
  - pose proof (off_le lens (S j) i). lia.
Qed.

Lemma map_off_lookup lens n i : i < n -> map (off lens) (seq 0 n) !! i = Some (off lens i).
Proof. intros H. rewrite list_lookup_fmap, lookup_seq_lt by lia. reflexivity. Qed.

Lemma slice_ret {B} (l : list B) a b : a <= b -> b <= length l -> slice l a b = Ret (take (b - a) (drop a l)).
Proof. intros H1 H2. unfold slice. rewrite (proj2 (Nat.leb_le a b)), (proj2 (Nat.leb_le b _)) by lia. reflexivity. Qed.

Lemma slice_vel {A : arith} (l : list A) a b : a <= b -> b <= length l ->
  slice l a b = Ret (map (vel l) (seq a (b - a))).
Proof.
  intros H1 H2. rewrite slice_ret by lia. f_equal. rewrite (list_vel l) at 1.
  rewrite <- fmap_drop, <- fmap_take, drop_seq, take_seq.
  replace ((b - a) `min` (length l - a)) with (b - a) by lia. now rewrite Nat.add_0_l.
Qed.

Lemma map_seq_shift {B} (f : nat -> B) a n : map f (seq a n) = map (fun k => f (a + k)) (seq 0 n).
Proof.
  revert a f; induction n as [|n IH]; intros a f; [reflexivity|].
  rewrite seq_S_app, map_app. rewrite (seq_S_app 0), map_app, IH. reflexivity.
Qed.

Lemma nth_drop {B} (l : list B) k j d : nth j (drop k l) d = nth (k + j) l d.
Proof. now rewrite !nth_lookup, lookup_drop. Qed.

Lemma nth_take {B} (l : list B) k j d : j < k -> nth j (take k l) d = nth j l d.
Proof. intros H. now rewrite !nth_lookup, lookup_take. Qed.

Section lenv.
Context {A : arith}.
Implicit Types m : lenv A.

(** first stored column of a row *)
Definition lsc m (i : nat) : nat := i + 1 - nz (le_nnz m) i.

Record le_wf m : Prop := LeWf {
  lw_n : lev_n m = length (le_nnz m);
  lw_bound : forall i, i < lev_n m -> 1 <= nz (le_nnz m) i <= i + 1;
  lw_starts : le_starts m = map (off (le_nnz m)) (seq 0 (lev_n m));
  lw_data : length (le_data m) = sum_list (le_nnz m)
}.

Definition le_dom m (r c : nat) : bool := (r <? lev_n m) && (c <=? r) && (lsc m r <=? c).

Lemma le_dom_true m r c : le_dom m r c = true <-> r < lev_n m /\ c <= r /\ lsc m r <= c.
Proof. unfold le_dom. rewrite !andb_true_iff, Nat.ltb_lt, !Nat.leb_le. tauto. Qed.

Lemma le_pos_dom m r c : le_wf m -> r < lev_n m -> c < lev_n m ->
  le_pos m (r, c) = Ret (if le_dom m r c then EData (off (le_nnz m) r + (c - lsc m r)) else EZero).
Proof.
  intros W Hr Hc. unfold le_pos, le_dom; cbn [fst snd].
  destruct (Nat.leb_spec (lev_n m) r), (Nat.leb_spec (lev_n m) c), (Nat.ltb_spec r (lev_n m)); try lia.
  cbn [orb andb]. destruct (Nat.ltb_spec r c), (Nat.leb_spec c r); try lia; [reflexivity|].
  cbn [andb]. rewrite (idx_lookup _ _ _ (nz_lookup (le_nnz m) r ltac:(rewrite <- (lw_n m W); lia))).
  cbn [mbind out_bind]. pose proof (lw_bound m W r ltac:(lia)).
  rewrite usub_ret by lia. cbn [mbind out_bind]. unfold lsc.
  destruct (Nat.ltb_spec c (r + 1 - nz (le_nnz m) r)), (Nat.leb_spec (r + 1 - nz (le_nnz m) r) c);
    try lia; [reflexivity|].
  rewrite (lw_starts m W), (idx_lookup _ _ _ (map_off_lookup (le_nnz m) (lev_n m) r Hr)). reflexivity.
Qed.

Lemma le_off_lt m r c : le_wf m -> le_dom m r c = true ->
  off (le_nnz m) r + (c - lsc m r) < length (le_data m).
Proof.
  intros W H. apply le_dom_true in H. rewrite (lw_data m W).
  apply seg_lt; [rewrite <- (lw_n m W); lia|]. pose proof (lw_bound m W r). unfold lsc in *. lia.
Qed.

Lemma le_off_inj m r c r' c' : le_wf m -> le_dom m r c = true -> le_dom m r' c' = true ->
  off (le_nnz m) r + (c - lsc m r) = off (le_nnz m) r' + (c' - lsc m r') -> r = r' /\ c = c'.
Proof.
  intros W H H' E. apply le_dom_true in H, H'. pose proof (lw_bound m W r). pose proof (lw_bound m W r').
  pose proof (lw_n m W). unfold lsc in *.
  apply seg_inj in E; [|lia..]. destruct E as [-> E]. lia.
Qed.

Lemma le_el m r c : le_wf m -> el m r c =
  if le_dom m r c then vel (le_data m) (off (le_nnz m) r + (c - lsc m r)) else s0.
Proof.
  intros W. unfold el; cbn. unfold le_get.
  destruct (decide (r < lev_n m)) as [Hr|Hr], (decide (c < lev_n m)) as [Hc|Hc].
  1:{ rewrite le_pos_dom by assumption. destruct (le_dom m r c) eqn:Hd; cbn; [|reflexivity].
      unfold get_unchecked. rewrite lookup_vel by now apply le_off_lt. reflexivity. }
  all: unfold le_pos; cbn [fst snd].
  all: destruct (Nat.leb_spec (lev_n m) r), (Nat.leb_spec (lev_n m) c); try lia; cbn.
  all: destruct (le_dom m r c) eqn:Hd; [|reflexivity]; apply le_dom_true in Hd; lia.
Qed.

Lemma le_laws : ml_laws (M := lenv A) le_wf le_dom.
Proof.
  constructor; cbn.
  - intros m r c W Hr Hc. rewrite le_el by assumption. unfold le_get. rewrite le_pos_dom by assumption.
    destruct (le_dom m r c) eqn:Hd; cbn; [|reflexivity].
    unfold get_unchecked. rewrite lookup_vel by now apply le_off_lt. reflexivity.
  - intros m r c W H. unfold le_get, le_pos; cbn [fst snd].
    destruct (Nat.leb_spec (lev_n m) r), (Nat.leb_spec (lev_n m) c); try lia; reflexivity.
  - intros m r c f W Hd. pose proof Hd as Hd'. apply le_dom_true in Hd'.
    unfold le_mut. rewrite le_pos_dom, Hd by (assumption || lia). cbn [mbind out_bind].
    unfold upd_unchecked. rewrite lookup_vel by now apply le_off_lt. cbn [mbind out_bind].
    eexists; split; [reflexivity|]. set (m' := LE _ _ _ _).
    assert (W' : le_wf m').
    { destruct W as [W1 W2 W3 W4]. constructor; cbn; try assumption. now rewrite insert_length. }
    split; [exact W'|]. split; [reflexivity|]. split; [reflexivity|].
    intros r' c'. rewrite (le_el m') by assumption. change (le_dom m' r' c') with (le_dom m r' c').
    change (lsc m') with (lsc m). cbn [le_nnz le_data m']. rewrite (le_el m r c), Hd by assumption.
    destruct (le_dom m r' c') eqn:Hd2.
    + rewrite vel_insert by now apply le_off_lt.
      rewrite (le_el m r' c'), Hd2 by assumption.
      destruct (Nat.eqb_spec (off (le_nnz m) r' + (c' - lsc m r')) (off (le_nnz m) r + (c - lsc m r))) as [E|E].
      * apply le_off_inj in E; [|assumption..]. destruct E as [-> ->]. now rewrite !Nat.eqb_refl.
      * destruct (Nat.eqb_spec r' r) as [->|], (Nat.eqb_spec c' c) as [->|]; try reflexivity.
        exfalso; now apply E.
    + rewrite (le_el m r' c'), Hd2 by assumption.
      destruct (Nat.eqb_spec r' r) as [->|], (Nat.eqb_spec c' c) as [->|]; try reflexivity. congruence.
  - intros m r c f W Hd. unfold le_mut.
    destruct (decide (r < lev_n m)) as [Hr|Hr], (decide (c < lev_n m)) as [Hc|Hc].
    1:{ rewrite le_pos_dom, Hd by assumption. reflexivity. }
    all: unfold le_pos; cbn [fst snd].
    all: destruct (Nat.leb_spec (lev_n m) r), (Nat.leb_spec (lev_n m) c); try lia; reflexivity.
  - intros m r c W Hd. apply le_dom_true in Hd. lia.
  - intros m r c W Hd. now rewrite le_el, Hd.
Qed.

(** ** Construction *)

Lemma from_envelope_starts (env : list nat) : (forall x, x ∈ env -> x <> 0) ->
  forall acc s, last acc = Some s ->
  foldM (fun x starts =>
           if x =? 0 then Panic
           else l ← unwrap (last starts); Ret (starts ++ [l + x])) env acc
  = Ret (acc ++ map (fun i => s + off env (S i)) (seq 0 (length env))).
Proof.
  induction env as [|x env IH]; intros H acc s Hl; cbn [foldM length seq map].
  - now rewrite app_nil_r.
  - rewrite (proj2 (Nat.eqb_neq x 0)) by (apply H; left). rewrite Hl. cbn [unwrap mbind out_bind].
    rewrite (IH ltac:(intros y Hy; apply H; now right) _ (s + x)) by apply last_snoc.
    f_equal. rewrite <- app_assoc. f_equal. cbn [app].
    f_equal; [rewrite off_cons; change (off env 0) with 0; lia|].
    rewrite <- seq_shift, map_map. apply map_ext. intros i. rewrite off_cons. lia.
Qed.

Lemma seq_take_map {B} (f : nat -> B) n : take n (map f (seq 0 (S n))) = map f (seq 0 n).
Proof. rewrite <- fmap_take, take_seq. now replace (n `min` S n) with n by lia. Qed.

Lemma from_envelope_ret (env : list nat) :
  (forall i, i < length env -> 1 <= nz env i <= i + 1) ->
  exists m : lenv A, from_envelope env = Ret m /\ le_wf m /\ le_nnz m = env /\
    forall r c, el m r c = s0.
Proof.
  intros H. unfold from_envelope.
  assert (existsb (fun rx : nat * nat => rx.1 + 1 <? rx.2) (zip (seq 0 (length env)) env) = false) as ->.
  { destruct (existsb _ _) eqn:E; [|reflexivity]. apply existsb_exists in E as ((r & x) & Hin & Hlt).
    cbn in Hlt. apply Nat.ltb_lt in Hlt. apply elem_of_list_In, elem_of_lookup_zip_with in Hin.
    destruct Hin as (i & y & z & [= -> ->] & Hi & Hx). apply lookup_seq in Hi as [-> Hi].
    pose proof (H i Hi). rewrite (nz_lookup env i Hi) in Hx. injection Hx as <-. lia. }
  rewrite from_envelope_starts with (s := 0); [|intros x Hx|reflexivity].
  2:{ apply elem_of_list_lookup in Hx as [i Hi]. pose proof (lookup_lt_Some _ _ _ Hi) as Hl.
      rewrite nz_lookup in Hi by assumption. injection Hi as <-. pose proof (H i Hl). lia. }
  cbn [mbind out_bind]. eexists; split; [reflexivity|].
  set (m := LE _ _ _ _).
  assert (W : le_wf m).
  { constructor; cbn; try assumption; try reflexivity; [|apply replicate_length].
    rewrite map_length, seq_length, Nat.sub_0_r.
    transitivity (take (length env) (map (off env) (seq 0 (S (length env))))); [|apply seq_take_map].
    f_equal. cbn [seq map]. f_equal. rewrite <- seq_shift, map_map. reflexivity. }
  split; [exact W|]. split; [reflexivity|].
  intros r c. rewrite le_el by assumption. destruct (le_dom m r c); [|reflexivity].
  apply vel_replicate.
Qed.

Lemma foldM_panic {B S} (f : B -> S -> out S) (l : list B) x : x ∈ l ->
  (forall y s, y ∈ l -> f y s = Panic \/ exists s', f y s = Ret s') ->
  (forall s, f x s = Panic) -> forall s, foldM f l s = Panic.
Proof.
  induction l as [|y l IH]; intros Hx Hf Hp s; [now apply elem_of_nil in Hx|].
  cbn [foldM]. apply elem_of_cons in Hx as [->|Hx]; [now rewrite Hp|].
  destruct (Hf y s ltac:(left)) as [->|(s' & ->)]; [reflexivity|]. cbn [mbind out_bind].
  apply IH; auto. intros z s2 Hz; apply Hf; now right.
Qed.

(** rejected: an empty row, or a row reaching past the diagonal *)
Lemma from_envelope_panic (env : list nat) i : i < length env ->
  nz env i = 0 \/ i + 1 < nz env i -> from_envelope (A := A) env = Panic.
Proof.
  intros Hi [H|H]; unfold from_envelope.
  - destruct (existsb _ _); [reflexivity|].
    enough (foldM (fun x starts => if x =? 0 then Panic
                     else l ← unwrap (last starts); Ret (starts ++ [l + x])) env [0] = Panic) as ->
      by reflexivity.
    apply foldM_panic with (x := 0).
    + apply elem_of_list_lookup. exists i. rewrite <- H. now apply nz_lookup.
    + intros y s _. destruct (y =? 0); [now left|]. destruct (last s); [right; eexists; reflexivity|now left].
    + reflexivity.
  - assert (existsb (fun rx : nat * nat => rx.1 + 1 <? rx.2) (zip (seq 0 (length env)) env) = true) as ->;
      [|reflexivity].
    apply existsb_exists. exists (i, nz env i). split; [|cbn; now apply Nat.ltb_lt].
    apply elem_of_list_In, elem_of_lookup_zip_with. exists i, i, (nz env i).
    split; [reflexivity|]. split; [now apply lookup_seq_lt|]. now apply nz_lookup.
Qed.

(** ** Stored rows *)

Lemma le_row_pos_ret m i : le_wf m -> i < lev_n m ->
  le_row_pos m i = Ret (off (le_nnz m) i, off (le_nnz m) i + nz (le_nnz m) i - 1, lsc m i).
Proof.
  intros W Hi. unfold le_row_pos.
  rewrite (lw_starts m W), (idx_lookup _ _ _ (map_off_lookup _ _ i Hi)). cbn [mbind out_bind].
  rewrite (idx_lookup _ _ _ (nz_lookup (le_nnz m) i ltac:(rewrite <- (lw_n m W); lia))). cbn [mbind out_bind].
  pose proof (lw_bound m W i Hi). rewrite !usub_ret by lia. reflexivity.
Qed.

Lemma le_stored_bound m i : le_wf m -> i < lev_n m ->
  off (le_nnz m) i + nz (le_nnz m) i <= length (le_data m).
Proof.
  intros W Hi. rewrite (lw_data m W). apply seg_le. rewrite <- (lw_n m W). exact Hi.
Qed.

Lemma le_row_stored_ret m i : le_wf m -> i < lev_n m ->
  le_row_stored m i = Ret (lsc m i, map (el m i) (seq (lsc m i) (nz (le_nnz m) i))).
Proof.
  intros W Hi. unfold le_row_stored. rewrite le_row_pos_ret by assumption. cbn [mbind out_bind].
  pose proof (lw_bound m W i Hi). pose proof (le_stored_bound m i W Hi).
  rewrite slice_vel by lia. cbn [mbind out_bind]. do 2 f_equal.
  replace (off (le_nnz m) i + nz (le_nnz m) i - 1 + 1 - off (le_nnz m) i) with (nz (le_nnz m) i) by lia.
  rewrite map_seq_shift, (map_seq_shift _ (lsc m i)). apply map_ext_in. intros k Hk. apply in_seq in Hk.
  rewrite le_el by assumption.
  assert (le_dom m i (lsc m i + k) = true) as ->.
  { apply le_dom_true. unfold lsc. lia. }
  f_equal. lia.
Qed.

Lemma le_row_write_ret m i (row' : list A) : le_wf m -> i < lev_n m -> length row' = nz (le_nnz m) i ->
  exists m', le_row_write m i row' = Ret m' /\ le_wf m' /\ le_nnz m' = le_nnz m /\ lev_n m' = lev_n m /\
    (forall r c, el m' r c = if (r =? i) && le_dom m i c then vel row' (c - lsc m i) else el m r c).
Proof.
  intros W Hi Hl. unfold le_row_write. rewrite le_row_pos_ret by assumption. cbn [mbind out_bind].
  pose proof (lw_bound m W i Hi). pose proof (le_stored_bound m i W Hi).
  rewrite slice_ret by lia. cbn [mbind out_bind].
  rewrite take_length, drop_length.
  rewrite (proj2 (Nat.eqb_eq (length row') _)) by lia. cbn [assert_ mbind out_bind].
  eexists; split; [reflexivity|]. set (m' := LE _ _ _ _).
  assert (Hlen : length (le_data m') = length (le_data m)).
  { cbn. rewrite !app_length, take_length, drop_length. lia. }
  assert (W' : le_wf m').
  { destruct W as [W1 W2 W3 W4]. constructor; try assumption. change (le_nnz m') with (le_nnz m). lia. }
  split; [exact W'|]. split; [reflexivity|]. split; [reflexivity|].
  assert (Hv : forall j, vel (le_data m') j =
     if (off (le_nnz m) i <=? j) && (j <? off (le_nnz m) i + nz (le_nnz m) i)
     then vel row' (j - off (le_nnz m) i) else vel (le_data m) j).
  { intros j. unfold vel; cbn [le_data m'].
    destruct (Nat.leb_spec (off (le_nnz m) i) j), (Nat.ltb_spec j (off (le_nnz m) i + nz (le_nnz m) i)); cbn.
    - rewrite app_nth2; rewrite take_length; [|lia].
      rewrite app_nth1 by lia. f_equal. lia.
    - rewrite app_nth2; rewrite take_length; [|lia]. rewrite app_nth2 by lia.
      rewrite nth_drop. f_equal. lia.
    - rewrite app_nth1 by (rewrite take_length; lia). apply nth_take. lia.
    - lia. }
  intros r c. rewrite (le_el m'), (le_el m) by assumption.
  change (le_dom m') with (le_dom m). change (le_nnz m') with (le_nnz m). change (lsc m') with (lsc m).
  rewrite Hv. destruct (Nat.eqb_spec r i) as [->|Hne]; cbn [andb].
  - destruct (le_dom m i c) eqn:Hd; [|reflexivity]. apply le_dom_true in Hd. unfold lsc in *.
    destruct (Nat.leb_spec (off (le_nnz m) i) (off (le_nnz m) i + (c - (i + 1 - nz (le_nnz m) i)))),
      (Nat.ltb_spec (off (le_nnz m) i + (c - (i + 1 - nz (le_nnz m) i))) (off (le_nnz m) i + nz (le_nnz m) i));
      try lia. cbn. f_equal. lia.
  - destruct (le_dom m r c) eqn:Hd; [|reflexivity]. apply le_dom_true in Hd.
    pose proof (lw_bound m W r ltac:(lia)). pose proof (lw_n m W).
    destruct (Nat.leb_spec (off (le_nnz m) i) (off (le_nnz m) r + (c - lsc m r))),
      (Nat.ltb_spec (off (le_nnz m) r + (c - lsc m r)) (off (le_nnz m) i + nz (le_nnz m) i)); try reflexivity.
    exfalso. apply Hne.
    apply (seg_inj (le_nnz m) r i (c - lsc m r) (off (le_nnz m) r + (c - lsc m r) - off (le_nnz m) i));
      unfold lsc in *; lia.
Qed.
End lenv.
