(** Reasoning interface for matrix layouts: [ml_laws] says that a layout behaves like a
    function (row, column) -> value on well-formed states; derived rules for the
    provided methods of the trait. *)
From Verif Require Export Matrix.

(** Observed element: what reading (r,c) gives, 0 where nothing can be read. *)
Definition el {A : arith} {M : Type} `{MatrixLike A M} (m : M) (r c : nat) : A :=
  match mget m (r, c) with Ret (Some x) => x | _ => s0 end.

Definition in_shape (s : nat * nat) (r c : nat) : bool := (r <? s.1) && (c <? s.2).

Lemma in_shape_true s r c : in_shape s r c = true <-> r < s.1 /\ c < s.2.
Proof. unfold in_shape. rewrite andb_true_iff, !Nat.ltb_lt. reflexivity. Qed.

Lemma in_shape_false s r c : in_shape s r c = false <-> s.1 <= r \/ s.2 <= c.
Proof. unfold in_shape. rewrite andb_false_iff, !Nat.ltb_ge. reflexivity. Qed.

Record ml_laws {A : arith} {M : Type} `{ML : MatrixLike A M}
  (wf : M -> Prop) (dom : M -> nat -> nat -> bool) : Prop := MLLaws {
  law_get : forall m r c, wf m -> r < (mshape m).1 -> c < (mshape m).2 ->
    mget m (r, c) = Ret (Some (el m r c));
  law_get_out : forall m r c, wf m -> (mshape m).1 <= r \/ (mshape m).2 <= c ->
    mget m (r, c) = Ret None;
  law_mut : forall m r c f, wf m -> dom m r c = true ->
    exists m', mmut m (r, c) f = Ret (Some m') /\ wf m' /\ mshape m' = mshape m /\
      (forall r' c', dom m' r' c' = dom m r' c') /\
      (forall r' c', el m' r' c' = if (r' =? r) && (c' =? c) then f (el m r c) else el m r' c');
  law_mut_no : forall m r c f, wf m -> dom m r c = false -> mmut m (r, c) f = Ret None;
  law_dom : forall m r c, wf m -> dom m r c = true -> r < (mshape m).1 /\ c < (mshape m).2;
  law_nodom : forall m r c, wf m -> dom m r c = false -> el m r c = s0;
}.

(** the writable cells of a full (dense) layout *)
Definition full_dom {A : arith} {M : Type} `{ML : MatrixLike A M} (m : M) (r c : nat) : bool :=
  in_shape (mshape m) r c.

Section rules.
Context {A : arith} {M : Type} `{ML : MatrixLike A M}.
Context (wf : M -> Prop) (dom : M -> nat -> nat -> bool) (L : ml_laws wf dom).
Implicit Types m : M.

Lemma el_out m r c : wf m -> (mshape m).1 <= r \/ (mshape m).2 <= c -> el m r c = s0.
Proof. intros H Ho. unfold el. now rewrite (law_get_out _ _ L) by assumption. Qed.

Lemma index_ret m r c : wf m -> r < (mshape m).1 -> c < (mshape m).2 ->
  index m (r, c) = Ret (el m r c).
Proof. intros H Hr Hc. unfold index. now rewrite (law_get _ _ L) by assumption. Qed.

Lemma index_panic m r c : wf m -> (mshape m).1 <= r \/ (mshape m).2 <= c ->
  index m (r, c) = Panic.
Proof. intros H Ho. unfold index. now rewrite (law_get_out _ _ L) by assumption. Qed.

Lemma index_upd_ret m r c f : wf m -> dom m r c = true ->
  exists m', index_upd m (r, c) f = Ret m' /\ wf m' /\ mshape m' = mshape m /\
    (forall r' c', dom m' r' c' = dom m r' c') /\
    (forall r' c', el m' r' c' = if (r' =? r) && (c' =? c) then f (el m r c) else el m r' c').
Proof.
  intros H Hd. destruct (law_mut _ _ L m r c f H Hd) as (m' & E & H1).
  exists m'. unfold index_upd. rewrite E. split; [reflexivity|exact H1].
Qed.

Lemma index_set_ret m r c v : wf m -> dom m r c = true ->
  exists m', index_set m (r, c) v = Ret m' /\ wf m' /\ mshape m' = mshape m /\
    (forall r' c', dom m' r' c' = dom m r' c') /\
    (forall r' c', el m' r' c' = if (r' =? r) && (c' =? c) then v else el m r' c').
Proof. intros H Hd. exact (index_upd_ret m r c (fun _ => v) H Hd). Qed.

Lemma index_set_panic m r c v : wf m -> dom m r c = false -> index_set m (r, c) v = Panic.
Proof.
  intros H Hd. unfold index_set, index_upd. now rewrite (law_mut_no _ _ L) by assumption.
Qed.

Lemma put_ret m r c v : wf m ->
  exists m', put m (r, c) v = Ret m' /\ wf m' /\ mshape m' = mshape m /\
    (forall r' c', dom m' r' c' = dom m r' c') /\
    (forall r' c', el m' r' c' =
       if dom m r c && (r' =? r) && (c' =? c) then v else el m r' c').
Proof.
  intros H. unfold put. destruct (dom m r c) eqn:Hd.
  - destruct (law_mut _ _ L m r c (fun _ => v) H Hd) as (m' & -> & H1). exists m'. auto.
  - rewrite (law_mut_no _ _ L) by assumption. exists m. repeat split; auto.
Qed.

(** iterators *)
Lemma iter_while_ret (next : nat -> out (option A)) (g : nat -> A) n : forall k pos,
  (forall i, pos <= i < pos + k -> next i = Ret (Some (g i))) ->
  next (pos + k) = Ret None -> k < n ->
  iter_while next n pos = Ret (map g (seq pos k)).
Proof.
  induction n as [|n IH]; intros k pos Hs He Hk; [lia|].
  cbn [iter_while]. destruct k as [|k].
  - rewrite Nat.add_0_r in He. now rewrite He.
  - rewrite Hs by lia. cbn [mbind out_bind]. rewrite (IH k (S pos)).
    + reflexivity.
    + intros i Hi; apply Hs; lia.
    + now replace (S pos + k) with (pos + S k) by lia.
    + lia.
Qed.

Lemma row_ret m i : wf m -> i < (mshape m).1 ->
  row m i = Ret (map (fun c => el m i c) (seq 0 (mshape m).2)).
Proof.
  intros H Hi. unfold row. apply Nat.ltb_lt in Hi as Hi'. rewrite Hi'. cbn [assert_ mbind out_bind].
  apply (iter_while_ret _ (fun c => el m i c)); [|apply (law_get_out _ _ L); auto|lia].
  intros c Hc. apply (law_get _ _ L); auto; lia.
Qed.

Lemma row_panic m i : (mshape m).1 <= i -> row m i = Panic.
Proof. intros H. unfold row. apply Nat.ltb_ge in H. now rewrite H. Qed.

Lemma col_ret m i : wf m -> i < (mshape m).2 ->
  col m i = Ret (map (fun r => el m r i) (seq 0 (mshape m).1)).
Proof.
  intros H Hi. unfold col. apply Nat.ltb_lt in Hi as Hi'. rewrite Hi'. cbn [assert_ mbind out_bind].
  apply (iter_while_ret _ (fun r => el m r i)); [|apply (law_get_out _ _ L); auto|lia].
  intros c Hc. apply (law_get _ _ L); auto; lia.
Qed.

Lemma diag_ret m : wf m ->
  diag m = Ret (map (fun r => el m r r) (seq 0 ((mshape m).1 `min` (mshape m).2))).
Proof.
  intros H. unfold diag.
  apply (iter_while_ret _ (fun r => el m r r)); [|apply (law_get_out _ _ L); auto; lia|lia].
  intros c Hc. apply (law_get _ _ L); auto; lia.
Qed.

(** the row-major list of elements / positions of a shape *)
Definition rm_list {B} (R C : nat) (g : nat -> nat -> B) : list B :=
  concat (map (fun r => map (g r) (seq 0 C)) (seq 0 R)).

Lemma flat_while_ret m (Hwf : wf m) R C (HR : (mshape m).1 = R) (HC : (mshape m).2 = C) :
  forall n r c k, c < C -> r < R -> k = (C - c) + (R - S r) * C -> k < n ->
  flat_while m n r c =
    Ret (map (el m r) (seq c (C - c)) ++
         concat (map (fun r => map (el m r) (seq 0 C)) (seq (S r) (R - S r)))).
Proof.
  induction n as [|n IH]; intros r c k Hc Hr Hk Hn; [lia|].
  cbn [flat_while]. rewrite (law_get _ _ L) by (auto; lia). cbn [mbind out_bind].
  replace (C - c) with (S (C - S c)) by lia.
  rewrite HC. destruct (Nat.leb_spec C (S c)) as [Hle|Hlt].
  - replace (C - S c) with 0 by lia. cbn [seq map app].
    destruct (Nat.eq_dec (S r) R) as [He|He].
    + destruct n as [|n]; [lia|]. cbn [flat_while].
      rewrite (law_get_out _ _ L) by (auto; lia). cbn [mbind out_bind].
      replace (R - S r) with 0 by lia. reflexivity.
    + rewrite (IH (S r) 0 (C - 0 + (R - S (S r)) * C)); try lia.
      2:{ assert (R - S r = S (R - S (S r))) as E by lia. rewrite E in Hk. nia. }
      cbn [mbind out_bind]. replace (R - S r) with (S (R - S (S r))) by lia.
      rewrite Nat.sub_0_r. reflexivity.
  - rewrite (IH r (S c) (C - S c + (R - S r) * C)); try lia.
    cbn [mbind out_bind]. cbn [seq map app]. reflexivity.
Qed.

Lemma flat_ret m : wf m -> flat m = Ret (rm_list (mshape m).1 (mshape m).2 (el m)).
Proof.
  intros H. unfold flat, rm_list.
  destruct (Nat.eq_dec (mshape m).1 0) as [E1|E1]; [|destruct (Nat.eq_dec (mshape m).2 0) as [E2|E2]].
  - rewrite E1. cbn. rewrite (law_get_out _ _ L) by (auto; lia). reflexivity.
  - rewrite E2, Nat.mul_0_r. cbn. rewrite (law_get_out _ _ L) by (auto; lia). cbn.
    generalize (seq 0 (mshape m).1). intros l. induction l; [reflexivity|assumption].
  - rewrite (flat_while_ret m H _ _ eq_refl eq_refl _ 0 0 _ ltac:(lia) ltac:(lia) eq_refl) by nia.
    do 2 f_equal. destruct (mshape m) as [R C]; cbn in *. destruct R as [|R]; [lia|].
    cbn [seq map concat]. rewrite !Nat.sub_0_r. replace (S R - 1) with R by lia. reflexivity.
Qed.

(** swaps *)
Lemma swap_rows_ret m i j : wf m ->
  (forall c, c < (mshape m).2 -> dom m i c = true /\ dom m j c = true) ->
  exists m', swap_rows m i j = Ret m' /\ wf m' /\ mshape m' = mshape m /\
    (forall r c, dom m' r c = dom m r c) /\
    (forall r c, el m' r c = if c <? (mshape m).2 then
                             (if r =? j then el m i c else if r =? i then el m j c else el m r c)
                             else el m r c).
Proof.
  intros H Hdom. unfold swap_rows.
  destruct (foldM_range_inv
    (fun k m' => wf m' /\ mshape m' = mshape m /\ (forall r c, dom m' r c = dom m r c) /\
       (forall r c, el m' r c = if c <? k then
           (if r =? j then el m i c else if r =? i then el m j c else el m r c) else el m r c))
    (fun c m => temp ← index m (i, c); v ← index m (j, c);
                m1 ← index_set m (i, c) v; index_set m1 (j, c) temp)
    0 (mshape m).2 m) as (m' & E & HP); [lia|auto| |].
  - intros k mk Hk (Hw & Hs & Hd & He).
    destruct (Hdom k ltac:(lia)) as [Di Dj].
    assert (Ri : i < (mshape m).1) by (apply (law_dom _ _ L m i k); auto).
    assert (Rj : j < (mshape m).1) by (apply (law_dom _ _ L m j k); auto).
    rewrite !index_ret by (rewrite ?Hs; auto; lia). cbn [mbind out_bind].
    destruct (index_set_ret mk i k (el mk j k)) as (m1 & -> & Hw1 & Hs1 & Hd1 & He1);
      [auto|now rewrite Hd|]. cbn [mbind out_bind].
    destruct (index_set_ret m1 j k (el mk i k)) as (m2 & -> & Hw2 & Hs2 & Hd2 & He2);
      [auto|now rewrite Hd1, Hd|].
    exists m2. split; [reflexivity|]. split; [auto|]. split; [congruence|].
    split; [intros; now rewrite Hd2, Hd1, Hd|].
    intros r c. rewrite He2, He1, !He.
    destruct (Nat.eqb_spec c k) as [->|Hck].
    + replace (k <? S k) with true by (symmetry; apply Nat.ltb_lt; lia).
      replace (k <? k) with false by (symmetry; apply Nat.ltb_ge; lia).
      rewrite !andb_true_r. reflexivity.
    + rewrite !andb_false_r. replace (c <? S k) with (c <? k); [reflexivity|].
      destruct (Nat.ltb_spec c k), (Nat.ltb_spec c (S k)); auto; lia.
  - exists m'. tauto.
Qed.

Lemma mutate_row_ret m i f : wf m ->
  (forall c, c < (mshape m).2 -> dom m i c = true) ->
  exists m', mutate_row m i f = Ret m' /\ wf m' /\ mshape m' = mshape m /\
    (forall r c, dom m' r c = dom m r c) /\
    (forall r c, el m' r c = if (r =? i) && (c <? (mshape m).2) then f (el m r c) else el m r c).
Proof.
  intros H Hdom. unfold mutate_row.
  destruct (foldM_range_inv
    (fun k m' => wf m' /\ mshape m' = mshape m /\ (forall r c, dom m' r c = dom m r c) /\
       (forall r c, el m' r c = if (r =? i) && (c <? k) then f (el m r c) else el m r c))
    (fun c m => index_upd m (i, c) f) 0 (mshape m).2 m) as (m' & E & HP); [lia| | |].
  - split; [auto|]. split; [auto|]. split; [auto|]. intros r c.
    replace (c <? 0) with false by reflexivity. now rewrite andb_false_r.
  - intros k mk Hk (Hw & Hs & Hd & He).
    destruct (index_upd_ret mk i k f) as (m1 & -> & Hw1 & Hs1 & Hd1 & He1);
      [auto|rewrite Hd; apply Hdom; lia|].
    exists m1. split; [reflexivity|]. split; [auto|]. split; [congruence|].
    split; [intros; now rewrite Hd1, Hd|].
    intros r c. rewrite He1, !He.
    destruct (Nat.eqb_spec r i) as [->|]; cbn [andb]; [|reflexivity].
    destruct (Nat.eqb_spec c k) as [->|Hck].
    + replace (k <? S k) with true by (symmetry; apply Nat.ltb_lt; lia).
      rewrite Nat.eqb_refl.
      replace (k <? k) with false by (symmetry; apply Nat.ltb_ge; lia). reflexivity.
    + replace (c <? S k) with (c <? k); [reflexivity|].
      destruct (Nat.ltb_spec c k), (Nat.ltb_spec c (S k)); auto; lia.
  - exists m'. tauto.
Qed.

End rules.

(** facts on row-major lists *)
Lemma rm_list_length {B} R C (g : nat -> nat -> B) : length (rm_list R C g) = R * C.
Proof.
  unfold rm_list.
  enough (forall a, length (concat (map (fun r => map (g r) (seq 0 C)) (seq a R))) = R * C) by auto.
  induction R as [|R IH]; intros a; [reflexivity|].
  cbn [seq map concat]. rewrite app_length, map_length, seq_length, IH. lia.
Qed.

Lemma concat_lookup_uniform {B} (ll : list (list B)) C i j :
  (forall l, l ∈ ll -> length l = C) -> j < C ->
  concat ll !! (C * i + j) = (l ← ll !! i; l !! j).
Proof.
  revert i; induction ll as [|l ll IH]; intros i Hl Hj; [reflexivity|].
  cbn [concat]. assert (length l = C) as E by (apply Hl; left).
  destruct i as [|i].
  - rewrite Nat.mul_0_r, Nat.add_0_l, lookup_app_l by lia. reflexivity.
  - rewrite lookup_app_r by lia. replace (C * S i + j - length l) with (C * i + j) by lia.
    apply IH; [|lia]. intros l' Hl'; apply Hl; now right.
Qed.

Lemma rm_list_lookup {B} R C (g : nat -> nat -> B) r c :
  r < R -> c < C -> rm_list R C g !! (C * r + c) = Some (g r c).
Proof.
  intros Hr Hc. unfold rm_list. rewrite concat_lookup_uniform with (C:=C); [|set_unfold|assumption].
  - rewrite list_lookup_fmap, lookup_seq_lt by lia. cbn. rewrite list_lookup_fmap, lookup_seq_lt by lia.
    reflexivity.
  - intros l (x & -> & _). now rewrite map_length, seq_length.
Qed.

Lemma rm_list_ext {B} R C (g h : nat -> nat -> B) :
  (forall r c, r < R -> c < C -> g r c = h r c) -> rm_list R C g = rm_list R C h.
Proof.
  intros H. unfold rm_list. f_equal. apply map_ext_in. intros r Hr. apply in_seq in Hr.
  apply map_ext_in. intros c Hc. apply in_seq in Hc. apply H; lia.
Qed.

Lemma index_split R C i : i < R * C -> exists r c, r < R /\ c < C /\ i = C * r + c.
Proof.
  intros H. assert (C <> 0) by lia. exists (i / C), (i mod C).
  split; [apply Nat.div_lt_upper_bound; lia|].
  split; [apply Nat.mod_upper_bound; lia|]. apply Nat.div_mod. lia.
Qed.
