(** Proofs about dense matrices: histories, iteration, equality, arithmetic. *)
From Verif Require Export BufferLaws Sums.

(** ** More trait rules needed for histories *)
Section more_rules.
Context {A : arith} {M : Type} `{ML : MatrixLike A M}.
Context (wf : M -> Prop) (dom : M -> nat -> nat -> bool) (L : ml_laws wf dom).

Lemma swap_cols_ret (m : M) i j : wf m ->
  (forall r, r < (mshape m).1 -> dom m r i = true /\ dom m r j = true) ->
  exists m', swap_cols m i j = Ret m' /\ wf m' /\ mshape m' = mshape m /\
    (forall r c, dom m' r c = dom m r c) /\
    (forall r c, el m' r c = if r <? (mshape m).1 then
                             (if c =? j then el m r i else if c =? i then el m r j else el m r c)
                             else el m r c).
Proof.
  intros H Hdom. unfold swap_cols.
  destruct (foldM_range_inv
    (fun k m' => wf m' /\ mshape m' = mshape m /\ (forall r c, dom m' r c = dom m r c) /\
       (forall r c, el m' r c = if r <? k then
           (if c =? j then el m r i else if c =? i then el m r j else el m r c) else el m r c))
    (fun r m => temp ← index m (r, i); v ← index m (r, j);
                m1 ← index_set m (r, i) v; index_set m1 (r, j) temp)
    0 (mshape m).1 m) as (m' & E & HP); [lia|auto| |].
  - intros k mk Hk (Hw & Hs & Hd & He).
    destruct (Hdom k ltac:(lia)) as [Di Dj].
    assert (Ri : i < (mshape m).2) by (apply (law_dom _ _ L m k i); auto).
    assert (Rj : j < (mshape m).2) by (apply (law_dom _ _ L m k j); auto).
    rewrite !(index_ret _ _ L) by (rewrite ?Hs; auto; lia). cbn [mbind out_bind].
    destruct (index_set_ret _ _ L mk k i (el mk k j)) as (m1 & -> & Hw1 & Hs1 & Hd1 & He1);
      [auto|now rewrite Hd|]. cbn [mbind out_bind].
    destruct (index_set_ret _ _ L m1 k j (el mk k i)) as (m2 & -> & Hw2 & Hs2 & Hd2 & He2);
      [auto|now rewrite Hd1, Hd|].
    exists m2. split; [reflexivity|]. split; [auto|]. split; [congruence|].
    split; [intros; now rewrite Hd2, Hd1, Hd|].
    intros r c. rewrite He2, He1, !He.
    destruct (Nat.eqb_spec r k) as [->|Hck].
    + replace (k <? S k) with true by (symmetry; apply Nat.ltb_lt; lia).
      replace (k <? k) with false by (symmetry; apply Nat.ltb_ge; lia). reflexivity.
    + cbn. replace (r <? S k) with (r <? k); [reflexivity|].
      destruct (Nat.ltb_spec r k), (Nat.ltb_spec r (S k)); auto; lia.
  - exists m'. tauto.
Qed.

Lemma swap_rows_panic (m : M) i j : wf m -> (mshape m).2 <> 0 ->
  (mshape m).1 <= i \/ (mshape m).1 <= j -> swap_rows m i j = Panic.
Proof.
  intros H Hc Ho. unfold swap_rows, range. rewrite Nat.sub_0_r.
  destruct ((mshape m).2) as [|C] eqn:EC; [lia|]. cbn [seq foldM].
  destruct (decide ((mshape m).1 <= i)).
  - rewrite (index_panic _ _ L m i 0) by (first [assumption|lia]). reflexivity.
  - rewrite (index_ret _ _ L m i 0) by (first [assumption|lia]). cbn [mbind out_bind].
    rewrite (index_panic _ _ L m j 0) by (first [assumption|lia]). reflexivity.
Qed.

Lemma swap_cols_panic (m : M) i j : wf m -> (mshape m).1 <> 0 ->
  (mshape m).2 <= i \/ (mshape m).2 <= j -> swap_cols m i j = Panic.
Proof.
  intros H Hc Ho. unfold swap_cols, range. rewrite Nat.sub_0_r.
  destruct ((mshape m).1) as [|C] eqn:EC; [lia|]. cbn [seq foldM].
  destruct (decide ((mshape m).2 <= i)).
  - rewrite (index_panic _ _ L m 0 i) by (first [assumption|lia]). reflexivity.
  - rewrite (index_ret _ _ L m 0 i) by (first [assumption|lia]). cbn [mbind out_bind].
    rewrite (index_panic _ _ L m 0 j) by (first [assumption|lia]). reflexivity.
Qed.

Lemma indices_while_ret rows cols : forall n r c, c < cols -> r < rows ->
  (cols - c) + (rows - S r) * cols < n ->
  indices_while rows cols n r c =
    Ret (map (fun c => (r, c)) (seq c (cols - c)) ++
         concat (map (fun r => map (fun c => (r, c)) (seq 0 cols)) (seq (S r) (rows - S r)))).
Proof.
  induction n as [|n IH]; intros r c Hc Hr Hn; [now apply Nat.nlt_0_r in Hn|].
  cbn [indices_while]. rewrite (proj2 (Nat.leb_gt rows r)) by lia.
  replace (cols - c) with (S (cols - S c)) by lia.
  destruct (Nat.leb_spec cols (S c)) as [Hle|Hlt].
  - replace (cols - S c) with 0 by lia. cbn [seq map app].
    destruct (Nat.eq_dec (S r) rows) as [He|He].
    + destruct n as [|n]; [lia|]. cbn [indices_while]. rewrite (proj2 (Nat.leb_le rows (S r))) by lia.
      cbn [mbind out_bind]. replace (rows - S r) with 0 by lia. reflexivity.
    + rewrite (IH (S r) 0); try lia.
      2:{ assert (rows - S r = S (rows - S (S r))) as E by lia. rewrite E in Hn. nia. }
      cbn [mbind out_bind]. replace (rows - S r) with (S (rows - S (S r))) by lia.
      rewrite Nat.sub_0_r. reflexivity.
  - rewrite (IH r (S c)); try lia. cbn [mbind out_bind]. reflexivity.
Qed.

Lemma indices_ret (m : M) : (mshape m).2 <> 0 ->
  indices m = Ret (rm_list (mshape m).1 (mshape m).2 (fun r c => (r, c))).
Proof.
  intros Hc. unfold indices. rewrite Nat.max_l by lia. unfold rm_list.
  destruct (Nat.eq_dec (mshape m).1 0) as [E1|E1].
  - rewrite E1. reflexivity.
  - rewrite indices_while_ret; try lia.
    2:{ destruct ((mshape m).1) as [|R]; [lia|]. nia. }
    do 2 f_equal. destruct (mshape m) as [R C]; cbn in *. destruct R as [|R]; [lia|].
    cbn [seq map concat]. rewrite !Nat.sub_0_r. replace (S R - 1) with R by lia. reflexivity.
Qed.
End more_rules.

(** ** Histories of a dense matrix (C01) *)

Inductive dense_op (A : arith) : Type :=
| OpSet (r c : nat) (v : A)        (* m[(r,c)] = v *)
| OpPut (r c : nat) (v : A)        (* m.put((r,c), v) *)
| OpTranspose                      (* m.transpose() *)
| OpSwapRows (i j : nat)           (* m.swap_rows(i, j) *)
| OpSwapCols (i j : nat).          (* m.swap_cols(i, j) *)
Global Arguments OpSet {A} _ _ _.
Global Arguments OpPut {A} _ _ _.
Global Arguments OpTranspose {A}.
Global Arguments OpSwapRows {A} _ _.
Global Arguments OpSwapCols {A} _ _.

Section history.
Context {A : arith}.

Definition dense_step (o : dense_op A) (m : lm A) : out (lm A) :=
  match o with
  | OpSet r c v => index_set m (r, c) v
  | OpPut r c v => put m (r, c) v
  | OpTranspose => mtranspose m
  | OpSwapRows i j => swap_rows m i j
  | OpSwapCols i j => swap_cols m i j
  end.
Definition dense_run (l : list (dense_op A)) (m : lm A) : out (lm A) := foldM dense_step l m.

(** specification: rows, columns and a table *)
Record table := Table { t_rows : nat; t_cols : nat; t_val : nat -> nat -> A }.

Definition table_write (t : table) r c v : table :=
  Table (t_rows t) (t_cols t)
        (fun r' c' => if decide (r' = r /\ c' = c) then v else t_val t r' c').

(** [None] = the operation is refused (panics) *)
Definition table_step (o : dense_op A) (t : table) : option table :=
  match o with
  | OpSet r c v => if decide (r < t_rows t /\ c < t_cols t) then Some (table_write t r c v) else None
  | OpPut r c v => if decide (r < t_rows t /\ c < t_cols t) then Some (table_write t r c v) else Some t
  | OpTranspose => Some (Table (t_cols t) (t_rows t) (fun r c => t_val t c r))
  | OpSwapRows i j =>
    if decide (t_cols t = 0) then Some t else
    if decide (i < t_rows t /\ j < t_rows t) then
      Some (Table (t_rows t) (t_cols t)
        (fun r c => if decide (r = i) then t_val t j c else if decide (r = j) then t_val t i c
                    else t_val t r c))
    else None
  | OpSwapCols i j =>
    if decide (t_rows t = 0) then Some t else
    if decide (i < t_cols t /\ j < t_cols t) then
      Some (Table (t_rows t) (t_cols t)
        (fun r c => if decide (c = i) then t_val t r j else if decide (c = j) then t_val t r i
                    else t_val t r c))
    else None
  end.
Fixpoint table_run (l : list (dense_op A)) (t : table) : option table :=
  match l with
  | [] => Some t
  | o :: l' => match table_step o t with Some t' => table_run l' t' | None => None end
  end.

(** the matrix shows exactly the table *)
Definition shows (m : lm A) (t : table) : Prop :=
  mshape m = (t_rows t, t_cols t) /\
  forall r c, mget m (r, c) =
    Ret (if decide (r < t_rows t /\ c < t_cols t) then Some (t_val t r c) else None).

Lemma shows_iff (m : lm A) t : lm_wf m ->
  shows m t <-> mshape m = (t_rows t, t_cols t) /\
    forall r c, r < t_rows t -> c < t_cols t -> el m r c = t_val t r c.
Proof.
  intros H. unfold shows. split.
  - intros [Hs Hg]. split; [exact Hs|]. intros r c Hr Hc. unfold el. rewrite Hg.
    now rewrite decide_True by auto.
  - intros [Hs He]. split; [exact Hs|]. intros r c. destruct (decide _) as [[Hr Hc]|Hn].
    + rewrite (law_get _ _ lm_laws) by (rewrite ?Hs; auto). now rewrite He.
    + apply (law_get_out _ _ lm_laws); [exact H|]. rewrite Hs. cbn. lia.
Qed.

Lemma dense_step_spec o (m : lm A) t : lm_wf m -> shows m t ->
  match table_step o t with
  | Some t' => exists m', dense_step o m = Ret m' /\ lm_wf m' /\ shows m' t'
  | None => dense_step o m = Panic
  end.
Proof.
  intros H Hsh. apply shows_iff in Hsh as [Hs He]; [|exact H].
  assert (Hdom : forall r c, full_dom m r c = true <-> r < t_rows t /\ c < t_cols t).
  { intros r c. unfold full_dom. rewrite in_shape_true, Hs. reflexivity. }
  assert (Hdomf : forall r c, ~ (r < t_rows t /\ c < t_cols t) -> full_dom m r c = false).
  { intros r c Hn. apply not_true_iff_false. rewrite Hdom. exact Hn. }
  destruct o as [r c v|r c v| |i j|i j]; cbn [table_step dense_step].
  - destruct (decide _) as [Hin|Hout].
    + destruct (index_set_ret _ _ lm_laws m r c v) as (m' & E & Hw & Hs' & _ & He');
        [auto|now apply Hdom|].
      exists m'. split; [exact E|]. split; [exact Hw|]. apply shows_iff; [exact Hw|].
      split; [rewrite Hs'; exact Hs|]. cbn. intros r' c' Hr' Hc'. rewrite He', He by assumption.
      destruct (Nat.eqb_spec r' r), (Nat.eqb_spec c' c); cbn; destruct (decide _); try reflexivity; lia.
    + apply (index_set_panic _ _ lm_laws); auto.
  - destruct (put_ret _ _ lm_laws m r c v H) as (m' & E & Hw & Hs' & _ & He').
    destruct (decide _) as [Hin|Hout].
    + exists m'. split; [exact E|]. split; [exact Hw|]. apply shows_iff; [exact Hw|].
      split; [rewrite Hs'; exact Hs|]. cbn. intros r' c' Hr' Hc'. rewrite He', He by assumption.
      rewrite (proj2 (Hdom r c) Hin). cbn.
      destruct (Nat.eqb_spec r' r), (Nat.eqb_spec c' c); cbn; destruct (decide _); try reflexivity; lia.
    + exists m'. split; [exact E|]. split; [exact Hw|]. apply shows_iff; [exact Hw|].
      split; [rewrite Hs'; exact Hs|]. cbn. intros r' c' Hr' Hc'. rewrite He', He by assumption.
      rewrite (Hdomf r c Hout). reflexivity.
  - exists (lm_transpose m). split; [reflexivity|]. split; [now apply lm_transpose_wf|].
    apply shows_iff; [now apply lm_transpose_wf|]. cbn. cbn in Hs. split; [congruence|].
    intros r c Hr Hc. rewrite lm_transpose_el. auto.
  - destruct (decide (t_cols t = 0)) as [Hz|Hz]; [|destruct (decide _) as [Hin|Hout]].
    + exists m. split.
      * unfold swap_rows. rewrite Hs. cbn. rewrite Hz. reflexivity.
      * split; [exact H|]. apply shows_iff; auto.
    + destruct (swap_rows_ret _ _ lm_laws m i j H) as (m' & E & Hw & Hs' & _ & He').
      { intros c Hc. rewrite Hs in Hc. cbn in Hc. rewrite !Hdom. lia. }
      exists m'. split; [exact E|]. split; [exact Hw|]. apply shows_iff; [exact Hw|].
      split; [rewrite Hs'; exact Hs|]. cbn. intros r c Hr Hc. rewrite He', Hs. cbn.
      rewrite (proj2 (Nat.ltb_lt _ _) Hc). rewrite !He by lia.
      destruct (Nat.eqb_spec r j), (decide (r = i)), (Nat.eqb_spec r i), (decide (r = j));
        subst; try reflexivity; lia.
    + apply (swap_rows_panic _ _ lm_laws); [exact H|rewrite Hs; cbn; lia|rewrite Hs; cbn; lia].
  - destruct (decide (t_rows t = 0)) as [Hz|Hz]; [|destruct (decide _) as [Hin|Hout]].
    + exists m. split.
      * unfold swap_cols. rewrite Hs. cbn. rewrite Hz. reflexivity.
      * split; [exact H|]. apply shows_iff; auto.
    + destruct (swap_cols_ret _ _ lm_laws m i j H) as (m' & E & Hw & Hs' & _ & He').
      { intros c Hc. rewrite Hs in Hc. cbn in Hc. rewrite !Hdom. lia. }
      exists m'. split; [exact E|]. split; [exact Hw|]. apply shows_iff; [exact Hw|].
      split; [rewrite Hs'; exact Hs|]. cbn. intros r c Hr Hc. rewrite He', Hs. cbn.
      rewrite (proj2 (Nat.ltb_lt _ _) Hr). rewrite !He by lia.
      destruct (Nat.eqb_spec c j), (decide (c = i)), (Nat.eqb_spec c i), (decide (c = j));
        subst; try reflexivity; lia.
    + apply (swap_cols_panic _ _ lm_laws); [exact H|rewrite Hs; cbn; lia|rewrite Hs; cbn; lia].
Qed.

Lemma dense_run_spec l : forall (m : lm A) t, lm_wf m -> shows m t ->
  match table_run l t with
  | Some t' => exists m', dense_run l m = Ret m' /\ shows m' t'
  | None => dense_run l m = Panic
  end.
Proof.
  induction l as [|o l IH]; intros m t H Hs; cbn.
  - eauto.
  - pose proof (dense_step_spec o m t H Hs) as Hst. destruct (table_step o t) as [t'|].
    + destruct Hst as (m' & E & Hw & Hs'). unfold dense_run. cbn [foldM]. rewrite E. cbn [mbind out_bind].
      apply IH; assumption.
    + unfold dense_run. cbn [foldM]. now rewrite Hst.
Qed.

(** creation by from_flat *)
Lemma dense_create_spec R C (d : list A) : length d = R * C ->
  exists m, mfrom_flat (R, C) d = Ret m /\ lm_wf m /\
    shows m (Table R C (fun r c => nth (C * r + c) d s0)).
Proof.
  intros Hl. destruct (lm_from_flat_ret R C d Hl) as (m & E & Hw & Hs & He).
  exists m. split; [exact E|]. split; [exact Hw|]. apply shows_iff; [exact Hw|].
  split; [exact Hs|]. cbn. intros r c Hr Hc. symmetry. apply nth_lookup_Some. symmetry. auto.
Qed.

Lemma dense_zeros_shows R C : shows (lm_zeros (A:=A) (R, C)) (Table R C (fun _ _ => s0)).
Proof.
  apply shows_iff; [apply lm_zeros_wf|]. split; [reflexivity|]. intros; apply lm_zeros_el.
Qed.
End history.
Global Arguments table : clear implicits.

(** ** Iteration and equality (C04) *)
Section eq.
Context {A : arith}.

Lemma data_eqb_iff (x y : list A) :
  data_eqb x y = true <-> length x = length y /\
    forall i a b, x !! i = Some a -> y !! i = Some b -> seqb a b = true.
Proof.
  revert y; induction x as [|a x IH]; intros [|b y]; cbn; try (split; [discriminate|intros []; lia]).
  - split; [|reflexivity]. intros _. split; [reflexivity|]. intros i a b; discriminate.
  - rewrite andb_true_iff, IH. split.
    + intros [Hab [Hl H]]. split; [lia|]. intros [|i] a' b'; cbn; [congruence|apply H].
    + intros [Hl H]. split; [apply (H 0 a b); reflexivity|]. split; [lia|].
      intros i a' b' Ha Hb. exact (H (S i) a' b' Ha Hb).
Qed.

Lemma forallb_zip (f : A * A -> bool) (x y : list A) :
  forallb f (zip x y) = true <-> forall i a b, x !! i = Some a -> y !! i = Some b -> f (a, b) = true.
Proof.
  revert y; induction x as [|a x IH]; intros y.
  - cbn. split; [|reflexivity]. intros _ i a b; discriminate.
  - destruct y as [|b y]; cbn; [split; [|reflexivity]; intros _ i ? ? _; discriminate|].
    rewrite andb_true_iff, IH. split.
    + intros [Hab H] [|i] a' b'; cbn; [congruence|apply H].
    + intros H. split; [apply (H 0 a b); reflexivity|]. intros i a' b' Ha Hb. exact (H (S i) a' b' Ha Hb).
Qed.

Lemma rm_list_lookup_Some {B} R C (g : nat -> nat -> B) i x :
  rm_list R C g !! i = Some x -> exists r c, r < R /\ c < C /\ i = C * r + c /\ x = g r c.
Proof.
  intros H. assert (i < R * C) as Hi.
  { rewrite <- (rm_list_length R C g). apply lookup_lt_Some with x. exact H. }
  destruct (index_split R C i Hi) as (r & c & Hr & Hc & ->). exists r, c.
  rewrite rm_list_lookup in H by assumption. repeat split; auto. congruence.
Qed.

(** the stored data in terms of elements *)
Lemma lm_data_el (m : lm A) i x : lm_wf m -> lm_data m !! i = Some x ->
  exists r c, r < lm_r m /\ c < lm_c m /\ lm_pos m (r, c) = Some i /\ el m r c = x.
Proof.
  intros H Hx. assert (i < lm_r m * lm_c m) as Hi by (rewrite <- H; eapply lookup_lt_Some; eauto).
  destruct (lm_rm m) eqn:Erm.
  - destruct (index_split _ _ _ Hi) as (r & c & Hr & Hc & ->). exists r, c.
    assert (E : lm_pos m (r, c) = Some (lm_c m * r + c)) by (rewrite lm_pos_some, Erm by assumption; reflexivity).
    repeat split; auto. eapply lm_el_pos; eauto.
  - rewrite Nat.mul_comm in Hi. destruct (index_split _ _ _ Hi) as (c & r & Hc & Hr & ->). exists r, c.
    assert (E : lm_pos m (r, c) = Some (lm_r m * c + r)) by (rewrite lm_pos_some, Erm by assumption; reflexivity).
    repeat split; auto. eapply lm_el_pos; eauto.
Qed.

Lemma lm_el_data (m : lm A) r c : lm_wf m -> r < lm_r m -> c < lm_c m ->
  exists i, lm_pos m (r, c) = Some i /\ lm_data m !! i = Some (el m r c).
Proof.
  intros H Hr Hc. pose proof (lm_pos_some m r c Hr Hc) as E.
  destruct (lookup_lt_is_Some_2 (lm_data m) _ (lm_pos_lt _ _ _ _ H E)) as [x Ex].
  eexists; split; [exact E|]. rewrite Ex. f_equal. symmetry. eapply lm_el_pos; eauto.
Qed.

Lemma lm_eq_spec (a b : lm A) : lm_wf a -> lm_wf b ->
  exists v, lm_eq a b = Ret v /\
    (v = true <-> mshape a = mshape b /\
      forall r c, r < (mshape a).1 -> c < (mshape a).2 -> seqb (el a r c) (el b r c) = true).
Proof.
  intros Ha Hb. unfold lm_eq. cbn [mshape lm_like fst snd].
  destruct (Nat.eqb_spec (lm_r a) (lm_r b)) as [Er|Er]; cbn [andb negb].
  2:{ exists false. split; [reflexivity|]. split; [discriminate|]. intros [[= ] _]; lia. }
  destruct (Nat.eqb_spec (lm_c a) (lm_c b)) as [Ec|Ec]; cbn [andb negb].
  2:{ exists false. split; [reflexivity|]. split; [discriminate|]. intros [[= ] _]; lia. }
  destruct (eqb (lm_rm a) (lm_rm b)) eqn:Em.
  - apply eqb_prop in Em. eexists; split; [reflexivity|]. rewrite data_eqb_iff. split.
    + intros [Hl H]. split; [congruence|]. intros r c Hr Hc.
      destruct (lm_el_data a r c Ha Hr Hc) as (i & Ei & Ea).
      destruct (lm_el_data b r c Hb ltac:(lia) ltac:(lia)) as (i' & Ei' & Eb).
      assert (i = i') as <-.
      { rewrite lm_pos_some in Ei, Ei' by lia. rewrite <- Em, <- Er, <- Ec in Ei'. congruence. }
      eapply H; eauto.
    + intros [Hsh H]. split; [unfold lm_wf in *; congruence|]. intros i x y Hx Hy.
      destruct (lm_data_el a i x Ha Hx) as (r & c & Hr & Hc & Ei & <-).
      destruct (lm_data_el b i y Hb Hy) as (r' & c' & Hr' & Hc' & Ei' & <-).
      assert (lm_pos b (r, c) = Some i) as Eb.
      { rewrite lm_pos_some in Ei by lia. rewrite lm_pos_some by lia.
        rewrite <- Em, <- Er, <- Ec. exact Ei. }
      destruct (lm_pos_inj b _ _ _ _ _ Eb Ei') as [-> ->]. apply H; assumption.
  - rewrite (flat_ret _ _ lm_laws a Ha), (flat_ret _ _ lm_laws b Hb). cbn [mbind out_bind].
    eexists; split; [reflexivity|]. cbn [mshape lm_like fst snd]. rewrite Er, Ec, forallb_zip. split.
    + intros H. split; [reflexivity|]. intros r c Hr Hc.
      apply (H (lm_c b * r + c) (el a r c) (el b r c)); apply rm_list_lookup; assumption.
    + intros [_ H] i x y Hx Hy. cbn.
      apply rm_list_lookup_Some in Hx as (r & c & Hr & Hc & -> & ->).
      rewrite rm_list_lookup in Hy by assumption. injection Hy as <-. auto.
Qed.
End eq.

(** ** Arithmetic (C05) *)
Section arith_ops.
Context {A : arith}.

Lemma zip_with_rm {B} (f : B -> B -> B) R C (g h : nat -> nat -> B) :
  zip_with f (rm_list R C g) (rm_list R C h) = rm_list R C (fun r c => f (g r c) (h r c)).
Proof.
  apply list_eq. intros i. rewrite lookup_zip_with.
  destruct (decide (i < R * C)) as [Hi|Hi].
  - destruct (index_split R C i Hi) as (r & c & Hr & Hc & ->).
    rewrite !rm_list_lookup by assumption. reflexivity.
  - rewrite (lookup_ge_None_2 (rm_list R C g)) by (rewrite rm_list_length; lia).
    symmetry. apply lookup_ge_None_2. rewrite rm_list_length; lia.
Qed.

Lemma lm_zipop_spec (f : A -> A -> A) (a b : lm A) : lm_wf a -> lm_wf b -> mshape a = mshape b ->
  exists m, (x ← flat a; y ← flat b; lm_from_flat (lm_r a, lm_c a) (zip_with f x y)) = Ret m /\
    lm_wf m /\ mshape m = mshape a /\
    forall r c, r < (mshape a).1 -> c < (mshape a).2 -> el m r c = f (el a r c) (el b r c).
Proof.
  intros Ha Hb Hs. rewrite (flat_ret _ _ lm_laws a Ha), (flat_ret _ _ lm_laws b Hb).
  cbn [mbind out_bind]. rewrite <- Hs, zip_with_rm. cbn [mshape lm_like fst snd].
  destruct (lm_from_flat_rm (lm_r a) (lm_c a) (fun r c => f (el a r c) (el b r c))) as (m & E & Hw & Hsm & He).
  exists m. auto.
Qed.

Lemma lm_shape_test (a b : lm A) :
  negb ((lm_r a =? lm_r b) && (lm_c a =? lm_c b)) = false <-> mshape a = mshape b.
Proof.
  cbn. rewrite negb_false_iff, andb_true_iff, !Nat.eqb_eq. split; [intros [-> ->]; auto|].
  intros [= -> ->]. auto.
Qed.

Lemma lm_add_spec (a b : lm A) : lm_wf a -> lm_wf b ->
  (mshape a = mshape b ->
    exists m, lm_add a b = Ret m /\ lm_wf m /\ mshape m = mshape a /\
      forall r c, r < (mshape a).1 -> c < (mshape a).2 -> el m r c = sadd (el a r c) (el b r c)) /\
  (mshape a <> mshape b -> lm_add a b = Panic).
Proof.
  intros Ha Hb. split; intros Hs; unfold lm_add.
  - rewrite (proj2 (lm_shape_test a b) Hs). now apply lm_zipop_spec.
  - destruct (negb _) eqn:E; [reflexivity|]. apply lm_shape_test in E. congruence.
Qed.

Lemma lm_sub_spec (a b : lm A) : lm_wf a -> lm_wf b ->
  (mshape a = mshape b ->
    exists m, lm_sub a b = Ret m /\ lm_wf m /\ mshape m = mshape a /\
      forall r c, r < (mshape a).1 -> c < (mshape a).2 -> el m r c = ssub (el a r c) (el b r c)) /\
  (mshape a <> mshape b -> lm_sub a b = Panic).
Proof.
  intros Ha Hb. split; intros Hs; unfold lm_sub.
  - rewrite (proj2 (lm_shape_test a b) Hs). now apply lm_zipop_spec.
  - destruct (negb _) eqn:E; [reflexivity|]. apply lm_shape_test in E. congruence.
Qed.

Lemma zip_add_length (x y : list A) : length (zip_add x y) = length x.
Proof. revert y; induction x as [|a x IH]; intros [|b y]; cbn; auto. Qed.

Lemma zip_add_lookup (x y : list A) i a b : x !! i = Some a -> y !! i = Some b ->
  zip_add x y !! i = Some (sadd a b).
Proof.
  revert y i; induction x as [|a' x IH]; intros [|b' y] [|i]; cbn; try discriminate; auto.
  congruence.
Qed.

Lemma add_ass_ret {M} `{ML : MatrixLike A M} (wf : M -> Prop) dom (L : ml_laws wf dom) (a b : M) :
  wf a -> wf b -> mshape a = mshape b ->
  (forall r c, r < (mshape a).1 -> c < (mshape a).2 -> dom a r c = true) ->
  exists m, add_ass a b = Ret m /\ wf m /\ mshape m = mshape a /\
    (forall r c, r < (mshape a).1 -> c < (mshape a).2 -> el m r c = sadd (el a r c) (el b r c)).
Proof.
  intros Ha Hb Hs Hdom. unfold add_ass. rewrite decide_True by assumption.
  destruct (mshape a) as [R C] eqn:Esh; cbn in Hdom |- *.
  assert (HI : forall k m, k < R -> wf m /\ mshape m = (R, C) /\
     (forall r c, dom m r c = dom a r c) /\
     (forall r c, r < R -> c < C -> el m r c = if r <? k then sadd (el a r c) (el b r c) else el a r c) ->
     exists m', foldM (fun c m => y ← index b (k, c); index_upd m (k, c) (fun x => sadd x y))
                      (range 0 (mshape m).2) m = Ret m' /\
       (wf m' /\ mshape m' = (R, C) /\ (forall r c, dom m' r c = dom a r c) /\
        (forall r c, r < R -> c < C ->
           el m' r c = if r <? S k then sadd (el a r c) (el b r c) else el a r c))).
  { intros k m Hk (Hw & Hsm & Hd & He). rewrite Hsm. cbn [snd].
    destruct (foldM_range_inv
      (fun j m' => wf m' /\ mshape m' = (R, C) /\ (forall r c, dom m' r c = dom a r c) /\
        (forall r c, r < R -> c < C ->
           el m' r c = if (r <? k) || ((r =? k) && (c <? j)) then sadd (el a r c) (el b r c) else el a r c))
      (fun c m => y ← index b (k, c); index_upd m (k, c) (fun x => sadd x y)) 0 C m)
      as (m' & E & Hw' & Hs' & Hd' & He'); [lia| | |].
    - split; [auto|]. split; [auto|]. split; [auto|]. intros r c Hr Hc.
      replace (c <? 0) with false by reflexivity. rewrite andb_false_r, orb_false_r. auto.
    - intros j m1 Hj (Hw1 & Hs1 & Hd1 & He1).
      rewrite (index_ret _ _ L) by (rewrite <- ?Hs; auto; cbn; lia). cbn [mbind out_bind].
      destruct (index_upd_ret _ _ L m1 k j (fun x => sadd x (el b k j))) as (m2 & E2 & Hw2 & Hs2 & Hd2 & He2);
        [auto|rewrite Hd1; apply Hdom; lia|].
      exists m2. split; [exact E2|]. split; [auto|]. split; [congruence|].
      split; [intros; now rewrite Hd2|]. intros r c Hr Hc. rewrite He2, !He1 by lia.
      destruct (Nat.eqb_spec r k) as [->|Hrk]; cbn.
      + rewrite Nat.ltb_irrefl. rewrite Nat.eqb_refl || idtac. cbn.
        destruct (Nat.eqb_spec c j) as [->|Hcj].
        * rewrite Nat.ltb_irrefl. rewrite (proj2 (Nat.ltb_lt j (S j))) by lia. reflexivity.
        * replace (c <? S j) with (c <? j); [reflexivity|].
          destruct (Nat.ltb_spec c j), (Nat.ltb_spec c (S j)); auto; lia.
      + reflexivity.
    - exists m'. split; [exact E|]. split; [auto|]. split; [auto|]. split; [auto|].
      intros r c Hr Hc. rewrite He' by assumption. rewrite (proj2 (Nat.ltb_lt c C)) by lia.
      rewrite andb_true_r. replace (r <? S k) with ((r <? k) || (r =? k)); [reflexivity|].
      destruct (Nat.ltb_spec r k), (Nat.eqb_spec r k), (Nat.ltb_spec r (S k)); auto; lia. }
  destruct (foldM_range_inv
    (fun k m => wf m /\ mshape m = (R, C) /\ (forall r c, dom m r c = dom a r c) /\
      (forall r c, r < R -> c < C -> el m r c = if r <? k then sadd (el a r c) (el b r c) else el a r c))
    (fun r m => foldM (fun c m => y ← index b (r, c); index_upd m (r, c) (fun x => sadd x y))
                      (range 0 (mshape m).2) m) 0 R a) as (m' & E & Hw & Hsm & Hd & He); [lia|auto| |].
  - intros i s Hi HP. apply HI; [lia|exact HP].
  - exists m'. split; [exact E|]. split; [auto|]. split; [auto|]. intros r c Hr Hc.
    rewrite He by assumption. now rewrite (proj2 (Nat.ltb_lt r R)).
Qed.

Lemma lm_add_assign_spec (a b : lm A) : lm_wf a -> lm_wf b ->
  (mshape a = mshape b ->
    exists m, lm_add_assign a b = Ret m /\ lm_wf m /\ mshape m = mshape a /\
      forall r c, r < (mshape a).1 -> c < (mshape a).2 -> el m r c = sadd (el a r c) (el b r c)) /\
  (mshape a <> mshape b -> lm_add_assign a b = Panic).
Proof.
  intros Ha Hb. split; intros Hs; unfold lm_add_assign.
  2:{ destruct (negb _) eqn:E; [reflexivity|]. apply lm_shape_test in E. congruence. }
  rewrite (proj2 (lm_shape_test a b) Hs).
  destruct (eqb (lm_rm a) (lm_rm b)) eqn:Em.
  - apply eqb_prop in Em. eexists; split; [reflexivity|].
    split; [unfold lm_wf; cbn; rewrite zip_add_length; exact Ha|]. split; [reflexivity|].
    cbn. intros r c Hr Hc. cbn in Hs. injection Hs as Er Ec.
    destruct (lm_el_data a r c Ha Hr Hc) as (i & Ei & Ea).
    destruct (lm_el_data b r c Hb ltac:(lia) ltac:(lia)) as (i' & Ei' & Eb).
    assert (i = i') as <-.
    { rewrite lm_pos_some in Ei, Ei' by lia. rewrite <- Em, <- Er, <- Ec in Ei'. congruence. }
    eapply lm_el_pos; [exact Ei|]. cbn. now apply zip_add_lookup.
  - apply (add_ass_ret _ _ lm_laws); auto. intros r c Hr Hc. unfold full_dom. now apply in_shape_true.
Qed.

(** product of two lawful matrices into a dense one *)
Lemma mmul_spec {M1 M2} `{ML1 : MatrixLike A M1} `{ML2 : MatrixLike A M2}
  wf1 dom1 (L1 : ml_laws (M:=M1) wf1 dom1) wf2 dom2 (L2 : ml_laws (M:=M2) wf2 dom2) (a : M1) (b : M2) :
  wf1 a -> wf2 b ->
  ((mshape a).2 = (mshape b).1 ->
    exists m : lm A, mmul a b = Ret m /\ lm_wf m /\ mshape m = ((mshape a).1, (mshape b).2) /\
      forall r c, r < (mshape a).1 -> c < (mshape b).2 ->
        el m r c = bigsum (mshape a).2 (fun k => smul (el a r k) (el b k c))) /\
  ((mshape a).2 <> (mshape b).1 -> mmul (M3 := lm A) a b = Panic).
Proof.
  intros Ha Hb. split; intros Hs; unfold mmul.
  2:{ now rewrite (proj2 (Nat.eqb_neq _ _) Hs). }
  rewrite (proj2 (Nat.eqb_eq _ _) Hs). cbn [assert_ mbind out_bind].
  rewrite (mapM_out_Ret _ (fun r => map (fun c => bigsum (mshape a).2 (fun k => smul (el a r k) (el b k c)))
             (seq 0 (mshape b).2))).
  - cbn [mbind out_bind]. unfold range. rewrite Nat.sub_0_r.
    destruct (lm_from_flat_rm (mshape a).1 (mshape b).2
      (fun r c => bigsum (mshape a).2 (fun k => smul (el a r k) (el b k c)))) as (m & E & Hw & Hsm & He).
    exists m. unfold rm_list in E. cbn [mfrom_flat lm_like]. rewrite E. auto.
  - intros r Hr. unfold range in *. rewrite Nat.sub_0_r in *. apply elem_of_seq in Hr.
    apply (mapM_out_Ret _ (fun c => bigsum (mshape a).2 (fun k => smul (el a r k) (el b k c)))).
    intros c Hc. apply elem_of_seq in Hc.
    rewrite (row_ret _ _ L1), (col_ret _ _ L2) by (auto; lia). cbn [mbind out_bind]. f_equal.
    unfold dot. rewrite <- Hs, zip_with_seq, ssum_seq. reflexivity.
Qed.
End arith_ops.

(** ** Matrices obtainable through the public interface *)
Definition dense_built {A : arith} (m : lm A) : Prop :=
  exists (R C : nat) (init : list A) (ops : list (dense_op A)),
    (m0 ← mfrom_flat (R, C) init; dense_run ops m0) = Ret m.

Lemma dense_run_wf {A : arith} (ops : list (dense_op A)) : forall m m' : lm A, lm_wf m -> dense_run ops m = Ret m' -> lm_wf m'.
Proof.
  induction ops as [|o ops IH]; intros m m' H E.
  - injection E as <-. exact H.
  - unfold dense_run in E. cbn [foldM] in E. apply bind_ret_inv in E as (m1 & E1 & E2).
    pose proof (dense_step_spec o m (Table (lm_r m) (lm_c m) (el m)) H) as Hst.
    assert (Hsh : shows m (Table (lm_r m) (lm_c m) (el m))).
    { apply shows_iff; [exact H|]. split; auto. }
    specialize (Hst Hsh). destruct (table_step _ _) as [t'|].
    + destruct Hst as (m1' & E1' & Hw & _). rewrite E1 in E1'. injection E1' as <-. eapply IH; eauto.
    + congruence.
Qed.

Lemma dense_built_wf {A : arith} (m : lm A) : dense_built m <-> lm_wf m.
Proof.
  split.
  - intros (R & C & init & ops & E). apply bind_ret_inv in E as (m0 & E0 & E1).
    eapply dense_run_wf; [|exact E1]. cbn in E0. unfold lm_from_flat in E0. cbn in E0.
    destruct (Nat.eqb_spec (R * C) (length init)) as [Hl|Hl]; [|discriminate].
    injection E0 as <-. unfold lm_wf. cbn. lia.
  - intros H. destruct m as [r c [] d]; unfold lm_wf in H; cbn in H.
    + exists r, c, d, []. cbn. unfold lm_from_flat. cbn. rewrite H, Nat.eqb_refl. reflexivity.
    + exists c, r, d, [OpTranspose]. cbn. unfold lm_from_flat. cbn.
      rewrite H, (Nat.mul_comm c r), Nat.eqb_refl. reflexivity.
Qed.

Lemma iteration_spec {A : arith} (m : lm A) : lm_wf m ->
  (exists l, flat m = Ret l /\ length l = (mshape m).1 * (mshape m).2 /\
     forall r c, r < (mshape m).1 -> c < (mshape m).2 ->
       mget m (r, c) = Ret (l !! ((mshape m).2 * r + c))) /\
  (forall r, r < (mshape m).1 -> exists l, row m r = Ret l /\ length l = (mshape m).2 /\
     forall c, mget m (r, c) = Ret (l !! c)) /\
  (forall c, c < (mshape m).2 -> exists l, col m c = Ret l /\ length l = (mshape m).1 /\
     forall r, mget m (r, c) = Ret (l !! r)) /\
  (forall r, (mshape m).1 <= r -> row m r = Panic) /\
  (forall c, (mshape m).2 <= c -> col m c = Panic).
Proof.
  intros H. split; [|split; [|split; [|split]]].
  - eexists. split; [apply (flat_ret _ _ lm_laws m H)|]. split; [apply rm_list_length|].
    intros r c Hr Hc. rewrite rm_list_lookup by assumption. now apply (law_get _ _ lm_laws).
  - intros r Hr. eexists. split; [apply (row_ret _ _ lm_laws m r H Hr)|].
    split; [now rewrite map_length, seq_length|]. intros c. rewrite list_lookup_fmap.
    destruct (decide (c < (mshape m).2)).
    + rewrite lookup_seq_lt by lia. now apply (law_get _ _ lm_laws).
    + rewrite lookup_seq_ge by lia. apply (law_get_out _ _ lm_laws); [exact H|lia].
  - intros c Hc. eexists. split; [apply (col_ret _ _ lm_laws m c H Hc)|].
    split; [now rewrite map_length, seq_length|]. intros r. rewrite list_lookup_fmap.
    destruct (decide (r < (mshape m).1)).
    + rewrite lookup_seq_lt by lia. now apply (law_get _ _ lm_laws).
    + rewrite lookup_seq_ge by lia. apply (law_get_out _ _ lm_laws); [exact H|lia].
  - intros r Hr. now apply row_panic.
  - intros c Hc. unfold col. apply Nat.ltb_ge in Hc. now rewrite Hc.
Qed.

Lemma indices_spec {A : arith} (m : lm A) : (mshape m).2 <> 0 ->
  exists l, indices m = Ret l /\ NoDup l /\ length l = (mshape m).1 * (mshape m).2 /\
    forall r c, r < (mshape m).1 -> c < (mshape m).2 -> l !! ((mshape m).2 * r + c) = Some (r, c).
Proof.
  intros Hc. eexists. split; [now apply indices_ret|]. split; [|split].
  - apply NoDup_alt. intros i j x Hi Hj.
    apply rm_list_lookup_Some in Hi as (r & c & ? & ? & -> & ->).
    apply rm_list_lookup_Some in Hj as (r' & c' & ? & ? & -> & [= -> ->]). reflexivity.
  - apply rm_list_length.
  - intros r c Hr Hc'. now rewrite rm_list_lookup.
Qed.

Lemma lm_eq_reads {A : arith} (a b : lm A) : lm_wf a -> lm_wf b ->
  exists v, lm_eq a b = Ret v /\
    (v = true <-> mshape a = mshape b /\
      forall r c, r < (mshape a).1 -> c < (mshape a).2 ->
        exists x y, mget a (r, c) = Ret (Some x) /\ mget b (r, c) = Ret (Some y) /\ seqb x y = true).
Proof.
  intros Ha Hb. destruct (lm_eq_spec a b Ha Hb) as (v & E & Hv). exists v. split; [exact E|].
  rewrite Hv. split; intros [Hs H]; (split; [exact Hs|]); intros r c Hr Hc.
  - exists (el a r c), (el b r c). repeat split; auto.
    + now apply (law_get _ _ lm_laws).
    + apply (law_get _ _ lm_laws); [exact Hb|congruence|congruence].
  - destruct (H r c Hr Hc) as (x & y & Ex & Ey & Exy). unfold el. rewrite Ex, Ey. exact Exy.
Qed.

Lemma elementwise_spec {A : arith} (a b : lm A) (v : A) : lm_wf a -> lm_wf b ->
  (mshape a = mshape b ->
    exists s d t : lm A, lm_add a b = Ret s /\ lm_sub a b = Ret d /\ lm_add_assign a b = Ret t /\
      mshape s = mshape a /\ mshape d = mshape a /\ mshape t = mshape a /\
      forall r c, r < (mshape a).1 -> c < (mshape a).2 ->
        el s r c = sadd (el a r c) (el b r c) /\ el d r c = ssub (el a r c) (el b r c) /\
        el t r c = sadd (el a r c) (el b r c)) /\
  (mshape a <> mshape b -> lm_add a b = Panic /\ lm_sub a b = Panic /\ lm_add_assign a b = Panic) /\
  mshape (lm_scale a v) = mshape a /\
  (forall r c, r < (mshape a).1 -> c < (mshape a).2 ->
     el (lm_scale a v) r c = smul (el a r c) v /\ el (lm_add_scalar a v) r c = sadd (el a r c) v).
Proof.
  intros Ha Hb. split; [|split; [|split]].
  - intros Hs. destruct (proj1 (lm_add_spec a b Ha Hb) Hs) as (s & Es & _ & Hss & Hse).
    destruct (proj1 (lm_sub_spec a b Ha Hb) Hs) as (d & Ed & _ & Hds & Hde).
    destruct (proj1 (lm_add_assign_spec a b Ha Hb) Hs) as (t & Et & _ & Hts & Hte).
    exists s, d, t. repeat (split; [assumption|]). auto.
  - intros Hs. split; [|split].
    + now apply (lm_add_spec a b Ha Hb). + now apply (lm_sub_spec a b Ha Hb).
    + now apply (lm_add_assign_spec a b Ha Hb).
  - reflexivity.
  - intros r c Hr Hc. split; [now apply lm_scale_el|].
    exact (lm_map_el a (fun x => sadd x v) r c Ha Hr Hc).
Qed.
