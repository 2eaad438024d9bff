(** Proofs about triangular substitution and triangular inverses. *)
From Verif Require Export BufferLaws Sums.

(** Specification: matrix-vector product with a table of n columns, and the identity. *)
Definition mv {A : arith} (n : nat) (a : nat -> nat -> A) (x : nat -> A) (i : nat) : A :=
  bigsum n (fun k => smul (a i k) (x k)).
Definition delta {A : arith} (i j : nat) : A := if decide (i = j) then s1 else s0.
(** product of two tables with inner dimension n *)
Definition mm {A : arith} (n : nat) (a b : nat -> nat -> A) (i j : nat) : A :=
  bigsum n (fun k => smul (a i k) (b k j)).

Section tri_algebra.
Context {A : arith} (FL : field_laws A).
Add Field Afield : (fl_field A FL).
Local Open Scope arith_scope.

Lemma mul_cancel (a x y : A) : a <> 0 -> a * x = a * y -> x = y.
Proof.
  intros Ha H. transitivity ((a * x) / a); [field; exact Ha|]. rewrite H. field. exact Ha.
Qed.

Lemma mm_assoc n (a b c : nat -> nat -> A) i j :
  mm n (mm n a b) c i j = mm n a (mm n b c) i j.
Proof.
  unfold mm. transitivity (bigsum n (fun k => bigsum n (fun l => a i l * b l k * c k j))).
  - apply bigsum_ext. intros k _. rewrite <- (bigsum_scale_r FL). reflexivity.
  - rewrite (bigsum_swap FL). apply bigsum_ext. intros l _.
    rewrite <- (bigsum_scale_l FL). apply bigsum_ext. intros k _. ring.
Qed.

Lemma mm_delta_r n (a : nat -> nat -> A) i j : (j < n)%nat -> mm n a delta i j = a i j.
Proof.
  intros Hj. unfold mm. rewrite (bigsum_single FL n j); auto.
  - unfold delta. rewrite decide_True by reflexivity. ring.
  - intros k _ Hk. unfold delta. rewrite decide_False by congruence. ring.
Qed.

Lemma mm_delta_l n (a : nat -> nat -> A) i j : (i < n)%nat -> mm n delta a i j = a i j.
Proof.
  intros Hj. unfold mm. rewrite (bigsum_single FL n i); auto.
  - unfold delta. rewrite decide_True by reflexivity. ring.
  - intros k _ Hk. unfold delta. rewrite decide_False by congruence. ring.
Qed.

Lemma mm_ext n (a a' b b' : nat -> nat -> A) i j :
  (forall k, k < n -> a i k = a' i k) -> (forall k, k < n -> b k j = b' k j) ->
  mm n a b i j = mm n a' b' i j.
Proof. intros Ha Hb. apply bigsum_ext. intros k Hk. now rewrite Ha, Hb. Qed.

(** a lower triangular system has at most one solution *)
Lemma lower_unique n (a : nat -> nat -> A) (x y : nat -> A) m : (m <= n)%nat ->
  (forall i k, i < n -> k < n -> i < k -> a i k = 0) -> (forall i, i < n -> a i i <> 0) ->
  (forall i, i < m -> mv n a x i = mv n a y i) -> forall i, i < m -> x i = y i.
Proof.
  intros Hm Hl Hd H i. induction (Nat.lt_wf_0 i) as [i _ IH]. intros Hi.
  apply (mul_cancel (a i i)); [apply Hd; lia|].
  specialize (H i Hi). unfold mv in H.
  rewrite (bigsum_remove FL n i (fun k => a i k * x k)), (bigsum_remove FL n i (fun k => a i k * y k)) in H by lia.
  rewrite (bigsum_ext (fun k => if (k =? i)%nat then 0 else a i k * x k)
                      (fun k => if (k =? i)%nat then 0 else a i k * y k)) in H.
  - set (s := bigsum n _) in H. transitivity (a i i * x i + s - s); [ring|]. rewrite H. ring.
  - intros k Hk. destruct (Nat.eqb_spec k i) as [_|Hn]; [reflexivity|].
    destruct (decide (k < i)) as [Hlt|Hge].
    + rewrite (IH k) by lia. reflexivity.
    + rewrite Hl by lia. ring.
Qed.

Lemma upper_unique n (a : nat -> nat -> A) (x y : nat -> A) m : (m <= n)%nat ->
  (forall i k, i < n -> k < n -> k < i -> a i k = 0) -> (forall i, i < n -> a i i <> 0) ->
  (forall i, m <= i < n -> mv n a x i = mv n a y i) -> forall i, m <= i < n -> x i = y i.
Proof.
  intros Hm Hl Hd H.
  assert (G : forall d i, (d = n - i)%nat -> m <= i < n -> x i = y i).
  2:{ intros i Hi. exact (G _ i eq_refl Hi). }
  intros d. induction (Nat.lt_wf_0 d) as [d _ IH]. intros i -> Hi.
  apply (mul_cancel (a i i)); [apply Hd; lia|].
  specialize (H i Hi). unfold mv in H.
  rewrite (bigsum_remove FL n i (fun k => a i k * x k)), (bigsum_remove FL n i (fun k => a i k * y k)) in H by lia.
  rewrite (bigsum_ext (fun k => if (k =? i)%nat then 0 else a i k * x k)
                      (fun k => if (k =? i)%nat then 0 else a i k * y k)) in H.
  - set (s := bigsum n _) in H. transitivity (a i i * x i + s - s); [ring|]. rewrite H. ring.
  - intros k Hk. destruct (Nat.eqb_spec k i) as [_|Hn]; [reflexivity|].
    destruct (decide (i < k)) as [Hlt|Hge].
    + rewrite (IH (n - k)%nat) by lia. reflexivity.
    + rewrite Hl by lia. ring.
Qed.

(** a right inverse of a matrix with trivial kernel is a left inverse *)
Lemma right_left_inverse n (a b : nat -> nat -> A) :
  (forall x y : nat -> A, (forall i, i < n -> mv n a x i = mv n a y i) -> forall i, i < n -> x i = y i) ->
  (forall i j, i < n -> j < n -> mm n a b i j = delta i j) ->
  forall i j, i < n -> j < n -> mm n b a i j = delta i j.
Proof.
  intros Hu H i j Hi Hj.
  apply (Hu (fun k => mm n b a k j) (fun k => delta k j)); [|exact Hi]. intros k Hk.
  change (mm n a (mm n b a) k j = mm n a delta k j).
  rewrite <- mm_assoc, mm_delta_r by assumption.
  rewrite <- (mm_delta_l n a k j) by assumption. apply mm_ext; auto.
Qed.
End tri_algebra.

Section forward.
Context {A : arith} (FL : field_laws A).
Add Field Afield2 : (fl_field A FL).
Local Open Scope arith_scope.

Lemma el_lt_upper (m : ltm A) r c : ltm_wf m -> (r < c)%nat -> el m r c = 0.
Proof.
  intros H Hrc. apply (law_nodom _ _ lt_laws); [exact H|]. unfold ltm_dom.
  rewrite andb_false_iff, Nat.leb_gt. lia.
Qed.

Lemma el_ut_lower (m : utm A) r c : utm_wf m -> (c < r)%nat -> el m r c = 0.
Proof.
  intros H Hrc. apply (law_nodom _ _ ut_laws); [exact H|]. unfold utm_dom.
  rewrite andb_false_iff, Nat.leb_gt. lia.
Qed.

Lemma zip_row_vel (m : ltm A) i x : length x = lt_dim m ->
  zip_with smul (map (λ c : nat, el m i c) (seq 0 (lt_dim m))) x
  = map (fun k => el m i k * vel x k) (seq 0 (lt_dim m)).
Proof.
  intros Hl. rewrite <- Hl. transitivity
    (zip_with smul (map (λ c : nat, el m i c) (seq 0 (length x))) (map (vel x) (seq 0 (length x)))).
  - f_equal. apply list_vel.
  - apply zip_with_seq.
Qed.

Lemma forward_sub_spec (m : ltm A) b : ltm_wf m -> length b = lt_dim m ->
  (forall i, i < lt_dim m -> el m i i <> 0) ->
  exists x, forward_sub m b = Ret x /\ length x = lt_dim m /\
    forall i, i < lt_dim m -> mv (lt_dim m) (el m) (vel x) i = vel b i.
Proof.
  intros H Hb Hd. set (n := lt_dim m) in *. unfold forward_sub. fold n.
  rewrite Hb, Nat.eqb_refl. cbn [assert_ mbind out_bind].
  destruct (foldM_range_inv
    (fun i x => length x = n /\
       (forall k, i <= k -> vel x k = 0) /\
       (forall j, j < i -> bigsum (S j) (fun k => el m j k * vel x k) = vel b j))
    (fun i x => r ← row m i; let temp := ssum (take i (zip_with smul r x)) in
                    bi ← idx b i; d ← index m (i, i); set x i ((bi - temp) / d))
    0 n (replicate n 0)) as (x & E & Hl & _ & Hx); [lia| | |].
  - split; [apply replicate_length|]. split; [intros; apply vel_replicate|]. intros; lia.
  - intros i x Hi (Hl & Hz & Hx).
    rewrite (row_ret _ _ lt_laws m i H ltac:(cbn; fold n; lia)). cbn [mbind out_bind mshape lt_like snd].
    rewrite (idx_vel b i) by lia. cbn [mbind out_bind].
    rewrite (index_ret _ _ lt_laws m i i H) by (cbn; fold n; lia). cbn [mbind out_bind].
    rewrite set_lookup by lia.
    eexists; split; [reflexivity|].
    split; [now rewrite insert_length|]. split.
    + intros k Hk. rewrite vel_insert by lia. rewrite (proj2 (Nat.eqb_neq k i)) by lia. apply Hz; lia.
    + intros j Hj. destruct (decide (j < i)) as [Hlt|Hge].
      * rewrite <- (Hx j) by lia. apply bigsum_ext. intros k Hk. rewrite vel_insert by lia.
        rewrite (proj2 (Nat.eqb_neq k i)) by lia. reflexivity.
      * assert (j = i) as -> by lia. cbn [bigsum].
        rewrite vel_insert, Nat.eqb_refl by lia.
        rewrite (bigsum_ext _ (fun k => el m i k * vel x k)).
        2:{ intros k Hk. rewrite vel_insert by lia. rewrite (proj2 (Nat.eqb_neq k i)) by lia. reflexivity. }
        rewrite (zip_row_vel m i x) by assumption. rewrite firstn_map, take_seq.
        fold n. rewrite Nat.min_l by lia. rewrite ssum_seq.
        field. apply Hd; lia.
  - exists x. split; [exact E|]. split; [exact Hl|]. intros i Hi. rewrite <- Hx by lia.
    unfold mv. rewrite (bigsum_split FL n (S i)) by lia.
    rewrite (bigsum_0 FL (n - S i)).
    + ring.
    + intros k Hk. rewrite el_lt_upper by (auto; lia). ring.
Qed.

Lemma forward_sub_refuses (m : ltm A) b : length b <> lt_dim m -> forward_sub m b = Panic.
Proof. intros H. unfold forward_sub. rewrite (proj2 (Nat.eqb_neq _ _)) by congruence. reflexivity. Qed.

Lemma foldM_bind_ret_seq n a (g : nat -> A) (f : nat -> A -> out A) s :
  (forall j t, a <= j < a + n -> f j t = Ret (t + g j)) ->
  foldM f (seq a n) s = Ret (s + bigsum n (fun i => g (a + i)%nat)).
Proof.
  revert s. induction n as [|n IH]; intros s H.
  - cbn. f_equal. ring.
  - rewrite seq_S_app, foldM_app, IH by (intros; apply H; lia). cbn [mbind out_bind foldM].
    rewrite H by lia. cbn [mbind out_bind bigsum]. f_equal. ring.
Qed.

Lemma foldM_rev_range_inv {S} (P : nat -> S -> Prop) (f : nat -> S -> out S) n s :
  P n s ->
  (forall i s, i < n -> P (Datatypes.S i) s -> exists s', f i s = Ret s' /\ P i s') ->
  exists s', foldM f (rev (range 0 n)) s = Ret s' /\ P O s'.
Proof.
  unfold range. rewrite Nat.sub_0_r. revert s; induction n as [|n IH]; intros s H0 Hs.
  - exists s. split; [reflexivity|exact H0].
  - rewrite seq_S_app, rev_app_distr. cbn [rev app foldM Nat.add].
    destruct (Hs n s ltac:(lia) H0) as (s1 & E1 & H1). rewrite E1. cbn [mbind out_bind].
    apply IH; [exact H1|]. intros i s2 Hi. apply Hs. lia.
Qed.

Lemma backward_sub_spec (m : utm A) b : utm_wf m -> length b = ut_dim m ->
  (forall i, i < ut_dim m -> el m i i <> 0) ->
  exists x, backward_sub m b = Ret x /\ length x = ut_dim m /\
    forall i, i < ut_dim m -> mv (ut_dim m) (el m) (vel x) i = vel b i.
Proof.
  intros H Hb Hd. set (n := ut_dim m) in *. unfold backward_sub. fold n.
  rewrite Hb, Nat.eqb_refl. cbn [assert_ mbind out_bind].
  destruct (foldM_rev_range_inv
    (fun i x => length x = n /\
       (forall j, i <= j < n -> mv n (el m) (vel x) j = vel b j))
    (fun i x => temp ← foldM (fun j t => u ← index m (i, j); xj ← idx x j;
                                    Ret (t + u * xj)) (range (i + 1)%nat n) 0;
           bi ← idx b i; d ← index m (i, i); set x i ((bi - temp) / d))
    n (replicate n 0)) as (x & E & Hl & Hx).
  - split; [apply replicate_length|]. intros; lia.
  - intros i x Hi (Hl & Hx).
    unfold range at 1.
    rewrite (foldM_bind_ret_seq (n - (i + 1)) (i + 1) (fun k => el m i k * vel x k)).
    2:{ intros j t Hj. rewrite (index_ret _ _ ut_laws m i j H) by (cbn; fold n; lia).
        cbn [mbind out_bind]. rewrite idx_vel by lia. reflexivity. }
    cbn [mbind out_bind].
    rewrite (idx_vel b i) by lia. cbn [mbind out_bind].
    rewrite (index_ret _ _ ut_laws m i i H) by (cbn; fold n; lia). cbn [mbind out_bind].
    rewrite set_lookup by lia.
    eexists; split; [reflexivity|].
    split; [now rewrite insert_length|].
    intros j Hj. unfold mv.
    destruct (decide (i < j)) as [Hlt|Hge].
    + rewrite <- (Hx j) by lia. unfold mv. apply bigsum_ext. intros k Hk. rewrite vel_insert by lia.
      destruct (Nat.eqb_spec k i) as [->|_]; [|reflexivity].
      rewrite el_ut_lower by (auto; lia). ring.
    + assert (j = i) as -> by lia.
      rewrite (bigsum_split FL n (i + 1)) by lia.
      rewrite (bigsum_split FL (i + 1) i) by lia. replace (i + 1 - i)%nat with 1%nat by lia.
      rewrite (bigsum_0 FL i).
      2:{ intros k Hk. rewrite el_ut_lower by (auto; lia). ring. }
      rewrite (bigsum_ext (fun k => el m i (i + 1 + k) * vel (<[i:=_]> x) (i + 1 + k))
                 (fun k => el m i (i + 1 + k) * vel x (i + 1 + k))).
      2:{ intros k Hk. rewrite vel_insert by lia. rewrite (proj2 (Nat.eqb_neq _ i)) by lia. reflexivity. }
      cbn [bigsum]. rewrite Nat.add_0_r, vel_insert, Nat.eqb_refl by lia.
      field. apply Hd; lia.
  - exists x. split; [exact E|]. split; [exact Hl|]. intros i Hi. apply Hx. lia.
Qed.

Lemma backward_sub_refuses (m : utm A) b : length b <> ut_dim m -> backward_sub m b = Panic.
Proof. intros H. unfold backward_sub. rewrite (proj2 (Nat.eqb_neq _ _)) by congruence. reflexivity. Qed.

Lemma el_lower_unique (m : ltm A) (x y : nat -> A) : ltm_wf m ->
  (forall i, i < lt_dim m -> el m i i <> 0) ->
  (forall i, i < lt_dim m -> mv (lt_dim m) (el m) x i = mv (lt_dim m) (el m) y i) ->
  forall i, i < lt_dim m -> x i = y i.
Proof.
  intros H Hd Hxy. apply (lower_unique FL (lt_dim m) (el m)); auto.
  intros i k _ _ Hik. now apply el_lt_upper.
Qed.

Lemma el_upper_unique (m : utm A) (x y : nat -> A) : utm_wf m ->
  (forall i, i < ut_dim m -> el m i i <> 0) ->
  (forall i, i < ut_dim m -> mv (ut_dim m) (el m) x i = mv (ut_dim m) (el m) y i) ->
  forall i, i < ut_dim m -> x i = y i.
Proof.
  intros H Hd Hxy i Hi. apply (upper_unique FL (ut_dim m) (el m) x y 0); auto; try lia.
  - intros r k _ _ Hik. now apply el_ut_lower.
  - intros; apply Hxy; lia.
Qed.

(** writing a list of values into column [i], rows given by the first components *)
Lemma write_column {M} `{ML : MatrixLike A M} wf dom (L : ml_laws (M:=M) wf dom)
  (v : nat -> A) i : forall (l : list nat) (m : M), wf m -> NoDup l ->
  (forall j, j ∈ l -> dom m j i = true) ->
  exists m', foldM (fun jv r => index_set r (jv.1, i) jv.2) (map (fun j => (j, v j)) l) m = Ret m' /\
    wf m' /\ mshape m' = mshape m /\ (forall r c, dom m' r c = dom m r c) /\
    (forall r c, el m' r c = if decide (c = i /\ r ∈ l) then v r else el m r c).
Proof.
  induction l as [|j l IH]; intros m H Hnd Hdom.
  - exists m. split; [reflexivity|]. repeat split; auto. intros r c.
    rewrite decide_False; [reflexivity|]. intros [_ Hin]. inversion Hin.
  - cbn [map foldM fst snd]. apply NoDup_cons in Hnd as [Hnj Hnd].
    destruct (index_set_ret _ _ L m j i (v j) H) as (m1 & -> & H1 & Hs1 & Hd1 & He1);
      [apply Hdom; left|]. cbn [mbind out_bind].
    destruct (IH m1 H1 Hnd) as (m' & E & H' & Hs' & Hd' & He').
    { intros k Hk. rewrite Hd1. apply Hdom. now right. }
    exists m'. split; [exact E|]. split; [exact H'|]. split; [congruence|].
    split; [intros; now rewrite Hd'|]. intros r c. rewrite He', He1.
    destruct (decide (c = i /\ r ∈ l)) as [[-> Hr]|Hn].
    + rewrite decide_True; [reflexivity|]. split; [reflexivity|now right].
    + destruct (Nat.eqb_spec r j) as [->|Hrj], (Nat.eqb_spec c i) as [->|Hci]; cbn.
      * rewrite decide_True; [reflexivity|]. split; [reflexivity|left].
      * rewrite decide_False; [reflexivity|]. tauto.
      * rewrite decide_False; [reflexivity|]. intros [_ Hin]. apply elem_of_cons in Hin. tauto.
      * rewrite decide_False; [reflexivity|]. tauto.
Qed.

Lemma zip_seq_vel (x : list A) : zip (seq 0 (length x)) x = map (fun j => (j, vel x j)) (seq 0 (length x)).
Proof.
  rewrite (list_vel x) at 2. rewrite <- (map_id (seq 0 (length x))) at 1.
  now rewrite zip_with_seq.
Qed.

Definition unit_b (n i : nat) : list A := <[i := 1]> (replicate n 0).

Lemma unit_b_vel n i j : (i < n)%nat -> vel (unit_b n i) j = delta j i.
Proof.
  intros H. unfold unit_b. rewrite vel_insert by (rewrite replicate_length; lia).
  rewrite vel_replicate. unfold delta. destruct (Nat.eqb_spec j i), (decide (j = i)); congruence.
Qed.

Lemma unit_b_reset n i : <[i := (0:A)]> (unit_b n i) = replicate n 0.
Proof.
  unfold unit_b. rewrite list_insert_insert.
  destruct (decide (i < n)%nat).
  - apply list_insert_id. now apply lookup_replicate_2.
  - apply list_insert_ge. rewrite replicate_length. lia.
Qed.

Lemma lt_tri_inv_right (m : ltm A) : ltm_wf m -> (forall i, i < lt_dim m -> el m i i <> 0) ->
  exists m', lt_tri_inv m = Ret m' /\ ltm_wf m' /\ lt_dim m' = lt_dim m /\
    (forall i j, i < lt_dim m -> j < lt_dim m -> mm (lt_dim m) (el m) (el m') i j = delta i j).
Proof.
  intros H Hd. set (n := lt_dim m) in *. unfold lt_tri_inv. fold n.
  destruct (foldM_range_inv
    (fun k (br : list A * ltm A) => br.1 = replicate n 0 /\ ltm_wf br.2 /\ mshape br.2 = (n, n) /\
       (forall i j, i < n -> j < k -> mm n (el m) (el br.2) i j = delta i j))
    (fun i (bres : list A * ltm A) =>
         b ← set bres.1 i 1;
         x ← forward_sub m b;
         res ← foldM (fun jv r => index_set r (jv.1, i) jv.2)
                     (drop i (zip (seq 0 (length x)) x)) bres.2;
         b ← set b i 0;
         Ret (b, res)) 0 n (replicate n 0, lt_zeros (n, n)))
    as ([b' m'] & E & _ & Hw & Hs & Hm); [lia| | |].
  - cbn. split; [reflexivity|]. split; [apply lt_zeros_wf|]. split; [f_equal; lia|]. intros; lia.
  - intros i [b res] Hi (Hb & Hw & Hs & Hm). cbn [fst snd] in *. subst b.
    rewrite set_lookup by (rewrite replicate_length; lia). cbn [mbind out_bind].
    destruct (forward_sub_spec m (<[i:=1]> (replicate n 0)) H) as (x & Ex & Hxl & Hx);
      [rewrite insert_length, replicate_length; reflexivity|exact Hd|].
    fold n in Hx, Hxl. rewrite Ex. cbn [mbind out_bind]. rewrite zip_seq_vel, Hxl.
    rewrite skipn_map. rewrite drop_seq.
    assert (Hres : lt_dim res = n) by (cbn in Hs; congruence).
    destruct (write_column _ _ lt_laws (vel x) i (seq (0 + i) (n - i)) res Hw) as (r' & Er & Hw' & Hs' & _ & He').
    { apply NoDup_seq. }
    { intros j Hj. apply elem_of_seq in Hj. unfold ltm_dom. rewrite Hres.
      apply andb_true_iff. rewrite Nat.ltb_lt, Nat.leb_le. lia. }
    rewrite Er. cbn [mbind out_bind].
    rewrite set_lookup by (rewrite insert_length, replicate_length; lia). cbn [mbind out_bind].
    eexists; split; [reflexivity|]. cbn [fst snd].
    split; [exact (unit_b_reset n i)|]. split; [exact Hw'|]. split; [congruence|].
    (* the leading part of the solution is zero *)
    assert (Hz : forall k, k < i -> vel x k = 0).
    { intros k Hk.
      apply (lower_unique FL n (el m) (vel x) (fun _ => 0) i); auto; try lia.
      - intros; now apply el_lt_upper.
      - intros k' Hk'. rewrite Hx by lia. fold (unit_b n i). rewrite unit_b_vel by lia.
        unfold delta. rewrite decide_False by lia. symmetry. apply (bigsum_0 FL). intros; ring. }
    intros r c Hr Hc. destruct (decide (c < i)) as [Hlt|Hge].
    + rewrite <- Hm by lia. apply mm_ext; auto. intros k Hk. rewrite He'.
      rewrite decide_False by lia. reflexivity.
    + assert (c = i) as -> by lia. rewrite <- (unit_b_vel n i r) by lia. unfold unit_b.
      rewrite <- Hx by lia. apply bigsum_ext. intros k Hk. f_equal. rewrite He'.
      destruct (decide _) as [_|Hn]; [reflexivity|]. rewrite elem_of_seq in Hn.
      rewrite Hz by lia. apply el_lt_upper; auto; lia.
  - rewrite E. cbn [mbind out_bind snd]. exists m'. split; [reflexivity|]. split; [exact Hw|].
    split; [cbn in Hs; congruence|]. exact Hm.
Qed.

Lemma ut_tri_inv_right (m : utm A) : utm_wf m -> (forall i, i < ut_dim m -> el m i i <> 0) ->
  exists m', ut_tri_inv m = Ret m' /\ utm_wf m' /\ ut_dim m' = ut_dim m /\
    (forall i j, i < ut_dim m -> j < ut_dim m -> mm (ut_dim m) (el m) (el m') i j = delta i j).
Proof.
  intros H Hd. set (n := ut_dim m) in *. unfold ut_tri_inv. fold n.
  destruct (foldM_range_inv
    (fun k (br : list A * utm A) => br.1 = replicate n 0 /\ utm_wf br.2 /\ mshape br.2 = (n, n) /\
       (forall i j, i < n -> j < k -> mm n (el m) (el br.2) i j = delta i j))
    (fun i (bres : list A * utm A) =>
         b ← set bres.1 i 1;
         x ← backward_sub m b;
         res ← foldM (fun jv r => index_set r (jv.1, i) jv.2)
                     (take (i + 1) (zip (seq 0 (length x)) x)) bres.2;
         b ← set b i 0;
         Ret (b, res)) 0 n (replicate n 0, ut_zeros (n, n)))
    as ([b' m'] & E & _ & Hw & Hs & Hm); [lia| | |].
  - cbn. split; [reflexivity|]. split; [apply ut_zeros_wf|]. split; [f_equal; lia|]. intros; lia.
  - intros i [b res] Hi (Hb & Hw & Hs & Hm). cbn [fst snd] in *. subst b.
    rewrite set_lookup by (rewrite replicate_length; lia). cbn [mbind out_bind].
    destruct (backward_sub_spec m (<[i:=1]> (replicate n 0)) H) as (x & Ex & Hxl & Hx);
      [rewrite insert_length, replicate_length; reflexivity|exact Hd|].
    fold n in Hx, Hxl. rewrite Ex. cbn [mbind out_bind]. rewrite zip_seq_vel, Hxl.
    rewrite firstn_map. rewrite take_seq.
    assert (Hres : ut_dim res = n) by (cbn in Hs; congruence).
    destruct (write_column _ _ ut_laws (vel x) i (seq 0 ((i + 1) `min` n)) res Hw) as (r' & Er & Hw' & Hs' & _ & He').
    { apply NoDup_seq. }
    { intros j Hj. apply elem_of_seq in Hj. unfold utm_dom. rewrite Hres.
      apply andb_true_iff. rewrite Nat.ltb_lt, Nat.leb_le. lia. }
    rewrite Er. cbn [mbind out_bind].
    rewrite set_lookup by (rewrite insert_length, replicate_length; lia). cbn [mbind out_bind].
    eexists; split; [reflexivity|]. cbn [fst snd].
    split; [exact (unit_b_reset n i)|]. split; [exact Hw'|]. split; [congruence|].
    assert (Hz : forall k, S i <= k < n -> vel x k = 0).
    { intros k Hk.
      apply (upper_unique FL n (el m) (vel x) (fun _ => 0) (S i)); auto; try lia.
      - intros; now apply el_ut_lower.
      - intros k' Hk'. rewrite Hx by lia. fold (unit_b n i). rewrite unit_b_vel by lia.
        unfold delta. rewrite decide_False by lia. symmetry. apply (bigsum_0 FL). intros; ring. }
    intros r c Hr Hc. destruct (decide (c < i)) as [Hlt|Hge].
    + rewrite <- Hm by lia. apply mm_ext; auto. intros k Hk. rewrite He'.
      rewrite decide_False by lia. reflexivity.
    + assert (c = i) as -> by lia. rewrite <- (unit_b_vel n i r) by lia. unfold unit_b.
      rewrite <- Hx by lia. apply bigsum_ext. intros k Hk. f_equal. rewrite He'.
      destruct (decide _) as [_|Hn]; [reflexivity|]. rewrite elem_of_seq in Hn.
      rewrite Hz by lia. apply el_ut_lower; auto; lia.
  - rewrite E. cbn [mbind out_bind snd]. exists m'. split; [reflexivity|]. split; [exact Hw|].
    split; [cbn in Hs; congruence|]. exact Hm.
Qed.
End forward.

(** ** Triangular matrices obtainable through the public interface *)
Inductive lt_built {A : arith} : ltm A -> Prop :=
| LtZeros s m : mzeros s = Ret m -> lt_built m
| LtSet m r c v m' : lt_built m -> index_set m (r, c) v = Ret m' -> lt_built m'.
Inductive ut_built {A : arith} : utm A -> Prop :=
| UtZeros s m : mzeros s = Ret m -> ut_built m
| UtSet m r c v m' : ut_built m -> index_set m (r, c) v = Ret m' -> ut_built m'.

Lemma lt_built_wf {A : arith} (m : ltm A) : lt_built m -> ltm_wf m.
Proof.
  induction 1 as [s m E|m r c v m' _ IH E].
  - injection E as <-. apply lt_zeros_wf.
  - destruct (ltm_dom m r c) eqn:Ed.
    + destruct (index_set_ret _ _ lt_laws m r c v IH Ed) as (m1 & E1 & Hw & _). congruence.
    + rewrite (index_set_panic _ _ lt_laws m r c v IH Ed) in E. discriminate.
Qed.
Lemma ut_built_wf {A : arith} (m : utm A) : ut_built m -> utm_wf m.
Proof.
  induction 1 as [s m E|m r c v m' _ IH E].
  - injection E as <-. apply ut_zeros_wf.
  - destruct (utm_dom m r c) eqn:Ed.
    + destruct (index_set_ret _ _ ut_laws m r c v IH Ed) as (m1 & E1 & Hw & _). congruence.
    + rewrite (index_set_panic _ _ ut_laws m r c v IH Ed) in E. discriminate.
Qed.

Section full.
Context {A : arith} (FL : field_laws A).

Lemma forward_sub_full (m : ltm A) b : ltm_wf m ->
  length b = (mshape m).1 -> (forall i, i < (mshape m).1 -> el m i i <> s0) ->
  exists x, forward_sub m b = Ret x /\ length x = (mshape m).1 /\
    (forall i, i < (mshape m).1 -> mv (mshape m).1 (el m) (vel x) i = vel b i) /\
    (forall y, length y = (mshape m).1 ->
       (forall i, i < (mshape m).1 -> mv (mshape m).1 (el m) (vel y) i = vel b i) -> y = x).
Proof.
  intros H Hb Hd. destruct (forward_sub_spec FL m b H Hb Hd) as (x & E & Hl & Hx).
  exists x. split; [exact E|]. split; [exact Hl|]. split; [exact Hx|]. intros y Hyl Hy.
  apply vel_ext; [cbn in *; lia|]. intros i Hi.
  apply (el_lower_unique FL m (vel y) (vel x) H Hd); [|cbn in *; lia].
  intros k Hk. etransitivity; [apply Hy; exact Hk|]. symmetry. apply Hx. exact Hk.
Qed.

Lemma backward_sub_full (m : utm A) b : utm_wf m ->
  length b = (mshape m).1 -> (forall i, i < (mshape m).1 -> el m i i <> s0) ->
  exists x, backward_sub m b = Ret x /\ length x = (mshape m).1 /\
    (forall i, i < (mshape m).1 -> mv (mshape m).1 (el m) (vel x) i = vel b i) /\
    (forall y, length y = (mshape m).1 ->
       (forall i, i < (mshape m).1 -> mv (mshape m).1 (el m) (vel y) i = vel b i) -> y = x).
Proof.
  intros H Hb Hd. destruct (backward_sub_spec FL m b H Hb Hd) as (x & E & Hl & Hx).
  exists x. split; [exact E|]. split; [exact Hl|]. split; [exact Hx|]. intros y Hyl Hy.
  apply vel_ext; [cbn in *; lia|]. intros i Hi.
  apply (el_upper_unique FL m (vel y) (vel x) H Hd); [|cbn in *; lia].
  intros k Hk. etransitivity; [apply Hy; exact Hk|]. symmetry. apply Hx. exact Hk.
Qed.

Lemma lt_tri_inv_full (m : ltm A) : ltm_wf m -> (forall i, i < (mshape m).1 -> el m i i <> s0) ->
  exists m', lt_tri_inv m = Ret m' /\ mshape m' = mshape m /\
    forall i j, i < (mshape m).1 -> j < (mshape m).1 ->
      mm (mshape m).1 (el m) (el m') i j = delta i j /\ mm (mshape m).1 (el m') (el m) i j = delta i j.
Proof.
  intros H Hd. destruct (lt_tri_inv_right FL m H Hd) as (m' & E & _ & Hs & Hr).
  exists m'. split; [exact E|]. split; [cbn; congruence|]. intros i j Hi Hj.
  split; [now apply Hr|]. apply (right_left_inverse FL (lt_dim m)); auto.
  intros x y Hxy. now apply (el_lower_unique FL m x y H).
Qed.

Lemma ut_tri_inv_full (m : utm A) : utm_wf m -> (forall i, i < (mshape m).1 -> el m i i <> s0) ->
  exists m', ut_tri_inv m = Ret m' /\ mshape m' = mshape m /\
    forall i j, i < (mshape m).1 -> j < (mshape m).1 ->
      mm (mshape m).1 (el m) (el m') i j = delta i j /\ mm (mshape m).1 (el m') (el m) i j = delta i j.
Proof.
  intros H Hd. destruct (ut_tri_inv_right FL m H Hd) as (m' & E & _ & Hs & Hr).
  exists m'. split; [exact E|]. split; [cbn; congruence|]. intros i j Hi Hj.
  split; [now apply Hr|]. apply (right_left_inverse FL (ut_dim m)); auto.
  intros x y Hxy. now apply (el_upper_unique FL m x y H).
Qed.
End full.
