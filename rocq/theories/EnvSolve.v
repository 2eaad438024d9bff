(** Triangular solves on envelope storage. *)
From Verif Require Export EnvProofs.

Lemma zip_map_seq {B C} (f : nat -> B) (g : nat -> C) a b n :
  zip (map f (seq a n)) (map g (seq b n)) = map (fun k => (f (a + k), g (b + k))) (seq 0 n).
Proof.
  revert a b; induction n as [|n IH]; intros a b; [reflexivity|].
  cbn [seq map zip_with]. rewrite IH. f_equal; [now rewrite !Nat.add_0_r|].
  rewrite <- seq_shift, map_map. apply map_ext. intros k. do 2 f_equal; lia.
Qed.

Lemma last_map_seq {B} (f : nat -> B) a n : last (map f (seq a (S n))) = Some (f (a + n)).
Proof. rewrite seq_S_app, map_app. apply last_snoc. Qed.

Section solve.
Context {A : arith} (FL : field_laws A).
Add Field AfieldES : (fl_field A FL).
Local Open Scope arith_scope.
Implicit Types m : lenv A.

Lemma ssum_map_seq (g : nat -> A) a n : ssum (map g (seq a n)) = bigsum n (fun k => g (a + k)%nat).
Proof. rewrite map_seq_shift. apply ssum_seq. Qed.

Lemma dot_at_ret (f : nat -> A) a k s (x : list A) : (s + k <= length x)%nat ->
  dot_at (map f (seq a k)) s x = Ret (bigsum k (fun j => f (a + j)%nat * vel x (s + j))).
Proof.
  intros H. unfold dot_at. rewrite map_length, seq_length.
  rewrite <- (map_id (seq s k)), zip_map_seq.
  rewrite (mapM_out_Ret _ (fun vc : A * nat => vc.1 * vel x vc.2)).
  - cbn [mbind out_bind]. rewrite map_map. cbn [fst snd]. now rewrite ssum_seq.
  - intros [v c] Hin. apply elem_of_list_In, in_map_iff in Hin as (j & [= <- <-] & Hj).
    apply in_seq in Hj. cbn [snd fst]. rewrite idx_vel by lia. reflexivity.
Qed.

Lemma lsc_le m i : le_wf m -> (i < lev_n m)%nat -> (lsc m i <= i)%nat /\ (lsc m i + nz (le_nnz m) i = i + 1)%nat.
Proof. intros W Hi. pose proof (lw_bound m W i Hi). unfold lsc. lia. Qed.

Lemma el_left m r c : le_wf m -> (c < lsc m r)%nat -> el m r c = 0.
Proof.
  intros W H. apply (law_nodom _ _ le_laws); [exact W|].
  destruct (le_dom m r c) eqn:E; [|reflexivity]. apply le_dom_true in E. lia.
Qed.

Lemma el_right m r c : le_wf m -> (r < c)%nat -> el m r c = 0.
Proof.
  intros W H. apply (law_nodom _ _ le_laws); [exact W|].
  destruct (le_dom m r c) eqn:E; [|reflexivity]. apply le_dom_true in E. lia.
Qed.

(** the stored part of a row carries the whole product with a vector *)
Lemma stored_sum m i (y : nat -> A) : le_wf m -> (i < lev_n m)%nat ->
  bigsum (nz (le_nnz m) i) (fun j => el m i (lsc m i + j) * y (lsc m i + j)%nat)
  = bigsum (S i) (fun c => el m i c * y c).
Proof.
  intros W Hi. destruct (lsc_le m i W Hi) as [H1 H2].
  rewrite (bigsum_split FL (S i) (lsc m i)) by lia. rewrite (bigsum_0 FL (lsc m i)).
  - replace (S i - lsc m i)%nat with (nz (le_nnz m) i) by lia. ring.
  - intros c Hc. rewrite el_left by assumption. ring.
Qed.

Lemma lower_mv m i (y : nat -> A) : le_wf m -> (i < lev_n m)%nat ->
  mv (lev_n m) (el m) y i = bigsum i (fun c => el m i c * y c) + el m i i * y i.
Proof.
  intros W Hi. unfold mv. rewrite (bigsum_split FL (lev_n m) (S i)) by lia. cbn [bigsum].
  rewrite (bigsum_0 FL (lev_n m - S i)); [ring|]. intros c Hc. rewrite el_right by (assumption || lia). ring.
Qed.

(** The forward solve started from an arbitrary output vector [x0] solves
    L x = b - diag(L) x0. *)
Lemma le_solve_spec m (b x0 : list A) : le_wf m -> length b = lev_n m -> length x0 = lev_n m ->
  (forall i, i < lev_n m -> el m i i <> 0) ->
  exists x, le_solve m b x0 = Ret x /\ length x = lev_n m /\
    forall i, (i < lev_n m)%nat -> mv (lev_n m) (el m) (vel x) i = vel b i - el m i i * vel x0 i.
Proof.
  intros W Hb Hx Hd. unfold le_solve.
  rewrite (proj2 (Nat.eqb_eq _ _)) by congruence. cbn [assert_ mbind out_bind].
  rewrite (proj2 (Nat.eqb_eq _ _)) by congruence. cbn [assert_ mbind out_bind].
  destruct (foldM_range_inv
    (fun k (x : list A) => length x = lev_n m /\
       (forall i, k <= i -> vel x i = vel x0 i) /\
       forall i, (i < k)%nat -> bigsum i (fun c => el m i c * vel x c) + el m i i * vel x i
                        = vel b i - el m i i * vel x0 i)
    (fun i x =>
           sr ← le_row_stored m i;
           dot ← dot_at sr.2 sr.1 x;
           bi ← idx b i;
           d ← unwrap (last sr.2);
           set x i (sdiv (ssub bi dot) d)) 0 (lev_n m) x0) as (x & E & Hl & _ & Hs).
  - lia.
  - split; [exact Hx|]. split; [auto|lia].
  - intros i x Hi (Hl & Hhi & Hlo). rewrite le_row_stored_ret by (assumption || lia).
    destruct (lsc_le m i W ltac:(lia)) as [Hc1 Hc2].
    cbn [mbind out_bind fst snd]. rewrite dot_at_ret by lia. cbn [mbind out_bind].
    rewrite idx_vel by lia. cbn [mbind out_bind].
    pose proof (lw_bound m W i ltac:(lia)).
    destruct (nz (le_nnz m) i) as [|k] eqn:Ek; [lia|]. rewrite last_map_seq. cbn [unwrap mbind out_bind].
    rewrite set_lookup by lia. eexists; split; [reflexivity|].
    split; [now rewrite insert_length|].
    rewrite <- Ek, stored_sum by (assumption || lia). cbn [bigsum]. rewrite (Hhi i) by lia.
    replace (lsc m i + k)%nat with i by lia.
    split.
    + intros j Hj. rewrite vel_insert by lia. rewrite (proj2 (Nat.eqb_neq j i)) by lia. apply Hhi; lia.
    + intros j Hj. rewrite vel_insert by lia.
      destruct (Nat.eqb_spec j i) as [->|Hne].
      * rewrite (bigsum_ext (fun c => el m i c * vel (<[i := _]> x) c) (fun c => el m i c * vel x c)).
        2:{ intros c Hc. rewrite vel_insert by lia. now rewrite (proj2 (Nat.eqb_neq c i)) by lia. }
        field. apply Hd; lia.
      * rewrite <- (Hlo j) by lia. f_equal. apply bigsum_ext. intros c Hc.
        rewrite vel_insert by lia. now rewrite (proj2 (Nat.eqb_neq c i)) by lia.
  - exists x. split; [exact E|]. split; [exact Hl|]. intros i Hi. rewrite lower_mv by assumption. auto.
Qed.

Lemma le_solve_refuses m (b x0 : list A) : length b <> lev_n m \/ length x0 <> lev_n m ->
  le_solve m b x0 = Panic.
Proof.
  intros H. unfold le_solve. destruct (Nat.eqb_spec (lev_n m) (length b)); [|reflexivity].
  cbn [assert_ mbind out_bind]. rewrite (proj2 (Nat.eqb_neq _ _)) by lia. reflexivity.
Qed.

(** The solve on the window [lo, hi). *)
Lemma le_solve_sub_spec m (b x0 : list A) lo hi : le_wf m -> (lo <= hi)%nat -> (hi <= lev_n m)%nat ->
  length b = (hi - lo)%nat -> length x0 = (hi - lo)%nat ->
  (forall i, (lo <= i < hi)%nat -> el m i i <> 0) ->
  exists x, le_solve_sub m b x0 lo hi = Ret x /\ length x = (hi - lo)%nat /\
    forall i, (i < hi - lo)%nat ->
      mv (hi - lo) (fun r c => el m (lo + r) (lo + c)) (vel x) i
      = vel b i - el m (lo + i) (lo + i) * vel x0 i.
Proof.
  intros W Hlh Hhn Hb Hx Hd. unfold le_solve_sub.
  rewrite (proj2 (Nat.eqb_eq _ _)) by congruence. cbn [assert_ mbind out_bind].
  rewrite usub_ret by lia. cbn [mbind out_bind].
  rewrite (proj2 (Nat.eqb_eq _ _)) by congruence. cbn [assert_ mbind out_bind].
  rewrite (proj2 (Nat.ltb_ge _ _)) by lia.
  set (w := (hi - lo)%nat) in *.
  assert (Hz : zip (seq 0 w) (range lo hi) = map (fun k => (k, lo + k)%nat) (seq 0 w)).
  { unfold range. fold w. rewrite <- (map_id (seq 0 w)) at 1. rewrite <- (map_id (seq lo w)), zip_map_seq.
    reflexivity. }
  rewrite Hz. clear Hz.
  assert (Hmap : forall (f : nat * nat -> list A -> out (list A)) l x,
     foldM f (map (fun k => (k, lo + k)%nat) l) x = foldM (fun k => f (k, lo + k)%nat) l x).
  { intros f l. induction l as [|k l IH]; intros x; [reflexivity|]. cbn [map foldM].
    destruct (f _ x); [|reflexivity..]. cbn [mbind out_bind]. apply IH. }
  rewrite Hmap. clear Hmap.
  match goal with |- exists x, foldM ?F _ _ = _ /\ _ => set (body := F) end.
  destruct (foldM_seq_inv
    (fun k (x : list A) => length x = w /\
       (forall i, k <= i -> vel x i = vel x0 i) /\
       forall i, (i < k)%nat ->
         bigsum i (fun c => el m (lo + i) (lo + c) * vel x c) + el m (lo + i) (lo + i) * vel x i
         = vel b i - el m (lo + i) (lo + i) * vel x0 i)
    body 0 w x0) as (x & E & Hl & _ & Hs).
  - split; [exact Hx|]. split; [auto|lia].
  - intros i x Hi (Hl & Hhi & Hlo). subst body. cbn beta iota zeta.
    rewrite le_row_stored_ret by (assumption || lia).
    destruct (lsc_le m (lo + i) W ltac:(lia)) as [Hc1 Hc2].
    cbn [mbind out_bind fst snd]. rewrite map_length, seq_length.
    set (offset := if (lsc m (lo + i) <? lo)%nat then (lo - lsc m (lo + i))%nat else 0%nat).
    assert (Ho : (lsc m (lo + i) + offset = Nat.max lo (lsc m (lo + i)))%nat).
    { subst offset. destruct (Nat.ltb_spec (lsc m (lo + i)) lo); lia. }
    assert (Ho2 : (offset < nz (le_nnz m) (lo + i))%nat) by lia.
    rewrite slice_ret by (rewrite ?map_length, ?seq_length; lia). cbn [mbind out_bind].
    rewrite <- fmap_drop, drop_seq, take_ge by (rewrite fmap_length, seq_length; lia).
    rewrite Ho. set (s := Nat.max lo (lsc m (lo + i))) in *.
    rewrite usub_ret by lia. cbn [mbind out_bind].
    set (k := (nz (le_nnz m) (lo + i) - offset)%nat) in *.
    assert (Hk : (s + k = lo + i + 1)%nat) by lia.
    change (dot_at (el m (lo + i)%nat <$> seq s k)) with (dot_at (map (el m (lo + i)%nat) (seq s k))).
    rewrite dot_at_ret by lia. cbn [mbind out_bind]. rewrite idx_vel by lia. cbn [mbind out_bind].
    assert (Hdot : bigsum k (fun j => el m (lo + i) (s + j) * vel x (s - lo + j))
                   = bigsum (S i) (fun c => el m (lo + i) (lo + c) * vel x c)).
    { rewrite (bigsum_split FL (S i) (s - lo)) by lia. rewrite (bigsum_0 FL (s - lo)).
      - replace (S i - (s - lo))%nat with k by lia.
        rewrite (bigsum_ext (fun i0 => el m (lo + i) (lo + (s - lo + i0)) * vel x (s - lo + i0))
                   (fun j => el m (lo + i) (s + j) * vel x (s - lo + j))); [ring|].
        intros j _. do 2 f_equal. lia.
      - intros c Hc. rewrite el_left; [ring|assumption|lia]. }
    rewrite Hdot. cbn [bigsum].
    destruct k as [|k'] eqn:Ek; [lia|].
    change (el m (lo + i)%nat <$> seq s (S k')) with (map (el m (lo + i)%nat) (seq s (S k'))).
    rewrite last_map_seq. cbn [unwrap mbind out_bind].
    replace (s + k')%nat with (lo + i)%nat by lia.
    rewrite set_lookup by lia. eexists; split; [reflexivity|].
    split; [now rewrite insert_length|]. rewrite (Hhi i) by lia.
    split.
    + intros j Hj. rewrite vel_insert by lia. rewrite (proj2 (Nat.eqb_neq j i)) by lia. apply Hhi; lia.
    + intros j Hj. rewrite vel_insert by lia.
      destruct (Nat.eqb_spec j i) as [->|Hne].
      * rewrite (bigsum_ext (fun c => el m (lo + i) (lo + c) * vel (<[i := _]> x) c)
                   (fun c => el m (lo + i) (lo + c) * vel x c)).
        2:{ intros c Hc. rewrite vel_insert by lia. now rewrite (proj2 (Nat.eqb_neq c i)) by lia. }
        field. apply Hd; lia.
      * rewrite <- (Hlo j) by lia. f_equal. apply bigsum_ext. intros c Hc.
        rewrite vel_insert by lia. now rewrite (proj2 (Nat.eqb_neq c i)) by lia.
  - exists x. split; [exact E|]. split; [exact Hl|]. intros i Hi. rewrite Nat.add_0_l in Hs.
    rewrite <- (Hs i Hi). unfold mv. rewrite (bigsum_split FL w (S i)) by lia. cbn [bigsum].
    rewrite (bigsum_0 FL (w - S i)); [ring|]. intros c Hc. rewrite el_right by (assumption || lia). ring.
Qed.

Lemma foldM_axpy (row : nat -> A) (s : A) : forall k a (x : list A), (a + k <= length x)%nat ->
  exists x', foldM (fun (vc : A * nat) x => xc ← idx x vc.2; set x vc.2 (ssub xc (smul s vc.1)))
         (map (fun c => (row c, c)) (seq a k)) x = Ret x' /\ length x' = length x /\
    forall i, vel x' i = if (a <=? i)%nat && (i <? a + k)%nat then vel x i - s * row i else vel x i.
Proof.
  induction k as [|k IH]; intros a x H; cbn [seq map foldM].
  - exists x. split; [reflexivity|]. split; [reflexivity|]. intros i.
    destruct (Nat.leb_spec a i), (Nat.ltb_spec i (a + 0)); try lia; reflexivity.
  - cbn [snd fst]. rewrite idx_vel by lia. cbn [mbind out_bind]. rewrite set_lookup by lia. cbn [mbind out_bind].
    destruct (IH (S a) (<[a := vel x a - s * row a]> x)) as (x' & E & Hl & Hv).
    { rewrite insert_length. lia. }
    exists x'. split; [exact E|]. rewrite insert_length in Hl. split; [exact Hl|].
    intros i. rewrite Hv. rewrite vel_insert by lia.
    destruct (Nat.leb_spec (S a) i), (Nat.leb_spec a i), (Nat.ltb_spec i (S a + k)),
      (Nat.ltb_spec i (a + S k)), (Nat.eqb_spec i a) as [Ei|]; try lia; try reflexivity.
    now subst.
Qed.

(** The transposed solve. *)
Lemma le_solve_t_spec m (y x0 : list A) : le_wf m -> length y = lev_n m -> length x0 = lev_n m ->
  (forall i, i < lev_n m -> el m i i <> 0) ->
  exists x, le_solve_t m y x0 = Ret x /\ length x = lev_n m /\
    forall i, (i < lev_n m)%nat -> mv (lev_n m) (fun r c => el m c r) (vel x) i = vel y i.
Proof.
  intros W Hy Hx Hd. unfold le_solve_t.
  rewrite (proj2 (Nat.eqb_eq _ _)) by congruence. cbn [assert_ mbind out_bind].
  rewrite (proj2 (Nat.eqb_eq _ _)) by congruence. cbn [assert_ mbind out_bind].
  set (n := lev_n m) in *.
  match goal with |- exists x, foldM ?F _ _ = _ /\ _ => set (body := F) end.
  (* x i is final for i >= k, and for i < k still lacks the rows below k *)
  destruct (foldM_rev_range_inv
    (fun k (x : list A) => length x = n /\ (k <= n)%nat /\
       forall i, (i < n)%nat ->
         vel y i = (if (i <? k)%nat then vel x i else el m i i * vel x i)
                   + bigsum (n - Nat.max k (S i)) (fun j => el m (Nat.max k (S i) + j) i * vel x (Nat.max k (S i) + j)))
    body n y) as (x & E & Hl & _ & Hs).
  - split; [exact Hy|]. split; [lia|]. intros i Hi. rewrite (proj2 (Nat.ltb_lt i n)) by lia.
    replace (Nat.max n (S i)) with n by lia. rewrite Nat.sub_diag. cbn. ring.
  - intros k x Hk (Hl & _ & Hs). subst body. cbn beta.
    rewrite idx_vel by lia. cbn [mbind out_bind].
    destruct (lsc_le m k W Hk) as [Hc1 Hc2].
    assert (Hstep : forall x' : list A, length x' = n ->
        el m k k * vel x' k = vel x k ->
        (forall i, (i < k)%nat -> vel x' i = vel x i - vel x' k * el m k i) ->
        (forall i, (k < i)%nat -> vel x' i = vel x i) ->
        forall i, (i < n)%nat ->
         vel y i = (if (i <? k)%nat then vel x' i else el m i i * vel x' i)
                   + bigsum (n - Nat.max k (S i)) (fun j => el m (Nat.max k (S i) + j) i * vel x' (Nat.max k (S i) + j))).
    { intros x' Hl' H1 H2 H3 i Hi. rewrite (Hs i Hi).
      destruct (Nat.ltb_spec i k) as [Hik|Hik].
      - rewrite (proj2 (Nat.ltb_lt i (S k))) by lia.
        replace (Nat.max (S k) (S i)) with (S k) by lia. replace (Nat.max k (S i)) with k by lia.
        replace (n - k)%nat with (1 + (n - S k))%nat by lia. rewrite (bigsum_app FL). cbn [bigsum].
        rewrite Nat.add_0_r. rewrite (H2 i) by assumption.
        rewrite (bigsum_ext (fun j => el m (S k + j) i * vel x (S k + j))
                   (fun j => el m (k + (1 + j)) i * vel x' (k + (1 + j)))); [ring|].
        intros j Hj. rewrite H3 by lia. do 2 f_equal; lia.
      - destruct (decide (i = k)) as [->|Hne].
        + rewrite (proj2 (Nat.ltb_lt k (S k))) by lia. rewrite H1.
          rewrite (Nat.max_l (S k) (S k)), (Nat.max_r k (S k)) by lia. f_equal.
          apply bigsum_ext. intros j Hj. now rewrite H3 by lia.
        + rewrite (proj2 (Nat.ltb_ge i (S k))) by lia. rewrite (H3 i) by lia.
          rewrite (Nat.max_r (S k) (S i)), (Nat.max_r k (S i)) by lia. f_equal.
          apply bigsum_ext. intros j Hj. now rewrite H3 by lia. }
    destruct (seqb (vel x k) s0) eqn:Ez.
    + apply (fl_eqb A FL) in Ez. exists x. split; [reflexivity|]. split; [exact Hl|]. split; [lia|].
      apply Hstep; [exact Hl| | |].
      * rewrite Ez. ring.
      * intros i _. rewrite Ez. ring.
      * reflexivity.
    + rewrite le_row_stored_ret by assumption. cbn [mbind out_bind fst snd].
      destruct (nz (le_nnz m) k) as [|q] eqn:Eq; [lia|]. rewrite last_map_seq. cbn [unwrap mbind out_bind].
      replace (lsc m k + q)%nat with k by lia. rewrite set_lookup by lia. cbn [mbind out_bind].
      rewrite map_length, seq_length. replace (S q - 1)%nat with q by lia.
      rewrite <- fmap_take, take_seq. replace (q `min` S q) with q by lia.
      rewrite fmap_length, seq_length.
      change (el m k <$> seq (lsc m k) q) with (map (el m k) (seq (lsc m k) q)).
      assert (zip (map (el m k) (seq (lsc m k) q)) (seq (lsc m k) q)
              = map (fun c => (el m k c, c)) (seq (lsc m k) q)) as ->.
      { rewrite <- (map_id (seq (lsc m k) q)) at 2. rewrite zip_map_seq.
        symmetry. apply map_seq_shift. }
      set (s := vel x k / el m k k).
      destruct (foldM_axpy (el m k) s q (lsc m k) (<[k := s]> x)) as (x' & E' & Hl' & Hv).
      { rewrite insert_length. lia. }
      rewrite insert_length in Hl'. exists x'. split; [exact E'|]. split; [congruence|]. split; [lia|].
      assert (Hxk : vel x' k = s).
      { rewrite Hv. rewrite (proj2 (Nat.ltb_ge k _)) by lia. rewrite andb_false_r.
        rewrite vel_insert by lia. now rewrite Nat.eqb_refl. }
      apply Hstep; [congruence| | |].
      * rewrite Hxk. unfold s. field. apply Hd; lia.
      * intros i Hi. rewrite Hxk, Hv. rewrite vel_insert by lia. rewrite (proj2 (Nat.eqb_neq i k)) by lia.
        destruct (Nat.leb_spec (lsc m k) i), (Nat.ltb_spec i (lsc m k + q)); cbn; try lia; try reflexivity.
        rewrite el_left by assumption. ring.
      * intros i Hi. rewrite Hv. rewrite vel_insert by lia. rewrite (proj2 (Nat.eqb_neq i k)) by lia.
        rewrite (proj2 (Nat.ltb_ge i _)) by lia. now rewrite andb_false_r.
  - exists x. split; [exact E|]. split; [exact Hl|]. intros i Hi. rewrite (Hs i Hi).
    rewrite (proj2 (Nat.ltb_ge i 0)) by lia. replace (Nat.max 0 (S i)) with (S i) by lia.
    unfold mv. rewrite (bigsum_split FL n i) by lia. rewrite (bigsum_0 FL i).
    + replace (n - i)%nat with (1 + (n - S i))%nat by lia. rewrite (bigsum_app FL). cbn [bigsum].
      rewrite Nat.add_0_r.
      rewrite (bigsum_ext (fun i0 => el m (i + (1 + i0)) i * vel x (i + (1 + i0)))
                 (fun j => el m (S i + j) i * vel x (S i + j))); [ring|].
      intros j _. do 2 f_equal; lia.
    + intros c Hc. rewrite el_right by (assumption || lia). ring.
Qed.
End solve.
