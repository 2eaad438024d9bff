(** Backward error of the triangular solves on envelope storage in rounded arithmetic. *)
From Coq Require Import Reals Lra Lia.
From Verif Require Export Round EnvSteps.
Local Close Scope R_scope.

Lemma fin_choice {B} (d : B) n (P : nat -> B -> Prop) : (forall i, i < n -> exists t, P i t) ->
  exists T : nat -> B, forall i, i < n -> P i (T i).
Proof.
  induction n as [|n IH]; intros H; [exists (fun _ => d); lia|].
  destruct IH as [T HT]; [intros; apply H; lia|]. destruct (H n ltac:(lia)) as [t Ht].
  exists (fun i => if i =? n then t else T i). intros i Hi. destruct (Nat.eqb_spec i n) as [->|]; [assumption|].
  apply HT. lia.
Qed.

(** arithmetic on the common carrier *)
Ltac to_R := lazymatch goal with |- @eq _ ?a ?b => change (@eq R a b); apply Rminus_diag_uniq end.
Ltac rring := to_R; ring.
Ltac rfield := to_R; field.

Section sub.
Context {u : R} {rnd : R -> R} (RN : rounding u rnd).
Let Hu := rn_u _ _ RN.
Local Open Scope R_scope.
Local Notation A := (Rnd_arith rnd).
Implicit Types m : lenv A.
Local Notation ent := (el (A := A) (M := lenv A)).

(** the computed inner product of a row *)
Lemma row_dot_cnt lo m i (x : nat -> A) : (row_from lo m i <= i)%nat ->
  (forall c, (c < row_from lo m i)%nat -> (ent m i c : R) * x c = 0) ->
  exists t : nat -> R, row_dot lo m i x s0 = rsum i (fun c => ent m i c * x c * t c) /\
    forall c, (c < i)%nat -> ecnt u i (t c).
Proof.
  intros Hi Hz. unfold row_dot. set (s := row_from lo m i) in *.
  destruct (dot_cnt RN (i - s) (fun j => ent m i (s + j)) (fun j => x (s + j)%nat)) as (t & E & Ht).
  exists (fun c => if (s <=? c)%nat then t (c - s)%nat else 1). split.
  - cbn [sadd smul s0 Rnd_arith]. rewrite Rmult_0_r, (rnd_0 RN), Rplus_0_r.
    change (rnd (@bigsum A (i - s) (fun j => smul (ent m i (s + j)) (x (s + j)%nat)))
            = rsum i (fun c => ent m i c * x c * (if (s <=? c)%nat then t (c - s)%nat else 1))).
    rewrite (bigsum_fix RN), E.
    rewrite (rsum_window i s i) by (try lia; intros c Hc; try lia; rewrite Hz by assumption; rring).
    apply rsum_ext. intros j Hj. rewrite (proj2 (Nat.leb_le s _)) by lia. do 2 f_equal. lia.
  - intros c Hc. destruct (Nat.leb_spec s c) as [Hs|Hs].
    + apply (ecnt_mono u Hu (i - s)); [lia|]. apply Ht. lia.
    + apply (ecnt_1 u Hu).
Qed.

(** one equation of a forward solve *)
Lemma row_eq_cnt lo m i (x : nat -> A) (b xi : A) : (row_from lo m i <= i)%nat -> (ent m i i : R) <> 0 ->
  (forall c, (c < row_from lo m i)%nat -> (ent m i c : R) * x c = 0) ->
  xi = sdiv (ssub b (row_dot lo m i x s0)) (ent m i i) ->
  exists t : nat -> R, b = rsum i (fun c => ent m i c * x c * t c) + ent m i i * xi * t i /\
    (forall c, (c < i)%nat -> ecnt u i (t c)) /\ ecnt u 2 (t i).
Proof.
  intros Hi Hd Hz ->. destruct (row_dot_cnt lo m i x Hi Hz) as (t & -> & Ht).
  set (S0 := rsum i _). cbn [sdiv ssub Rnd_arith].
  set (f1 := fac (rnd := rnd) (b - S0)). set (f2 := fac (rnd := rnd) (rnd (b - S0) / ent m i i)).
  exists (fun c => if (c =? i)%nat then / (f1 * f2) else t c). rewrite Nat.eqb_refl. split; [|split].
  - rewrite (rsum_ext i _ (fun c => ent m i c * x c * t c)).
    2:{ intros c Hc. rewrite (proj2 (Nat.eqb_neq c i)) by lia. reflexivity. }
    fold S0. rewrite (rnd_fac RN (_ / _)). fold f2. rewrite (rnd_fac RN (b - S0)). fold f1.
    pose proof (fac_neq RN (b - S0)) as N1. fold f1 in N1. pose proof (fac_neq RN (rnd (b - S0) / ent m i i)) as N2.
    fold f2 in N2. clearbody f1 f2. rfield. auto.
  - intros c Hc. rewrite (proj2 (Nat.eqb_neq c i)) by lia. auto.
  - apply (ecnt_inv u Hu). apply (ecnt_mul u Hu 1 1); apply (fac_cnt RN).
Qed.

Lemma le_solve_round m (b : list A) : le_wf m -> length b = lev_n m ->
  (forall i, (i < lev_n m)%nat -> (ent m i i : R) <> 0) ->
  exists x, le_solve m b (replicate (lev_n m) s0) = Ret x /\ length x = lev_n m /\
  exists T : nat -> nat -> R,
    (forall i c, (i < lev_n m)%nat -> (c < lev_n m)%nat -> ecnt u (2 `max` i) (T i c)) /\
    forall i, (i < lev_n m)%nat -> rsum (lev_n m) (fun c => ent m i c * T i c * vel x c) = vel b i.
Proof.
  intros W Hb Hd. destruct (le_solve_steps m b (replicate (lev_n m) s0) W Hb (replicate_length _ _)) as (x & E & Hl & Hs).
  exists x. split; [exact E|]. split; [exact Hl|].
  set (n := lev_n m) in *.
  destruct (fin_choice (fun _ : nat => 1) n (fun i t => (forall c, (c < n)%nat -> ecnt u (2 `max` i) (t c)) /\
      rsum n (fun c => ent m i c * t c * vel x c) = vel b i)) as [T HT].
  - intros i Hi. specialize (Hs i Hi). rewrite vel_replicate in Hs.
    destruct (lsc_le m i W Hi) as [Hc1 _].
    destruct (row_eq_cnt 0 m i (vel x) (vel b i) (vel x i)) as (t & Et & Ht & Hti).
    + unfold row_from. lia.
    + apply Hd; exact Hi.
    + unfold row_from. rewrite Nat.max_0_l. intros c Hc. rewrite el_left by assumption. cbn [s0 Rnd_arith]. rring.
    + exact Hs.
    + exists (fun c => if (c <=? i)%nat then t c else 1). split.
      * intros c Hc. destruct (Nat.leb_spec c i); [|apply (ecnt_1 u Hu)].
        destruct (decide (c = i)) as [->|]; [apply (ecnt_mono u Hu 2); [lia|assumption]|].
        apply (ecnt_mono u Hu i); [lia|]. apply Ht. lia.
      * rewrite (rsum_window n 0 (S i)) by (try lia; intros c Hc; try lia; rewrite el_right by (assumption || lia); cbn [s0 Rnd_arith]; rring).
        rewrite Nat.sub_0_r, rsum_S. rewrite Et at 1. rewrite (proj2 (Nat.leb_le (0 + i) i)) by lia.
        f_equal; [|cbn [Nat.add]; rring]. apply rsum_ext. intros c Hc.
        rewrite (proj2 (Nat.leb_le (0 + c) i)) by lia. cbn [Nat.add]. rring.
  - exists T. split; intros; apply HT; assumption.
Qed.

(** the transposed solve *)
Lemma le_solve_t_round m (y x0 : list A) : le_wf m -> length y = lev_n m -> length x0 = lev_n m ->
  (forall i, (i < lev_n m)%nat -> (ent m i i : R) <> 0) ->
  exists x, le_solve_t m y x0 = Ret x /\ length x = lev_n m /\
  exists T : nat -> nat -> R,
    (forall i c, (i < lev_n m)%nat -> (c < lev_n m)%nat -> ecnt u (lev_n m - c) (T i c)) /\
    forall c, (c < lev_n m)%nat -> rsum (lev_n m) (fun i => ent m i c * T i c * vel x i) = vel y c.
Proof.
  intros W Hy Hx Hd. unfold le_solve_t.
  rewrite (proj2 (Nat.eqb_eq _ _)) by congruence. cbn [assert_ mbind out_bind].
  rewrite (proj2 (Nat.eqb_eq _ _)) by congruence. cbn [assert_ mbind out_bind].
  set (n := lev_n m) in *.
  match goal with |- exists x, foldM ?F _ _ = _ /\ _ => set (body := F) end.
  set (good := fun k (x : list A) c => exists (D : R) (t : nat -> R),
         (forall q, (q < n)%nat -> ecnt u (n - (k `max` c)) (t q)) /\
         if (c <? k)%nat then ecnt u (n - k) D /\
              (vel y c : R) = vel x c * D + rsum n (fun q => if (k <=? q)%nat then ent m q c * vel x q * t q else 0)
         else (vel y c : R) = rsum n (fun q => ent m q c * vel x q * t q)).
  destruct (foldM_rev_range_inv
    (fun k (x : list A) => length x = n /\ (k <= n)%nat /\ forall c, (c < n)%nat -> good k x c)
    body n y) as (x & E & Hl & _ & Hs).
  - split; [exact Hy|]. split; [lia|]. intros c Hc. exists 1, (fun _ => 1). split; [intros; apply (ecnt_1 u Hu)|].
    rewrite (proj2 (Nat.ltb_lt c n)) by lia. split; [apply (ecnt_1 u Hu)|].
    rewrite (rsum_0 n). { rring. }
    intros q Hq. rewrite (proj2 (Nat.leb_gt n q)) by lia. reflexivity.
  - intros k x Hk (Hl & _ & Hs). subst body. cbn beta.
    rewrite idx_vel by lia. cbn [mbind out_bind].
    destruct (lsc_le m k W Hk) as [Hc1 Hc2].
    assert (Hstep : forall x' : list A, length x' = n ->
        (exists f, ecnt u 1 f /\ (vel x k : R) = ent m k k * vel x' k * f) ->
        (forall i, (i < k)%nat -> exists f g, ecnt u 1 f /\ ecnt u 1 g /\
            (vel x i : R) = vel x' i * f + vel x' k * ent m k i * g) ->
        (forall i, (k < i)%nat -> vel x' i = vel x i) ->
        forall c, (c < n)%nat -> good k x' c).
    { intros x' Hl' (f & Hf & H1) H2 H3 c Hc. destruct (Hs c Hc) as (D & t & Ht & HD).
      destruct (Nat.lt_trichotomy c k) as [Hck|[->|Hck]].
      - rewrite (proj2 (Nat.ltb_lt c (S k))) in HD by lia. destruct HD as [HD HE].
        destruct (H2 c Hck) as (f' & g & Hf' & Hg & Hxc).
        exists (D * f'), (fun q => if (q =? k)%nat then D * g else t q). split.
        + intros q Hq. replace (n - k `max` c)%nat with (n - S k + 1)%nat by lia.
          destruct (q =? k)%nat; [now apply (ecnt_mul u Hu)|]. apply (ecnt_mono u Hu (n - S k)); [lia|].
          replace (n - S k)%nat with (n - S k `max` c)%nat by lia. now apply Ht.
        + rewrite (proj2 (Nat.ltb_lt c k)) by lia. split.
          { replace (n - k)%nat with (n - S k + 1)%nat by lia. now apply (ecnt_mul u Hu). }
          rewrite HE, Hxc.
          rewrite (rsum_window n k n) by (try lia; intros q Hq; try lia; rewrite (proj2 (Nat.leb_gt _ _)) by lia; reflexivity).
          rewrite (rsum_window n k n (fun q => if (k <=? q)%nat then _ else 0)) by (try lia; intros q Hq; try lia; rewrite (proj2 (Nat.leb_gt _ _)) by lia; reflexivity).
          rewrite !(rsum_split (n - k) 1) by lia. rewrite !(rsum_S 0). cbn [Nat.add]. rewrite Nat.add_0_r.
          rewrite Nat.leb_refl, Nat.eqb_refl. rewrite (proj2 (Nat.leb_gt (S k) k)) by lia.
          rewrite (rsum_ext (n - k - 1) (fun i => if (k <=? k + S i)%nat then _ else 0)
                     (fun i => if (S k <=? k + S i)%nat then ent m (k + S i)%nat c * vel x (k + S i) * t (k + S i)%nat else 0)).
          2:{ intros j Hj. rewrite (proj2 (Nat.leb_le k _)), (proj2 (Nat.leb_le (S k) _)), (proj2 (Nat.eqb_neq _ _)) by lia.
              now rewrite H3 by lia. }
          unfold rsum at 1 3. cbn [bigsum s0 R_arith]. rring.
      - rewrite (proj2 (Nat.ltb_lt k (S k))) in HD by lia. destruct HD as [HD HE].
        exists 1, (fun q => if (q =? k)%nat then f * D else t q). split.
        + intros q Hq. replace (n - k `max` k)%nat with (1 + (n - S k))%nat by lia.
          destruct (q =? k)%nat; [now apply (ecnt_mul u Hu)|]. apply (ecnt_mono u Hu (n - S k)); [lia|].
          replace (n - S k)%nat with (n - S k `max` k)%nat by lia. now apply Ht.
        + rewrite Nat.ltb_irrefl. rewrite HE, H1.
          rewrite (rsum_window n k n) by (try lia; intros q Hq; try lia; rewrite (proj2 (Nat.leb_gt _ _)) by lia; reflexivity).
          rewrite (rsum_window n k n (fun q => ent m q k * vel x' q * _)) by (try lia; intros q Hq; try lia; rewrite el_right by (assumption || lia); cbn [s0 Rnd_arith]; rring).
          rewrite !(rsum_split (n - k) 1) by lia. rewrite !(rsum_S 0). cbn [Nat.add]. rewrite Nat.add_0_r.
          rewrite Nat.eqb_refl. rewrite (proj2 (Nat.leb_gt (S k) k)) by lia.
          rewrite (rsum_ext (n - k - 1) (fun i => if (S k <=? k + S i)%nat then _ else 0)
                     (fun i => ent m (k + S i)%nat k * vel x' (k + S i) * (if (k + S i =? k)%nat then f * D else t (k + S i)%nat))).
          2:{ intros j Hj. rewrite (proj2 (Nat.leb_le (S k) _)), (proj2 (Nat.eqb_neq _ _)) by lia.
              now rewrite H3 by lia. }
          unfold rsum at 1 3. cbn [bigsum s0 R_arith]. rring.
      - rewrite (proj2 (Nat.ltb_ge c (S k))) in HD by lia. exists D, t. split.
        + intros q Hq. replace (k `max` c)%nat with (S k `max` c)%nat by lia. now apply Ht.
        + rewrite (proj2 (Nat.ltb_ge c k)) by lia. rewrite HD. apply rsum_ext. intros q Hq.
          destruct (Nat.le_gt_cases q k) as [Hqk|Hqk].
          * rewrite el_right by (assumption || lia). cbn [s0 Rnd_arith]. rring.
          * now rewrite H3 by lia. }
    destruct (seqb (vel x k) s0) eqn:Ez.
    + apply R_eqb_iff in Ez. cbn [s0 Rnd_arith] in Ez. exists x. split; [reflexivity|]. split; [exact Hl|]. split; [lia|].
      apply Hstep; [exact Hl| | |].
      * exists 1. split; [apply (ecnt_1 u Hu)|]. change (vel x k : R) with (vel x k). rewrite Ez. rring.
      * intros i _. exists 1, 1. split; [apply (ecnt_1 u Hu)|]. split; [apply (ecnt_1 u Hu)|]. rewrite Ez. rring.
      * reflexivity.
    + rewrite le_row_stored_ret by assumption. cbn [mbind out_bind fst snd].
      destruct (nz (le_nnz m) k) as [|q] eqn:Eq; [lia|]. rewrite last_map_seq. cbn [unwrap mbind out_bind].
      replace (lsc m k + q)%nat with k by lia. rewrite set_lookup by lia. cbn [mbind out_bind].
      rewrite map_length, seq_length. replace (S q - 1)%nat with q by lia.
      rewrite <- fmap_take, take_seq. replace (q `min` S q) with q by lia.
      rewrite fmap_length, seq_length.
      change (ent m k <$> seq (lsc m k) q) with (map (ent m k) (seq (lsc m k) q)).
      assert (zip (map (ent m k) (seq (lsc m k) q)) (seq (lsc m k) q)
              = map (fun c => (ent m k c, c)) (seq (lsc m k) q)) as ->.
      { rewrite <- (map_id (seq (lsc m k) q)) at 2. rewrite zip_map_seq.
        symmetry. apply map_seq_shift. }
      set (s := sdiv (vel x k) (ent m k k)).
      destruct (foldM_axpy (ent m k) s q (lsc m k) (<[k := s]> x)) as (x' & E' & Hl' & Hv).
      { rewrite insert_length. lia. }
      rewrite insert_length in Hl'. exists x'. split; [exact E'|]. split; [congruence|]. split; [lia|].
      assert (Hxk : vel x' k = s).
      { rewrite Hv. rewrite (proj2 (Nat.ltb_ge k _)) by lia. rewrite andb_false_r.
        rewrite vel_insert by lia. now rewrite Nat.eqb_refl. }
      apply Hstep; [congruence| | |].
      * exists (/ fac (rnd := rnd) (vel x k / ent m k k)). split; [apply (ecnt_inv u Hu), (fac_cnt RN)|].
        rewrite Hxk. unfold s. cbn [sdiv Rnd_arith]. rewrite (rnd_fac RN).
        pose proof (fac_neq RN (vel x k / ent m k k)) as N. specialize (Hd k Hk). set (f := fac _) in *. clearbody f. rfield. auto.
      * intros i Hi. rewrite Hxk, Hv. rewrite vel_insert by lia. rewrite (proj2 (Nat.eqb_neq i k)) by lia.
        destruct (Nat.leb_spec (lsc m k) i), (Nat.ltb_spec i (lsc m k + q)); cbn [andb]; try lia.
        -- cbn [ssub smul Rnd_arith]. set (p := rnd (s * ent m k i)).
           exists (/ fac (rnd := rnd) (vel x i - p)), (fac (rnd := rnd) (s * ent m k i)).
           split; [apply (ecnt_inv u Hu), (fac_cnt RN)|]. split; [apply (fac_cnt RN)|].
           rewrite (rnd_fac RN (vel x i - p)). rewrite <- (rnd_fac RN (s * ent m k i)). fold p.
           pose proof (fac_neq RN (vel x i - p)) as N. set (f := fac _) in *. clearbody f. rfield. auto.
        -- exists 1, 1. split; [apply (ecnt_1 u Hu)|]. split; [apply (ecnt_1 u Hu)|].
           rewrite el_left by assumption. cbn [s0 Rnd_arith]. rring.
      * intros i Hi. rewrite Hv. rewrite vel_insert by lia. rewrite (proj2 (Nat.eqb_neq i k)) by lia.
        rewrite (proj2 (Nat.ltb_ge i _)) by lia. now rewrite andb_false_r.
  - exists x. split; [exact E|]. split; [exact Hl|].
    destruct (fin_choice (fun _ : nat => 1) n (fun c t => (forall q, (q < n)%nat -> ecnt u (n - c) (t q)) /\
       rsum n (fun q => ent m q c * t q * vel x q) = vel y c)) as [T HT].
    + intros c Hc. destruct (Hs c Hc) as (D & t & Ht & HE). rewrite (proj2 (Nat.ltb_ge c 0)) in HE by lia.
      exists t. split; [intros q Hq; replace c with (0 `max` c)%nat by lia; now apply Ht|].
      rewrite HE. apply rsum_ext. intros q _. rring.
    + exists (fun i c => T c i). split; intros; apply HT; assumption.
Qed.
End sub.
