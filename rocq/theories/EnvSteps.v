(** What the triangular solves and factorisations on envelope storage compute, operation by
    operation, for any scalars: no law of arithmetic is used. *)
From Verif Require Export CholProofs.

Section steps.
Context {A : arith}.
Local Open Scope arith_scope.
Implicit Types (m a l : lenv A).

(** the product of row [i] with the columns [max lo (lsc m i) .. i), and the trailing term of
    the column [i] itself, where the output vector still holds [z] *)
Definition row_from (lo : nat) m (i : nat) : nat := lo `max` lsc m i.
Definition row_dot lo m (i : nat) (x : nat -> A) (z : A) : A :=
  bigsum (i - row_from lo m i) (fun j => el m i (row_from lo m i + j) * x (row_from lo m i + j)%nat)
  + el m i i * z.

Lemma row_dot_ext lo m i (x y : nat -> A) z : (forall c, (lo <= c < i)%nat -> x c = y c) -> row_dot lo m i x z = row_dot lo m i y z.
Proof. intros H. unfold row_dot. f_equal. apply bigsum_ext. intros j Hj. rewrite H by (unfold row_from in *; lia). reflexivity. Qed.

Lemma le_solve_steps m (b x0 : list A) : le_wf m -> length b = lev_n m -> length x0 = lev_n m ->
  exists x, le_solve m b x0 = Ret x /\ length x = lev_n m /\
    forall i, (i < lev_n m)%nat -> vel x i = (vel b i - row_dot 0 m i (vel x) (vel x0 i)) / el m i i.
Proof.
  intros W Hb Hx. unfold le_solve.
  rewrite (proj2 (Nat.eqb_eq _ _)) by congruence. cbn [assert_ mbind out_bind].
  rewrite (proj2 (Nat.eqb_eq _ _)) by congruence. cbn [assert_ mbind out_bind].
  destruct (foldM_range_inv
    (fun k (x : list A) => length x = lev_n m /\
       (forall i, k <= i -> vel x i = vel x0 i) /\
       forall i, (i < k)%nat -> vel x i = (vel b i - row_dot 0 m i (vel x) (vel x0 i)) / el m i i)
    (fun i x =>
           sr ← le_row_stored m i;
           dot ← dot_at sr.2 sr.1 x;
           bi ← idx b i;
           d ← unwrap (last sr.2);
           set x i (sdiv (ssub bi dot) d)) 0 (lev_n m) x0) as (x & E & Hl & _ & Hs).
  - lia.
  - split; [exact Hx|]. split; [auto|lia].
  - intros i x Hi (Hl & Hhi & Hlo). rewrite le_row_stored_ret by (assumption || lia).
    destruct (lsc_le m i W ltac:(lia)) as [Hc1 Hc2].
    cbn [mbind out_bind fst snd]. rewrite dot_at_ret by lia. cbn [mbind out_bind].
    rewrite idx_vel by lia. cbn [mbind out_bind].
    pose proof (lw_bound m W i ltac:(lia)).
    destruct (nz (le_nnz m) i) as [|k] eqn:Ek; [lia|]. rewrite last_map_seq. cbn [unwrap mbind out_bind].
    rewrite set_lookup by lia. eexists; split; [reflexivity|].
    split; [now rewrite insert_length|].
    replace (lsc m i + k)%nat with i by lia.
    split.
    + intros j Hj. rewrite vel_insert by lia. rewrite (proj2 (Nat.eqb_neq j i)) by lia. apply Hhi; lia.
    + intros j Hj. rewrite vel_insert by lia.
      destruct (Nat.eqb_spec j i) as [->|Hne].
      * rewrite (row_dot_ext 0 m i (vel (<[i := _]> x)) (vel x)).
        2:{ intros c Hc. rewrite vel_insert by lia. now rewrite (proj2 (Nat.eqb_neq c i)) by lia. }
        f_equal. f_equal. unfold row_dot, row_from. rewrite Nat.max_0_l. cbn [bigsum].
        replace (lsc m i + k)%nat with i by lia. replace (i - lsc m i)%nat with k by lia.
        rewrite (Hhi i) by lia. reflexivity.
      * rewrite (Hlo j) by lia. f_equal. f_equal. apply row_dot_ext. intros c Hc.
        rewrite vel_insert by lia. now rewrite (proj2 (Nat.eqb_neq c i)) by lia.
  - exists x. split; [exact E|]. split; [exact Hl|]. intros i Hi. auto.
Qed.

(** the solve on the window [lo, hi); the output vector starts at zero *)
Lemma le_solve_sub_steps m (b : list A) lo hi : le_wf m -> (lo <= hi)%nat -> (hi <= lev_n m)%nat ->
  length b = (hi - lo)%nat ->
  exists x, le_solve_sub m b (replicate (hi - lo) 0) lo hi = Ret x /\ length x = (hi - lo)%nat /\
    forall i, (i < hi - lo)%nat ->
      vel x i = (vel b i - row_dot lo m (lo + i) (fun c => vel x (c - lo)) 0) / el m (lo + i) (lo + i).
Proof.
  intros W Hlh Hhn Hb. unfold le_solve_sub. rewrite replicate_length.
  rewrite (proj2 (Nat.eqb_eq _ _)) by congruence. cbn [assert_ mbind out_bind].
  rewrite usub_ret by lia. cbn [mbind out_bind].
  rewrite (proj2 (Nat.eqb_eq _ _)) by congruence. cbn [assert_ mbind out_bind].
  rewrite (proj2 (Nat.ltb_ge _ _)) by lia.
  set (w := (hi - lo)%nat) in *.
  assert (Hz : zip (seq 0 w) (range lo hi) = map (fun k => (k, lo + k)%nat) (seq 0 w)).
  { unfold range. fold w. rewrite <- (map_id (seq 0 w)) at 1. rewrite <- (map_id (seq lo w)), zip_map_seq.
    reflexivity. }
  rewrite Hz. clear Hz.
  assert (Hmap : forall (f : nat * nat -> list A -> out (list A)) (L : list nat) x,
     foldM f (map (fun k => (k, lo + k)%nat) L) x = foldM (fun k => f (k, lo + k)%nat) L x).
  { intros f L. induction L as [|k L IH]; intros x; [reflexivity|]. cbn [map foldM].
    destruct (f _ x); [|reflexivity..]. cbn [mbind out_bind]. apply IH. }
  rewrite Hmap. clear Hmap.
  match goal with |- exists x, foldM ?F _ _ = _ /\ _ => set (body := F) end.
  destruct (foldM_seq_inv
    (fun k (x : list A) => length x = w /\
       (forall i, k <= i -> vel x i = 0) /\
       forall i, (i < k)%nat ->
         vel x i = (vel b i - row_dot lo m (lo + i) (fun c => vel x (c - lo)) 0) / el m (lo + i) (lo + i))
    body 0 w (replicate w 0)) as (x & E & Hl & _ & Hs).
  - split; [apply replicate_length|]. split; [intros; apply vel_replicate|lia].
  - intros i x Hi (Hl & Hhi & Hlo). subst body. cbn beta iota zeta.
    rewrite le_row_stored_ret by (assumption || lia).
    destruct (lsc_le m (lo + i) W ltac:(lia)) as [Hc1 Hc2].
    cbn [mbind out_bind fst snd]. rewrite map_length, seq_length.
    set (offset := if (lsc m (lo + i) <? lo)%nat then (lo - lsc m (lo + i))%nat else 0%nat).
    assert (Ho : (lsc m (lo + i) + offset = row_from lo m (lo + i))%nat).
    { subst offset. unfold row_from. destruct (Nat.ltb_spec (lsc m (lo + i)) lo); lia. }
    assert (Ho2 : (offset < nz (le_nnz m) (lo + i))%nat) by (unfold row_from in Ho; lia).
    rewrite slice_ret by (rewrite ?map_length, ?seq_length; lia). cbn [mbind out_bind].
    rewrite <- fmap_drop, drop_seq, take_ge by (rewrite fmap_length, seq_length; lia).
    rewrite Ho. set (s := row_from lo m (lo + i)) in *.
    assert (Hsl : (lo <= s)%nat) by (unfold s, row_from; lia).
    rewrite usub_ret by lia. cbn [mbind out_bind].
    set (k := (nz (le_nnz m) (lo + i) - offset)%nat) in *.
    assert (Hk : (s + k = lo + i + 1)%nat) by lia.
    change (dot_at (el m (lo + i)%nat <$> seq s k)) with (dot_at (map (el m (lo + i)%nat) (seq s k))).
    rewrite dot_at_ret by lia. cbn [mbind out_bind]. rewrite idx_vel by lia. cbn [mbind out_bind].
    destruct k as [|k'] eqn:Ek; [lia|].
    change (el m (lo + i)%nat <$> seq s (S k')) with (map (el m (lo + i)%nat) (seq s (S k'))).
    rewrite last_map_seq. cbn [unwrap mbind out_bind].
    replace (s + k')%nat with (lo + i)%nat by lia.
    rewrite set_lookup by lia. eexists; split; [reflexivity|].
    split; [now rewrite insert_length|].
    split.
    + intros j Hj. rewrite vel_insert by lia. rewrite (proj2 (Nat.eqb_neq j i)) by lia. apply Hhi; lia.
    + intros j Hj. rewrite vel_insert by lia.
      destruct (Nat.eqb_spec j i) as [->|Hne].
      * rewrite (row_dot_ext lo m (lo + i) (fun c => vel (<[i := _]> x) (c - lo)) (fun c => vel x (c - lo)%nat)).
        2:{ intros c Hc. rewrite vel_insert by lia. destruct (Nat.eqb_spec (c - lo) i); [lia|reflexivity]. }
        f_equal. f_equal. unfold row_dot. fold s. cbn [bigsum].
        replace (s + k')%nat with (lo + i)%nat by lia. replace (lo + i - s)%nat with k' by lia.
        replace (s - lo + k')%nat with i by lia. rewrite (Hhi i) by lia. f_equal.
        apply bigsum_ext. intros j Hj'. do 2 f_equal. lia.
      * rewrite (Hlo j) by lia. f_equal. f_equal. apply row_dot_ext. intros c Hc.
        rewrite vel_insert by lia. destruct (Nat.eqb_spec (c - lo) i); [lia|reflexivity].
  - exists x. split; [exact E|]. split; [exact Hl|]. intros i Hi. rewrite Nat.add_0_l in Hs. auto.
Qed.

(** ** the Cholesky factor *)
Definition chol_eqs a l (i : nat) : Prop :=
  (forall c, (lsc a i <= c < i)%nat ->
     el l i c = (el a i c - row_dot (lsc a i) l c (el l i) 0) / el l c c) /\
  el l i i = ssqrt (if (lsc a i <? i)%nat
                    then el a i i - bigsum (i - lsc a i) (fun j => el l i (lsc a i + j) * el l i (lsc a i + j))
                    else el a i i).

Definition chol_pre a (i : nat) l : Prop :=
  le_wf l /\ le_nnz l = le_nnz a /\ lev_n l = lev_n a /\ forall r, (r < i)%nat -> chol_eqs a l r.

Lemma row_dot_rows lo l l' i (x : nat -> A) z : le_nnz l' = le_nnz l -> (forall c, el l' i c = el l i c) ->
  row_dot lo l' i x z = row_dot lo l i x z.
Proof.
  intros Hn He. unfold row_dot, row_from. assert (lsc l' i = lsc l i) as -> by (unfold lsc; now rewrite Hn).
  rewrite He. f_equal. apply bigsum_ext. intros j _. now rewrite He.
Qed.

Lemma chol_eqs_rows a l l' i r : le_nnz l' = le_nnz l -> (r < i)%nat ->
  (forall r c, r <> i -> el l' r c = el l r c) -> chol_eqs a l r -> chol_eqs a l' r.
Proof.
  intros Hn Hr Ho [H1 H2]. split.
  - intros c Hc. rewrite !Ho by lia. rewrite (H1 c Hc). f_equal. f_equal.
    rewrite (row_dot_rows _ l l') by (try assumption; intros; now rewrite Ho by lia).
    apply row_dot_ext. intros q Hq. now rewrite Ho by lia.
  - rewrite Ho by lia. rewrite H2. f_equal. destruct (_ <? _)%nat; [|reflexivity]. f_equal.
    apply bigsum_ext. intros j Hj. now rewrite !Ho by lia.
Qed.

Lemma chol_row_steps a i l : le_wf a -> (1 <= i < lev_n a)%nat -> chol_pre a i l ->
  exists l', chol_row a i l = Ret l' /\ chol_pre a (S i) l'.
Proof.
  intros Wa Hi (W & Hnn & Hn & Heq). unfold chol_row.
  rewrite le_row_stored_ret by (assumption || lia). cbn [mbind out_bind fst snd].
  destruct (lsc_le a i Wa ltac:(lia)) as [Hs1 Hs2]. pose proof (lw_bound a Wa i ltac:(lia)) as Hb.
  rewrite map_length, seq_length, usub_ret by lia. cbn [mbind out_bind].
  assert (Hlsc : lsc l i = lsc a i) by (unfold lsc; now rewrite Hnn).
  assert (fin : forall l', le_wf l' -> le_nnz l' = le_nnz l -> lev_n l' = lev_n l ->
     (forall r c, r <> i -> el l' r c = el l r c) -> chol_eqs a l' i -> chol_pre a (S i) l').
  { intros l' W' Hnn' Hn' Ho Hi'. split; [exact W'|]. split; [congruence|]. split; [congruence|].
    intros r Hr. destruct (decide (r = i)) as [->|]; [exact Hi'|]. apply (chol_eqs_rows a l l' i); [assumption|lia|assumption|].
    apply Heq. lia. }
  destruct (Nat.eqb_spec (nz (le_nnz a) i - 1) 0) as [H0|H0].
  - assert (lsc a i = i) as Es by lia. rewrite Es.
    replace (nz (le_nnz a) i) with 1%nat by lia. cbn [seq map idx list_lookup].
    rewrite (idx_lookup _ _ (el a i i)) by reflexivity. cbn [mbind out_bind].
    destruct (le_index_set l i i (ssqrt (el a i i)) W) as (l' & E & W' & Hnn' & Hn' & He).
    { apply le_dom_true. lia. }
    exists l'. split; [exact E|]. apply fin; auto.
    + intros r c Hr. rewrite He, (proj2 (Nat.eqb_neq _ _) Hr). reflexivity.
    + split; [intros; lia|]. rewrite He, !Nat.eqb_refl, Es, Nat.ltb_irrefl. reflexivity.
  - rewrite (idx_lookup _ _ (el a i i)).
    2:{ apply map_seq_lookup; [lia|]. f_equal. lia. }
    cbn [mbind out_bind].
    rewrite slice_ret by (rewrite ?map_length, ?seq_length; lia). cbn [mbind out_bind].
    rewrite Nat.sub_0_r. rewrite drop_0, firstn_map, take_seq.
    replace ((nz (le_nnz a) i - 1) `min` nz (le_nnz a) i)%nat with (i - lsc a i)%nat by lia.
    replace (nz (le_nnz a) i - 1)%nat with (i - lsc a i)%nat by lia.
    set (s := lsc a i) in *.
    destruct (le_solve_sub_steps l (map (el a i) (seq s (i - s))) s i W) as (w & Ew & Hw & Hwe);
      [lia|lia|now rewrite map_length, seq_length|].
    rewrite Ew. cbn [mbind out_bind].
    set (t := ssqrt _).
    destruct (le_row_write_ret l i (w ++ [t]) W ltac:(lia)) as (l' & E & W' & Hnn' & Hn' & He).
    { rewrite app_length, Hnn. cbn. lia. }
    exists l'. split; [exact E|]. rewrite Hlsc in He.
    assert (Hmid : forall k, (k < i - s)%nat -> el l' i (s + k) = vel w k).
    { intros k Hk. rewrite He, Nat.eqb_refl. cbn [andb].
      assert (le_dom l i (s + k) = true) as -> by (apply le_dom_true; lia).
      replace (s + k - s)%nat with k by lia. unfold vel. apply app_nth1. lia. }
    assert (Ho : forall r c, r <> i -> el l' r c = el l r c).
    { intros r c Hr. rewrite He, (proj2 (Nat.eqb_neq _ _) Hr). reflexivity. }
    apply fin; auto. split.
    + intros c Hc. fold s in Hc. fold s.
      assert (el l' i c = vel w (c - s)) as -> by (rewrite <- Hmid by lia; f_equal; lia).
      rewrite (Hwe (c - s)%nat) by lia. replace (s + (c - s))%nat with c by lia.
      rewrite (Ho c c) by lia. f_equal. f_equal.
      * unfold vel. apply nth_lookup_Some. apply map_seq_lookup; [lia|]. f_equal. lia.
      * rewrite (row_dot_rows s l l') by (try assumption; intros; now rewrite Ho by lia).
        unfold row_dot. f_equal. apply bigsum_ext. intros j Hj. f_equal.
        set (q := (row_from s l c + j)%nat) in *. assert (s <= q < i)%nat by (unfold q, row_from in *; lia).
        rewrite <- Hmid by lia. f_equal. lia.
    + fold s. rewrite (proj2 (Nat.ltb_lt s i)) by lia. rewrite He, Nat.eqb_refl. cbn [andb].
      assert (le_dom l i i = true) as -> by (apply le_dom_true; lia).
      unfold vel at 1. rewrite app_nth2, Hw, Nat.sub_diag by lia. cbn [nth]. unfold t. f_equal. f_equal.
      rewrite (list_vel w) at 1. rewrite map_map, ssum_seq, Hw.
      apply bigsum_ext. intros k Hk. now rewrite Hmid by lia.
Qed.

(** the factorisation of a well-formed envelope never fails; its entries satisfy the defining
    recurrences in the scalars' own operations *)
Lemma chol_steps a : le_wf a -> (0 < lev_n a)%nat ->
  exists l, cholesky_envelope a = Ret l /\ chol_pre a (lev_n a) l.
Proof.
  intros Wa Hn0. unfold cholesky_envelope, le_envelope.
  destruct (from_envelope_ret (A := A) (le_nnz a)) as (l0 & E0 & W0 & Hnn0 & He0).
  { rewrite <- (lw_n a Wa). apply (lw_bound a Wa). }
  rewrite E0. cbn [mbind out_bind].
  assert (Hn : lev_n l0 = lev_n a) by (rewrite (lw_n l0 W0), (lw_n a Wa); congruence).
  rewrite (index_ret _ _ le_laws) by (assumption || (cbn; lia)). cbn [mbind out_bind].
  destruct (le_index_set l0 0 0 (ssqrt (el a 0 0)) W0) as (l1 & E1 & W1 & Hnn1 & Hn1 & He1).
  { apply le_dom_true. pose proof (lw_bound l0 W0 0 ltac:(lia)). unfold lsc. lia. }
  rewrite E1. cbn [mbind out_bind mshape le_like fst].
  assert (I1 : chol_pre a 1 l1).
  { split; [exact W1|]. split; [congruence|]. split; [congruence|]. intros r Hr. replace r with 0%nat by lia.
    split; [intros; lia|]. rewrite He1. cbn [Nat.eqb andb]. rewrite (proj2 (Nat.ltb_ge _ 0)) by lia. reflexivity. }
  destruct (foldM_range_inv (chol_pre a) (chol_row a) 1 (lev_n a) l1) as (l & E & HI); [lia|exact I1| |].
  - intros i l Hi HI. apply chol_row_steps; auto.
  - exists l. split; [exact E|exact HI].
Qed.
End steps.
