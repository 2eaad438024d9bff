(** Finite sums over a scalar type: the specification-level [bigsum] and its algebra. *)
From Verif Require Export Scalar.

(** f 0 + ... + f (n-1), added from the left, starting at 0.0 *)
Fixpoint bigsum {A : arith} (n : nat) (f : nat -> A) : A :=
  match n with O => s0 | S k => sadd (bigsum k f) (f k) end.

Lemma ssum_seq {A : arith} (f : nat -> A) n : ssum (map f (seq 0 n)) = bigsum n f.
Proof.
  induction n as [|n IH]; [reflexivity|].
  rewrite seq_S_app, map_app. unfold ssum in *. rewrite fold_left_app, IH. reflexivity.
Qed.

Lemma bigsum_ext {A : arith} (f g : nat -> A) n :
  (forall i, i < n -> f i = g i) -> bigsum n f = bigsum n g.
Proof.
  induction n as [|n IH]; intros H; [reflexivity|]. cbn. rewrite IH, H by (auto; lia). reflexivity.
Qed.

Lemma zip_with_seq {A B C} (f : A -> B -> C) (g : nat -> A) (h : nat -> B) a n :
  zip_with f (map g (seq a n)) (map h (seq a n)) = map (fun i => f (g i) (h i)) (seq a n).
Proof. revert a; induction n as [|n IH]; intros a; [reflexivity|]. cbn. now rewrite IH. Qed.

Lemma list_eq_map_seq {B} (l : list B) (d : B) : l = map (fun i => nth i l d) (seq 0 (length l)).
Proof.
  apply list_eq. intros i. rewrite list_lookup_fmap.
  destruct (decide (i < length l)) as [H|H].
  - rewrite lookup_seq_lt by lia. cbn. destruct (lookup_lt_is_Some_2 l i H) as [x E].
    rewrite E. f_equal. symmetry. now apply nth_lookup_Some.
  - rewrite lookup_ge_None_2 by lia. rewrite lookup_seq_ge by lia. reflexivity.
Qed.

Section ring.
Context {A : arith} (FL : field_laws A).
Add Field Afield : (fl_field A FL).
Local Open Scope arith_scope.

Lemma bigsum_0 n (f : nat -> A) : (forall i, i < n -> f i = 0) -> bigsum n f = 0.
Proof. induction n as [|n IH]; intros H; [reflexivity|]. cbn. rewrite IH, H by (auto; lia). ring. Qed.

Lemma bigsum_add n (f g : nat -> A) : bigsum n (fun i => f i + g i) = bigsum n f + bigsum n g.
Proof. induction n as [|n IH]; cbn; [ring|]. rewrite IH. ring. Qed.

Lemma bigsum_sub n (f g : nat -> A) : bigsum n (fun i => f i - g i) = bigsum n f - bigsum n g.
Proof. induction n as [|n IH]; cbn; [ring|]. rewrite IH. ring. Qed.

Lemma bigsum_scale_l n (k : A) (f : nat -> A) : bigsum n (fun i => k * f i) = k * bigsum n f.
Proof. induction n as [|n IH]; cbn; [ring|]. rewrite IH. ring. Qed.

Lemma bigsum_scale_r n (k : A) (f : nat -> A) : bigsum n (fun i => f i * k) = bigsum n f * k.
Proof. induction n as [|n IH]; cbn; [ring|]. rewrite IH. ring. Qed.

Lemma bigsum_swap n m (f : nat -> nat -> A) :
  bigsum n (fun i => bigsum m (f i)) = bigsum m (fun j => bigsum n (fun i => f i j)).
Proof.
  induction n as [|n IH]; cbn.
  - symmetry. now apply bigsum_0.
  - rewrite IH, <- bigsum_add. reflexivity.
Qed.

Lemma bigsum_app n m (f : nat -> A) :
  bigsum (n + m) f = bigsum n f + bigsum m (fun i => f (n + i)%nat).
Proof.
  induction m as [|m IH]; cbn.
  - rewrite Nat.add_0_r. ring.
  - rewrite Nat.add_succ_r. cbn. rewrite IH. ring.
Qed.

Lemma bigsum_split n k (f : nat -> A) : (k <= n)%nat ->
  bigsum n f = bigsum k f + bigsum (n - k) (fun i => f (k + i)%nat).
Proof. intros H. rewrite <- bigsum_app. f_equal. lia. Qed.

(** a sum with a single non-zero term *)
Lemma bigsum_single n k (f : nat -> A) : (k < n)%nat ->
  (forall i, i < n -> i <> k -> f i = 0) -> bigsum n f = f k.
Proof.
  intros Hk H. rewrite (bigsum_split n k) by lia.
  rewrite (bigsum_0 k) by (intros; apply H; lia).
  replace (n - k)%nat with (1 + (n - k - 1))%nat by lia. rewrite bigsum_app. cbn.
  rewrite (bigsum_0 (n - k - 1)) by (intros; apply H; lia). rewrite Nat.add_0_r. ring.
Qed.

Lemma bigsum_remove n k (f : nat -> A) : (k < n)%nat ->
  bigsum n f = f k + bigsum n (fun i => if (i =? k)%nat then 0 else f i).
Proof.
  intros Hk.
  transitivity (bigsum n (fun i => (if (i =? k)%nat then f i else 0) + (if (i =? k)%nat then 0 else f i))).
  - apply bigsum_ext. intros i _. destruct (i =? k)%nat; ring.
  - rewrite bigsum_add. f_equal. rewrite (bigsum_single n k); auto.
    + now rewrite Nat.eqb_refl.
    + intros i _ Hi. apply Nat.eqb_neq in Hi. now rewrite Hi.
Qed.

End ring.

(** ** Vectors as lists: total element access *)
Definition vel {A : arith} (x : list A) (i : nat) : A := nth i x s0.

Lemma vel_lookup {A : arith} (x : list A) i v : x !! i = Some v -> vel x i = v.
Proof. intros H. unfold vel. now apply nth_lookup_Some. Qed.

Lemma lookup_vel {A : arith} (x : list A) i : i < length x -> x !! i = Some (vel x i).
Proof. intros H. destruct (lookup_lt_is_Some_2 x i H) as [v E]. rewrite E. f_equal. symmetry. now apply vel_lookup. Qed.

Lemma vel_ge {A : arith} (x : list A) i : length x <= i -> vel x i = s0.
Proof. intros H. unfold vel. now apply nth_overflow. Qed.

Lemma idx_vel {A : arith} (x : list A) i : i < length x -> idx x i = Ret (vel x i).
Proof. intros H. apply idx_lookup. now apply lookup_vel. Qed.

Lemma vel_insert {A : arith} (x : list A) i j v : i < length x ->
  vel (<[i := v]> x) j = if (j =? i) then v else vel x j.
Proof.
  intros H. destruct (Nat.eqb_spec j i) as [->|Hn].
  - apply vel_lookup. now rewrite list_lookup_insert.
  - unfold vel. rewrite !nth_lookup, list_lookup_insert_ne by auto. reflexivity.
Qed.

Lemma vel_replicate {A : arith} n i : vel (replicate n (@s0 A)) i = s0.
Proof.
  destruct (decide (i < n)); [|apply vel_ge; rewrite replicate_length; lia].
  apply vel_lookup. now apply lookup_replicate_2.
Qed.

Lemma vel_map_seq {A : arith} (f : nat -> A) n i : i < n -> vel (map f (seq 0 n)) i = f i.
Proof. intros H. apply vel_lookup. rewrite list_lookup_fmap, lookup_seq_lt by lia. reflexivity. Qed.

Lemma list_vel {A : arith} (x : list A) : x = map (vel x) (seq 0 (length x)).
Proof. apply list_eq_map_seq. Qed.

Lemma vel_ext {A : arith} (x y : list A) : length x = length y ->
  (forall i, i < length x -> vel x i = vel y i) -> x = y.
Proof.
  intros Hl H. apply list_eq. intros i. destruct (decide (i < length x)) as [Hi|Hi].
  - rewrite !lookup_vel by lia. now rewrite H.
  - rewrite !lookup_ge_None_2 by lia. reflexivity.
Qed.

Lemma take_seq k a n : take k (seq a n) = seq a (k `min` n).
Proof.
  revert k a; induction n as [|n IH]; intros [|k] a; cbn; try reflexivity. now rewrite IH.
Qed.

Lemma drop_seq k a n : drop k (seq a n) = seq (a + k) (n - k).
Proof.
  revert k a; induction n as [|n IH]; intros [|k] a; cbn; try reflexivity.
  - now rewrite Nat.add_0_r.
  - rewrite IH. f_equal. lia.
Qed.
