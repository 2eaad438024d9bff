(** Dense matrices represented by a table: rules used by the proofs about dense
    algorithms. *)
From Verif Require Export DenseProofs TriProofs Inverse.

(** the dense matrix [m] has shape (n, k) and shows the table [f] *)
Definition rep {A : arith} (m : lm A) (n k : nat) (f : nat -> nat -> A) : Prop :=
  lm_wf m /\ mshape m = (n, k) /\ forall r c, r < n -> c < k -> el m r c = f r c.

Definition fupd2 {A : arith} (f : nat -> nat -> A) (r c : nat) (v : A) : nat -> nat -> A :=
  fun r' c' => if (r' =? r) && (c' =? c) then v else f r' c'.

Section rep.
Context {A : arith}.
Implicit Types m : lm A.
Implicit Types f g : nat -> nat -> A.

Lemma rep_self m n k : lm_wf m -> mshape m = (n, k) -> rep m n k (el m).
Proof. intros H Hs. split; auto. Qed.

Lemma rep_ext m n k f g : rep m n k f -> (forall r c, r < n -> c < k -> f r c = g r c) -> rep m n k g.
Proof. intros (H & Hs & He) Hfg. split; [exact H|]. split; [exact Hs|]. intros r c Hr Hc. rewrite He; auto. Qed.

Lemma rep_index m n k f r c : rep m n k f -> r < n -> c < k -> index m (r, c) = Ret (f r c).
Proof.
  intros (H & Hs & He) Hr Hc. rewrite (index_ret _ _ lm_laws) by (rewrite ?Hs; auto).
  now rewrite He.
Qed.

Lemma rep_upd m n k f r c (g : A -> A) : rep m n k f -> r < n -> c < k ->
  exists m', index_upd m (r, c) g = Ret m' /\ rep m' n k (fupd2 f r c (g (f r c))).
Proof.
  intros (H & Hs & He) Hr Hc.
  destruct (index_upd_ret _ _ lm_laws m r c g H) as (m' & E & Hw & Hs' & _ & He').
  { unfold full_dom. apply in_shape_true. rewrite Hs. auto. }
  exists m'. split; [exact E|]. split; [exact Hw|]. split; [congruence|].
  intros r' c' Hr' Hc'. rewrite He'. unfold fupd2. rewrite !He by assumption. reflexivity.
Qed.

Lemma rep_set m n k f r c v : rep m n k f -> r < n -> c < k ->
  exists m', index_set m (r, c) v = Ret m' /\ rep m' n k (fupd2 f r c v).
Proof. intros H Hr Hc. exact (rep_upd m n k f r c (fun _ => v) H Hr Hc). Qed.

Lemma rep_row m n k f r : rep m n k f -> r < n -> row m r = Ret (map (f r) (seq 0 k)).
Proof.
  intros (H & Hs & He) Hr. rewrite (row_ret _ _ lm_laws m r H) by (rewrite Hs; exact Hr).
  rewrite Hs. cbn [snd]. f_equal. apply map_ext_in. intros c Hc. apply in_seq in Hc. apply He; lia.
Qed.

Lemma rep_col m n k f c : rep m n k f -> c < k -> Matrix.col m c = Ret (map (fun r => f r c) (seq 0 n)).
Proof.
  intros (H & Hs & He) Hr. rewrite (col_ret _ _ lm_laws m c H) by (rewrite Hs; exact Hr).
  rewrite Hs. cbn [fst]. f_equal. apply map_ext_in. intros r Hc. apply in_seq in Hc. apply He; lia.
Qed.

Lemma rep_diag m n f : rep m n n f -> diag m = Ret (map (fun r => f r r) (seq 0 n)).
Proof.
  intros (H & Hs & He). rewrite (diag_ret _ _ lm_laws m H). rewrite Hs. cbn [fst snd].
  rewrite Nat.min_id. f_equal. apply map_ext_in. intros r Hc. apply in_seq in Hc. apply He; lia.
Qed.

Definition swapf (i j : nat) (r : nat) : nat := if r =? i then j else if r =? j then i else r.

Lemma swapf_lt i j r n : i < n -> j < n -> r < n -> swapf i j r < n.
Proof. intros. unfold swapf. destruct (r =? i), (r =? j); assumption. Qed.

Lemma swapf_swapf i j r : swapf i j (swapf i j r) = r.
Proof.
  unfold swapf. destruct (Nat.eqb_spec r i) as [->|H1].
  - destruct (Nat.eqb_spec j i) as [->|H2]; [reflexivity|]. now rewrite Nat.eqb_refl.
  - destruct (Nat.eqb_spec r j) as [->|H2].
    + now rewrite Nat.eqb_refl.
    + rewrite (proj2 (Nat.eqb_neq r i)), (proj2 (Nat.eqb_neq r j)) by assumption. reflexivity.
Qed.

Lemma rep_swap_rows m n k f i j : rep m n k f -> i < n -> j < n ->
  exists m', swap_rows m i j = Ret m' /\ rep m' n k (fun r c => f (swapf i j r) c).
Proof.
  intros (H & Hs & He) Hi Hj.
  destruct (swap_rows_ret _ _ lm_laws m i j H) as (m' & E & Hw & Hs' & _ & He').
  { intros c Hc. rewrite Hs in Hc. unfold full_dom. rewrite !in_shape_true, Hs. cbn in *. lia. }
  exists m'. split; [exact E|]. split; [exact Hw|]. split; [congruence|].
  intros r c Hr Hc. rewrite He', Hs. cbn [snd]. rewrite (proj2 (Nat.ltb_lt c k)) by assumption.
  unfold swapf. destruct (Nat.eqb_spec r j) as [->|H1].
  - rewrite He by assumption. destruct (Nat.eqb_spec j i) as [->|H2]; reflexivity.
  - destruct (Nat.eqb_spec r i) as [->|H2]; now apply He.
Qed.

Lemma rep_mutate_row m n k f i (g : A -> A) : rep m n k f -> i < n ->
  exists m', mutate_row m i g = Ret m' /\
    rep m' n k (fun r c => if r =? i then g (f r c) else f r c).
Proof.
  intros (H & Hs & He) Hi.
  destruct (mutate_row_ret _ _ lm_laws m i g H) as (m' & E & Hw & Hs' & _ & He').
  { intros c Hc. rewrite Hs in Hc. unfold full_dom. rewrite !in_shape_true, Hs. cbn in *. lia. }
  exists m'. split; [exact E|]. split; [exact Hw|]. split; [congruence|].
  intros r c Hr Hc. rewrite He', Hs. cbn [snd]. rewrite (proj2 (Nat.ltb_lt c k)) by assumption.
  rewrite !He by assumption. rewrite andb_true_r. destruct (r =? i); reflexivity.
Qed.

Lemma rep_zeros n k : rep (A:=A) (lm_zeros (n, k)) n k (fun _ _ => s0).
Proof. split; [apply lm_zeros_wf|]. split; [reflexivity|]. intros; apply lm_zeros_el. Qed.

Lemma rep_from_flat n k (d : list A) : length d = n * k ->
  exists m, lm_from_flat (n, k) d = Ret m /\ rep m n k (fun r c => vel d (k * r + c)).
Proof.
  intros Hl. destruct (lm_from_flat_ret n k d Hl) as (m & E & Hw & Hs & He).
  exists m. split; [exact E|]. split; [exact Hw|]. split; [exact Hs|].
  intros r c Hr Hc. symmetry. apply vel_lookup. symmetry. auto.
Qed.
End rep.
