(** Ordered-field lemmas over [ord_laws]. *)
From Verif Require Export Sums.
From Coq Require Import ZArith InitialRing.

Definition lts {A : arith} (x y : A) : Prop := sltb x y = true.
Definition les {A : arith} (x y : A) : Prop := sltb y x = false.

Section ord.
Context {A : arith} (OL : ord_laws A).
Let FL : field_laws A := ol_field A OL.
Add Field Afield_ord : (fl_field A FL).
Local Open Scope arith_scope.
Implicit Types x y z : A.

Lemma lts_irr x : ~ lts x x.
Proof. unfold lts. rewrite (ol_irr A OL). discriminate. Qed.

Lemma lts_trans x y z : lts x y -> lts y z -> lts x z.
Proof. apply (ol_trans A OL). Qed.

Lemma lts_asym x y : lts x y -> ~ lts y x.
Proof. intros H1 H2. exact (lts_irr x (lts_trans x y x H1 H2)). Qed.

Lemma les_iff x y : les x y <-> lts x y \/ x = y.
Proof.
  unfold les. split.
  - intros H. destruct (ol_total A OL x y) as [->|[H1|H1]]; auto. congruence.
  - intros [H| ->].
    + destruct (sltb y x) eqn:E; [|reflexivity]. exfalso. exact (lts_asym x y H E).
    + apply (ol_irr A OL).
Qed.

Lemma not_lts x y : ~ lts x y <-> les y x.
Proof. unfold lts, les. destruct (sltb x y); split; congruence. Qed.

Lemma lts_les x y : lts x y -> les x y.
Proof. intros H. apply les_iff. now left. Qed.

Lemma les_refl x : les x x.
Proof. apply les_iff. now right. Qed.

Lemma les_total x y : les x y \/ les y x.
Proof. destruct (ol_total A OL x y) as [->|[H|H]]; [left; apply les_refl|left|right]; now apply lts_les. Qed.

Lemma lts_total x y : lts x y \/ x = y \/ lts y x.
Proof. destruct (ol_total A OL x y) as [H|[H|H]]; auto. Qed.

Lemma les_trans x y z : les x y -> les y z -> les x z.
Proof.
  rewrite !les_iff. intros [H1| ->] [H2| ->]; auto. left. now apply lts_trans with y.
Qed.

Lemma lts_les_trans x y z : lts x y -> les y z -> lts x z.
Proof. rewrite les_iff. intros H1 [H2| <-]; auto. now apply lts_trans with y. Qed.

Lemma les_lts_trans x y z : les x y -> lts y z -> lts x z.
Proof. rewrite les_iff. intros [H1| ->] H2; auto. now apply lts_trans with y. Qed.

Lemma les_antisym x y : les x y -> les y x -> x = y.
Proof. rewrite !les_iff. intros [H1|H1] [H2|H2]; auto. now apply lts_asym in H1. Qed.

Lemma lts_neq x y : lts x y -> x <> y.
Proof. intros H ->. now apply lts_irr in H. Qed.

Lemma lts_add x y z : lts x y -> lts (x + z) (y + z).
Proof. apply (ol_add A OL). Qed.

Lemma les_add x y z : les x y -> les (x + z) (y + z).
Proof. rewrite !les_iff. intros [H| ->]; [left; now apply lts_add|now right]. Qed.

Lemma les_add2 x y z w : les x y -> les z w -> les (x + z) (y + w).
Proof.
  intros H1 H2. apply les_trans with (y + z); [now apply les_add|].
  replace (y + z) with (z + y) by ring. replace (y + w) with (w + y) by ring. now apply les_add.
Qed.

Lemma lts_les_add x y z w : lts x y -> les z w -> lts (x + z) (y + w).
Proof.
  intros H1 H2. apply lts_les_trans with (y + z); [now apply lts_add|].
  replace (y + z) with (z + y) by ring. replace (y + w) with (w + y) by ring. now apply les_add.
Qed.

Lemma lts_sub0 x y : lts x y <-> lts 0 (y - x).
Proof.
  split; intros H.
  - apply (lts_add _ _ (- x)) in H. replace (x + - x) with (0 : A) in H by ring.
    now replace (y + - x) with (y - x) in H by ring.
  - apply (lts_add _ _ x) in H. replace (0 + x) with x in H by ring.
    now replace (y - x + x) with y in H by ring.
Qed.

Lemma les_sub0 x y : les x y <-> les 0 (y - x).
Proof.
  rewrite !les_iff, lts_sub0. split; (intros [H|H]; [now left|right]).
  - rewrite H. ring.
  - transitivity (y - x + x); [rewrite <- H|]; ring.
Qed.

Lemma neg_pos x : lts x 0 <-> lts 0 (- x).
Proof. rewrite lts_sub0. replace (0 - x) with (- x) by ring. reflexivity. Qed.

Lemma mul_pos x y : lts 0 x -> lts 0 y -> lts 0 (x * y).
Proof. apply (ol_mul A OL). Qed.

Lemma mul_nonneg x y : les 0 x -> les 0 y -> les 0 (x * y).
Proof.
  rewrite !les_iff. intros [H1| <-] [H2| <-]; [left; now apply mul_pos|right; ring..].
Qed.

Lemma sq_pos x : x <> 0 -> lts 0 (x * x).
Proof.
  intros H. destruct (ol_total A OL x 0) as [?|[H1|H1]]; [easy| |now apply mul_pos].
  replace (x * x) with (- x * - x) by ring. apply neg_pos in H1. now apply mul_pos.
Qed.

Lemma sq_nonneg x : les 0 (x * x).
Proof.
  destruct (lts_total 0 x) as [H|[<-|H]].
  - apply lts_les. now apply mul_pos.
  - apply les_iff. right. ring.
  - apply lts_les. apply sq_pos. now apply lts_neq.
Qed.

Lemma one_neq_0 : (1 : A) <> 0.
Proof. exact (F_1_neq_0 (fl_field A FL)). Qed.

Lemma one_pos : lts (0 : A) 1.
Proof. replace (1 : A) with (1 * 1 : A) by ring. apply sq_pos. apply one_neq_0. Qed.

Lemma inv_pos x : lts 0 x -> lts 0 (1 / x).
Proof.
  intros H. assert (x <> 0) by (intros ->; now apply lts_irr in H).
  replace (1 / x) with (x * ((1 / x) * (1 / x))) by (field; assumption).
  apply mul_pos; [exact H|]. apply sq_pos. intros Hz. apply one_neq_0.
  transitivity (1 / x * x); [field; assumption|rewrite Hz; ring].
Qed.

Lemma div_pos x y : lts 0 x -> lts 0 y -> lts 0 (x / y).
Proof.
  intros H1 H2. assert (y <> 0) by (intros ->; now apply lts_irr in H2).
  replace (x / y) with (x * (1 / y)) by (field; assumption). apply mul_pos; [exact H1|now apply inv_pos].
Qed.

Lemma les_mul_r x y z : les 0 z -> les x y -> les (x * z) (y * z).
Proof.
  intros Hz H. apply les_sub0. apply les_sub0 in H.
  replace (y * z - x * z) with ((y - x) * z) by ring. now apply mul_nonneg.
Qed.

Lemma lts_mul_r x y z : lts 0 z -> lts x y -> lts (x * z) (y * z).
Proof.
  intros Hz H. apply lts_sub0. apply lts_sub0 in H.
  replace (y * z - x * z) with ((y - x) * z) by ring. now apply mul_pos.
Qed.

Lemma mul_eq_0 x y : x * y = 0 -> x = 0 \/ y = 0.
Proof.
  intros H. destruct (lts_total x 0) as [Hx|[Hx|Hx]]; [|now left|].
  - right. assert (Hx' : x <> 0) by now apply lts_neq.
    transitivity (x * y / x); [field; assumption|]. rewrite H. field. assumption.
  - right. assert (Hx' : x <> 0) by (intros ->; now apply lts_irr in Hx).
    transitivity (x * y / x); [field; assumption|]. rewrite H. field. assumption.
Qed.

Lemma sum_nonneg n (f : nat -> A) : (forall i, i < n -> les 0 (f i)) -> les 0 (bigsum n f).
Proof.
  induction n as [|n IH]; intros H; [apply les_refl|]. cbn.
  replace (0 : A) with (0 + 0 : A) by ring. apply les_add2; [apply IH|apply H]; auto with lia.
Qed.

Lemma sum_nonneg_0 n (f : nat -> A) : (forall i, i < n -> les 0 (f i)) -> bigsum n f = 0 ->
  forall i, i < n -> f i = 0.
Proof.
  induction n as [|n IH]; intros H Hs i Hi; [lia|]. cbn in Hs.
  assert (H1 : les 0 (bigsum n f)) by (apply sum_nonneg; auto with lia).
  assert (H2 : les 0 (f n)) by (apply H; lia).
  assert (Hf : f n = 0).
  { apply les_antisym; [|exact H2]. apply les_sub0.
    replace (0 - f n) with (bigsum n f); [exact H1|].
    transitivity (bigsum n f + f n - f n); [ring|rewrite Hs; ring]. }
  rewrite Hf in Hs. assert (bigsum n f = 0) by (rewrite <- Hs; ring).
  destruct (decide (i = n)) as [->|]; [exact Hf|]. apply IH; auto with lia.
Qed.

Lemma abs_nonneg x : les 0 (sabs x).
Proof.
  rewrite (ol_abs A OL). destruct (sltb x 0) eqn:E; [|exact E].
  apply lts_les. now apply neg_pos.
Qed.

Lemma abs_0 x : sabs x = 0 <-> x = 0.
Proof.
  rewrite (ol_abs A OL). destruct (sltb x 0) eqn:E; [|reflexivity]. split; intros H.
  - transitivity (- - x); [ring|rewrite H; ring].
  - rewrite H. ring.
Qed.

Lemma scmp_spec x y : exists c, scmp x y = Some c /\
  match c with Lt => lts x y | Eq => x = y | Gt => lts y x end.
Proof.
  unfold scmp. destruct (sltb x y) eqn:E1; [exists Lt; auto|].
  destruct (seqb x y) eqn:E2; [exists Eq; split; [reflexivity|now apply (fl_eqb A FL)]|].
  destruct (ol_total A OL x y) as [->|[H|H]].
  - rewrite (proj2 (fl_eqb A FL y y) eq_refl) in E2. discriminate.
  - congruence.
  - rewrite H. exists Gt. auto.
Qed.

Lemma les_dec x y : {les x y} + {lts y x}.
Proof. unfold les, lts. destruct (sltb y x); auto. Qed.

Lemma sz_pos p : lts 0 (sz (Z.pos p) : A).
Proof.
  assert (H2 : lts 0 (1 + 1 : A)).
  { replace (0 : A) with (0 + 0 : A) by ring. apply lts_les_add; [apply one_pos|apply (lts_les), one_pos]. }
  assert (G : forall p, lts 0 (gen_phiPOS (R:=A) 1 sadd smul p)).
  { induction p0 as [p0 IH|p0 IH|]; cbn [gen_phiPOS].
    - destruct p0.
      + replace (0 : A) with (0 + 0 : A) by ring. apply lts_les_add; [apply one_pos|]. apply lts_les. now apply mul_pos.
      + replace (0 : A) with (0 + 0 : A) by ring. apply lts_les_add; [apply one_pos|]. apply lts_les. now apply mul_pos.
      + replace (0 : A) with (0 + 0 : A) by ring. apply lts_les_add; [apply one_pos|]. now apply lts_les.
    - destruct p0; [now apply mul_pos..|exact H2].
    - apply one_pos. }
  apply G.
Qed.

Lemma slit_pos p q : lts 0 (slit (Z.pos p) (Z.pos q) : A).
Proof. apply div_pos; apply sz_pos. Qed.
End ord.
