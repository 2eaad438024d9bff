(** Sylvester's law of inertia and the eigenvalue count of the search. *)
From Verif Require Export EigSearch CholProofs.

(** ** Specification *)

(** [lam j] and the columns of [v] are n generalised eigenpairs of (k, m), the vectors
    m-orthogonal with positive m-norm *)
Definition gen_eigs {A : arith} (n : nat) (k m v : nat -> nat -> A) (lam : nat -> A) : Prop :=
  (forall j r, j < n -> r < n -> mv n k (fun c => v c j) r = smul (lam j) (mv n m (fun c => v c j) r)) /\
  (forall i j, i < n -> j < n -> i <> j -> bigsum n (fun r => smul (v r i) (mv n m (fun c => v c j) r)) = s0) /\
  (forall j, j < n -> lts s0 (bigsum n (fun r => smul (v r j) (mv n m (fun c => v c j) r)))).

Definition count_below {A : arith} (n : nat) (lam : nat -> A) (mu : A) : nat :=
  length (List.filter (fun j => sltb (lam j) mu) (seq 0 n)).

Section inertia.
Context {A : arith} (OL : ord_laws A).
Let FL : field_laws A := ol_field A OL.
Add Field Afield25 : (fl_field A FL).
Local Open Scope arith_scope.

(** fewer equations than unknowns *)
Lemma kernel n (fs : list (nat -> A)) : forall S, NoDup S -> (forall p, p ∈ S -> (p < n)%nat) ->
  (length fs < length S)%nat ->
  exists c : nat -> A, (exists j, (j < n)%nat /\ c j <> 0) /\ (forall j, j ∉ S -> c j = 0) /\
    forall f, f ∈ fs -> bigsum n (fun j => f j * c j) = 0.
Proof.
  remember (length fs) as q eqn:Hq. revert fs Hq.
  induction q as [|q IH]; intros fs Hq S ND HS Hl.
  { destruct fs; [|discriminate Hq]. destruct S as [|p S]; [cbn in Hl; lia|]. exists (fun j => if decide (j = p) then 1 else 0). split; [|split].
    - exists p. split; [apply HS; left|]. rewrite decide_True by reflexivity. apply (one_neq_0 OL).
    - intros j Hj. rewrite decide_False; [reflexivity|]. intros ->. apply Hj. left.
    - intros f Hf. now apply elem_of_nil in Hf. }
  destruct fs as [|f fs]; [discriminate Hq|]. injection Hq as Hq.
  destruct (decide (Exists (fun p => seqb (f p) 0 = false) S)) as [Hex|Hno].
  - apply Exists_exists in Hex as (p & Hp & Hfp).
    assert (Hf0 : f p <> 0) by (intros E; apply (fl_eqb A FL) in E; congruence).
    destruct (elem_of_Permutation S p) as [H _]. destruct (H Hp) as (S' & HP). clear H.
    assert (ND' : NoDup (p :: S')) by now rewrite <- HP. apply NoDup_cons in ND' as [Hnp ND'].
    pose proof (Permutation_length HP) as HlP. cbn [length] in HlP.
    destruct (IH (map (fun g j => g j - g p / f p * f j) fs) ltac:(now rewrite map_length) S' ND') as (c & (j0 & Hj0 & Hc0) & Hsup & Hall).
    { intros x Hx. apply HS. rewrite HP. now right. }
    { lia. }
    set (t := - (bigsum n (fun j => f j * c j)) / f p).
    assert (Hval : forall g : nat -> A, bigsum n (fun j => g j * (if decide (j = p) then t else c j)) = g p * t + bigsum n (fun j => g j * c j)).
    { intros g. assert (Hcp : c p = 0) by now apply Hsup.
      transitivity (bigsum n (fun j => (if decide (j = p) then g p * t else 0) + g j * c j)).
      { apply bigsum_ext. intros j _. destruct (decide (j = p)) as [->|]; [rewrite Hcp|]; ring. }
      rewrite (bigsum_add FL). f_equal. rewrite (bigsum_single FL n p); [now rewrite decide_True|now apply HS|].
      intros i _ Hi. now rewrite decide_False. }
    exists (fun j => if decide (j = p) then t else c j). split; [|split].
    + exists j0. split; [exact Hj0|]. rewrite decide_False; [exact Hc0|]. intros ->. apply Hc0. now apply Hsup.
    + intros j Hj. rewrite HP in Hj. apply not_elem_of_cons in Hj as [Hj1 Hj2]. rewrite decide_False by exact Hj1. now apply Hsup.
    + intros g Hg. rewrite Hval. apply elem_of_cons in Hg as [->|Hg].
      * unfold t. field. exact Hf0.
      * pose proof (Hall (fun j => g j - g p / f p * f j)) as Hg'. cbn beta in Hg'.
        rewrite (bigsum_ext _ (fun j => g j * c j - g p / f p * (f j * c j))) in Hg' by (intros; ring).
        rewrite (bigsum_sub FL), (bigsum_scale_l FL) in Hg'. rewrite <- Hg'; [|apply elem_of_list_fmap; eauto].
        unfold t. field. exact Hf0.
  - destruct (IH fs Hq S ND HS ltac:(lia)) as (c & Hc & Hsup & Hall).
    exists c. split; [exact Hc|]. split; [exact Hsup|]. intros g Hg. apply elem_of_cons in Hg as [->|Hg]; [|now apply Hall].
    apply (bigsum_0 FL). intros j Hj. destruct (decide (j ∈ S)) as [HjS|HjS].
    + destruct (seqb (f j) 0) eqn:E; [apply (fl_eqb A FL) in E; rewrite E; ring|]. exfalso. apply Hno. apply Exists_exists. eauto.
    + rewrite Hsup by exact HjS. ring.
Qed.

Definition negs (n : nat) (d : nat -> A) : list nat := List.filter (fun t => sltb (d t) 0) (seq 0 n).
Definition nonnegs (n : nat) (d : nat -> A) : list nat := List.filter (fun t => negb (sltb (d t) 0)) (seq 0 n).

Lemma negs_nonnegs n (d : nat -> A) : (length (negs n d) + length (nonnegs n d) = n)%nat.
Proof.
  unfold negs, nonnegs. transitivity (length (seq 0 n)); [|apply seq_length]. induction (seq 0 n) as [|x l IH]; [reflexivity|].
  cbn [List.filter]. destruct (sltb (d x) 0); cbn [length negb]; lia.
Qed.

(** two ways of writing one quadratic form as a sum of squares *)
Lemma inertia_half n (u z : nat -> nat -> A) (d e : nat -> A) :
  (forall y : nat -> A, bigsum n (fun t => d t * (bigsum n (fun j => u t j * y j) * bigsum n (fun j => u t j * y j)))
     = bigsum n (fun t => e t * (bigsum n (fun j => z t j * y j) * bigsum n (fun j => z t j * y j)))) ->
  (forall y : nat -> A, (forall t, (t < n)%nat -> bigsum n (fun j => z t j * y j) = 0) -> forall j, (j < n)%nat -> y j = 0) ->
  (length (negs n e) <= length (negs n d))%nat.
Proof.
  intros Heq Hinj. destruct (decide (length (negs n e) <= length (negs n d))%nat) as [|Hlt]; [assumption|exfalso].
  pose proof (negs_nonnegs n e) as Hne.
  destruct (kernel n (map u (negs n d) ++ map z (nonnegs n e)) (seq 0 n)) as (y & (j0 & Hj0 & Hy0) & _ & Hy).
  { apply NoDup_seq. } { intros p Hp. apply elem_of_seq in Hp. lia. }
  { rewrite app_length, !map_length, seq_length. lia. }
  assert (Hu : forall t, (t < n)%nat -> sltb (d t) 0 = true -> bigsum n (fun j => u t j * y j) = 0).
  { intros t Ht Hd. apply Hy. apply elem_of_app. left. apply elem_of_list_fmap. exists t. split; [reflexivity|].
    apply elem_of_list_In. apply filter_In. split; [apply in_seq; lia|exact Hd]. }
  assert (Hz : forall t, (t < n)%nat -> sltb (e t) 0 = false -> bigsum n (fun j => z t j * y j) = 0).
  { intros t Ht Hd. apply Hy. apply elem_of_app. right. apply elem_of_list_fmap. exists t. split; [reflexivity|].
    apply elem_of_list_In. apply filter_In. split; [apply in_seq; lia|now rewrite Hd]. }
  specialize (Heq y). set (uy := fun t => bigsum n (fun j => u t j * y j)) in *. set (zy := fun t => bigsum n (fun j => z t j * y j)) in *.
  change (bigsum n (fun t => d t * (uy t * uy t)) = bigsum n (fun t => e t * (zy t * zy t))) in Heq.
  assert (H1 : les 0 (bigsum n (fun t => d t * (uy t * uy t)))).
  { apply (sum_nonneg OL). intros t Ht. destruct (sltb (d t) 0) eqn:E.
    - unfold uy at 1. rewrite Hu by assumption. apply (les_iff OL). right. ring.
    - apply (mul_nonneg OL); [exact E|apply (sq_nonneg OL)]. }
  assert (H2 : forall t, (t < n)%nat -> les 0 ((- e t) * (zy t * zy t))).
  { intros t Ht. destruct (sltb (e t) 0) eqn:E.
    - apply (mul_nonneg OL); [apply (lts_les OL); now apply (neg_pos OL)|apply (sq_nonneg OL)].
    - unfold zy at 1. rewrite Hz by assumption. apply (les_iff OL). right. ring. }
  assert (Hs : bigsum n (fun t => (- e t) * (zy t * zy t)) = - bigsum n (fun t => e t * (zy t * zy t))).
  { transitivity (bigsum n (fun t => (- (1)) * (e t * (zy t * zy t)))); [apply bigsum_ext; intros; ring|]. rewrite (bigsum_scale_l FL). ring. }
  assert (H0 : bigsum n (fun t => (- e t) * (zy t * zy t)) = 0).
  { apply (les_antisym OL); [|now apply (sum_nonneg OL)]. rewrite Hs, <- Heq. apply (les_sub0 OL).
    match goal with |- les 0 ?x => replace x with (bigsum n (fun t => d t * (uy t * uy t))) by ring end. exact H1. }
  apply Hy0. apply (Hinj y); [|exact Hj0]. intros t Ht. destruct (sltb (e t) 0) eqn:E; [|now apply Hz].
  pose proof (sum_nonneg_0 OL n _ H2 H0 t Ht) as Hzt. cbn beta in Hzt.
  apply (mul_eq_0 OL) in Hzt as [Hzt|Hzt].
  - exfalso. apply (lts_irr OL 0). assert (He : e t = 0) by (transitivity (- - e t); [ring|rewrite Hzt; ring]).
    unfold lts. now rewrite He in E.
  - now apply (mul_eq_0 OL) in Hzt as [Hzt|Hzt].
Qed.

Lemma quad_ldl n (a l : nat -> nat -> A) (d x : nat -> A) :
  (forall r c, (r < n)%nat -> (c < n)%nat -> ldl_table n l d r c = a r c) ->
  bigsum n (fun r => x r * mv n a x r)
  = bigsum n (fun t => d t * (bigsum n (fun r => l r t * x r) * bigsum n (fun r => l r t * x r))).
Proof.
  intros Ha.
  transitivity (bigsum n (fun r => bigsum n (fun c => bigsum n (fun t => d t * (l r t * x r) * (l c t * x c))))).
  { apply bigsum_ext. intros r Hr. unfold mv. rewrite <- (bigsum_scale_l FL). apply bigsum_ext. intros c Hc.
    rewrite <- Ha by assumption. unfold ldl_table. rewrite <- (bigsum_scale_r FL), <- (bigsum_scale_l FL).
    apply bigsum_ext. intros; ring. }
  transitivity (bigsum n (fun r => bigsum n (fun t => d t * (l r t * x r) * bigsum n (fun c => l c t * x c)))).
  { apply bigsum_ext. intros r _. rewrite (bigsum_swap FL). apply bigsum_ext. intros t _. now rewrite (bigsum_scale_l FL). }
  rewrite (bigsum_swap FL). apply bigsum_ext. intros t _. rewrite (bigsum_scale_r FL).
  rewrite (bigsum_scale_l FL). ring.
Qed.

Lemma bigsum_comp n (l v : nat -> nat -> A) (y : nat -> A) t :
  bigsum n (fun r => l r t * bigsum n (fun j => v r j * y j)) = bigsum n (fun j => bigsum n (fun r => l r t * v r j) * y j).
Proof.
  transitivity (bigsum n (fun r => bigsum n (fun j => l r t * v r j * y j))).
  { apply bigsum_ext. intros r _. rewrite <- (bigsum_scale_l FL). apply bigsum_ext. intros; ring. }
  rewrite (bigsum_swap FL). apply bigsum_ext. intros j _. now rewrite (bigsum_scale_r FL).
Qed.

(** x'(k - mu m)x for x = v y *)
Lemma quad_eigs n (k m a v : nat -> nat -> A) (lam : nat -> A) (mu : A) (y : nat -> A) : gen_eigs n k m v lam ->
  (forall r c, (r < n)%nat -> (c < n)%nat -> a r c = k r c - mu * m r c) ->
  let x := fun r => bigsum n (fun j => v r j * y j) in
  bigsum n (fun r => x r * mv n a x r)
  = bigsum n (fun j => (lam j - mu) * bigsum n (fun r => v r j * mv n m (fun c => v c j) r) * (y j * y j)).
Proof.
  intros (He & Ho & _) Ha x.
  assert (Hm : forall b : nat -> nat -> A, forall r, mv n b x r = bigsum n (fun j => y j * mv n b (fun c => v c j) r)).
  { intros b r. unfold mv, x. transitivity (bigsum n (fun c => bigsum n (fun j => y j * (b r c * v c j)))).
    - apply bigsum_ext. intros c _. rewrite <- (bigsum_scale_l FL). apply bigsum_ext. intros; ring.
    - rewrite (bigsum_swap FL). apply bigsum_ext. intros j _. now rewrite (bigsum_scale_l FL). }
  assert (Hax : forall r, (r < n)%nat -> mv n a x r = bigsum n (fun j => (lam j - mu) * y j * mv n m (fun c => v c j) r)).
  { intros r Hr. rewrite Hm. apply bigsum_ext. intros j Hj.
    assert (Hk : mv n a (fun c => v c j) r = mv n k (fun c => v c j) r - mu * mv n m (fun c => v c j) r).
    { unfold mv. rewrite <- (bigsum_scale_l FL), <- (bigsum_sub FL). apply bigsum_ext. intros c Hc. rewrite Ha by assumption. ring. }
    rewrite Hk, He by assumption. ring. }
  transitivity (bigsum n (fun r => bigsum n (fun i => bigsum n (fun j => y i * ((lam j - mu) * y j) * (v r i * mv n m (fun c => v c j) r))))).
  { apply bigsum_ext. intros r Hr. rewrite Hax by assumption. unfold x. rewrite <- (bigsum_scale_r FL). apply bigsum_ext. intros i _.
    rewrite <- (bigsum_scale_l FL). apply bigsum_ext. intros; ring. }
  rewrite (bigsum_swap FL).
  rewrite (bigsum_ext _ (fun i => bigsum n (fun j => y i * ((lam j - mu) * y j) * bigsum n (fun r => v r i * mv n m (fun c => v c j) r)))).
  2:{ intros i _. rewrite (bigsum_swap FL). apply bigsum_ext. intros j _. now rewrite (bigsum_scale_l FL). }
  apply bigsum_ext. intros i Hi. rewrite (bigsum_single FL n i) by (exact Hi || (intros j Hj Hne; rewrite Ho by auto; ring)). ring.
Qed.

(** the pivots of k - mu m count the eigenvalues below mu *)
Lemma inertia_count n (k m a v l : nat -> nat -> A) (lam d : nat -> A) (mu : A) : gen_eigs n k m v lam ->
  (forall r c, (r < n)%nat -> (c < n)%nat -> a r c = k r c - mu * m r c) ->
  (forall r c, (r < c)%nat -> l r c = 0) -> (forall r, (r < n)%nat -> l r r = 1) ->
  (forall r c, (r < n)%nat -> (c < n)%nat -> ldl_table n l d r c = a r c) ->
  length (negs n d) = count_below n lam mu.
Proof.
  intros HG Ha Hl0 Hl1 Ht.
  set (mj := fun j => bigsum n (fun r => v r j * mv n m (fun c => v c j) r)).
  set (e := fun j => (lam j - mu) * mj j).
  assert (Hmj : forall j, (j < n)%nat -> lts 0 (mj j)) by (destruct HG as (_ & _ & H); exact H).
  assert (Hc : length (negs n e) = count_below n lam mu).
  { unfold negs, count_below. f_equal.
    assert (G : forall L, (forall j, j ∈ L -> (j < n)%nat) -> List.filter (fun t => sltb (e t) 0) L = List.filter (fun j => sltb (lam j) mu) L).
    { induction L as [|j L IH]; intros HL; [reflexivity|]. cbn [List.filter].
      assert (E : sltb (e j) 0 = sltb (lam j) mu).
      { specialize (Hmj j (HL j ltac:(left))).
        destruct (sltb (lam j) mu) eqn:E.
        - apply (neg_pos OL). unfold e. replace (- ((lam j - mu) * mj j)) with ((mu - lam j) * mj j) by ring.
          apply (mul_pos OL); [|exact Hmj]. exact (proj1 (lts_sub0 OL _ _) E).
        - change (les 0 (e j)). unfold e. apply (mul_nonneg OL); [|now apply (lts_les OL)]. exact (proj1 (les_sub0 OL _ _) E). }
      rewrite E, IH; [reflexivity|]. intros i Hi. apply HL. now right. }
    apply G. intros j Hj. apply elem_of_seq in Hj. lia. }
  rewrite <- Hc.
  set (u := fun t j => bigsum n (fun r => l r t * v r j)).
  set (z := fun t j : nat => (if decide (t = j) then 1 else 0) : A).
  assert (Hzy : forall y : nat -> A, forall t, (t < n)%nat -> bigsum n (fun j => z t j * y j) = y t).
  { intros y t Hlt. rewrite (bigsum_single FL n t) by (exact Hlt || (intros i Hi Hne; unfold z; rewrite decide_False by auto; ring)).
    unfold z. rewrite decide_True by reflexivity. ring. }
  assert (Heq : forall y : nat -> A,
     bigsum n (fun t => d t * (bigsum n (fun j => u t j * y j) * bigsum n (fun j => u t j * y j)))
     = bigsum n (fun t => e t * (bigsum n (fun j => z t j * y j) * bigsum n (fun j => z t j * y j)))).
  { intros y. transitivity (bigsum n (fun t => e t * (y t * y t))).
    2:{ apply bigsum_ext. intros t Hlt. now rewrite Hzy. }
    unfold e, mj. rewrite <- (quad_eigs n k m a v lam mu y HG Ha). cbn zeta. rewrite (quad_ldl n a l d _ Ht).
    apply bigsum_ext. intros t _. now rewrite !bigsum_comp. }
  assert (Hinju : forall y : nat -> A, (forall t, (t < n)%nat -> bigsum n (fun j => u t j * y j) = 0) -> forall j, (j < n)%nat -> y j = 0).
  { intros y Hu j Hj.
    assert (Hx : forall r, (r < n)%nat -> bigsum n (fun j => v r j * y j) = 0).
    { assert (Hup : forall r, (r < n)%nat -> mv n (fun t r => l r t) (fun r => bigsum n (fun j => v r j * y j)) r = mv n (fun t r => l r t) (fun _ => 0) r).
      { intros t Hlt. unfold mv. rewrite (bigsum_0 FL n (fun c => l c t * 0)) by (intros; ring).
        rewrite <- (Hu t Hlt). unfold u. rewrite <- bigsum_comp. apply bigsum_ext. intros; ring. }
      intros r Hr. apply (upper_unique FL n (fun t r => l r t) (fun r => bigsum n (fun j => v r j * y j)) (fun _ => 0) 0); try lia.
      + intros i c _ _ Hic. now apply Hl0.
      + intros i Hi. rewrite Hl1 by exact Hi. apply (one_neq_0 OL).
      + intros i [_ Hi]. now apply Hup. }
    pose proof HG as (_ & Ho & _).
    assert (E0 : y j * mj j = 0).
    { transitivity (bigsum n (fun i => y i * bigsum n (fun r => v r j * mv n m (fun c => v c i) r))).
      { symmetry. rewrite (bigsum_single FL n j) by (exact Hj || (intros i Hi Hne; rewrite Ho by auto; ring)). reflexivity. }
      transitivity (bigsum n (fun r => v r j * mv n m (fun c => bigsum n (fun i => v c i * y i)) r)).
      2:{ apply (bigsum_0 FL). intros r _. unfold mv. rewrite (bigsum_0 FL n (fun k0 => m r k0 * _)); [ring|].
          intros c Hc0. rewrite Hx by exact Hc0. ring. }
      transitivity (bigsum n (fun i => bigsum n (fun r => v r j * (y i * mv n m (fun c => v c i) r)))).
      { apply bigsum_ext. intros i _. rewrite <- (bigsum_scale_l FL). apply bigsum_ext. intros; ring. }
      rewrite (bigsum_swap FL). apply bigsum_ext. intros r _. rewrite (bigsum_scale_l FL). f_equal.
      unfold mv. transitivity (bigsum n (fun i => bigsum n (fun c => m r c * (v c i * y i)))).
      { apply bigsum_ext. intros i _. rewrite <- (bigsum_scale_l FL). apply bigsum_ext. intros; ring. }
      rewrite (bigsum_swap FL). apply bigsum_ext. intros c _. now rewrite (bigsum_scale_l FL). }
    apply (mul_eq_0 OL) in E0 as [E0|E0]; [exact E0|]. exfalso. specialize (Hmj j Hj). rewrite E0 in Hmj. now apply (lts_irr OL) in Hmj. }
  apply Nat.le_antisymm.
  - apply (inertia_half n z u e d); [|exact Hinju]. intros y. symmetry. apply Heq.
  - apply (inertia_half n u z d e Heq). intros y Hz j Hj. rewrite <- (Hzy y j Hj). now apply Hz.
Qed.
End inertia.
