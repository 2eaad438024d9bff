(** Sylvester's law of inertia for perturbed forms. *)
From Verif Require Export Inertia.

Section pert.
Context {A : arith} (OL : ord_laws A).
Let FL : field_laws A := ol_field A OL.
Add Field Afield61 : (fl_field A FL).
Local Open Scope arith_scope.

(** a sum of squares below another: it has at least as many negative coefficients *)
Lemma inertia_half_le n (u z : nat -> nat -> A) (d e : nat -> A) :
  (forall y : nat -> A, les (bigsum n (fun t => d t * (bigsum n (fun j => u t j * y j) * bigsum n (fun j => u t j * y j))))
     (bigsum n (fun t => e t * (bigsum n (fun j => z t j * y j) * bigsum n (fun j => z t j * y j))))) ->
  (forall y : nat -> A, (forall t, (t < n)%nat -> bigsum n (fun j => z t j * y j) = 0) -> forall j, (j < n)%nat -> y j = 0) ->
  (length (negs n e) <= length (negs n d))%nat.
Proof.
  intros Heq Hinj. destruct (decide (length (negs n e) <= length (negs n d))%nat) as [|Hlt]; [assumption|exfalso].
  pose proof (negs_nonnegs n e) as Hne.
  destruct (kernel OL n (map u (negs n d) ++ map z (nonnegs n e)) (seq 0 n)) as (y & (j0 & Hj0 & Hy0) & _ & Hy).
  { apply NoDup_seq. } { intros p Hp. apply elem_of_seq in Hp. lia. }
  { rewrite app_length, !map_length, seq_length. lia. }
  assert (Hu : forall t, (t < n)%nat -> sltb (d t) 0 = true -> bigsum n (fun j => u t j * y j) = 0).
  { intros t Ht Hd. apply Hy. apply elem_of_app. left. apply elem_of_list_fmap. exists t. split; [reflexivity|].
    apply elem_of_list_In. apply filter_In. split; [apply in_seq; lia|exact Hd]. }
  assert (Hz : forall t, (t < n)%nat -> sltb (e t) 0 = false -> bigsum n (fun j => z t j * y j) = 0).
  { intros t Ht Hd. apply Hy. apply elem_of_app. right. apply elem_of_list_fmap. exists t. split; [reflexivity|].
    apply elem_of_list_In. apply filter_In. split; [apply in_seq; lia|now rewrite Hd]. }
  specialize (Heq y). set (uy := fun t => bigsum n (fun j => u t j * y j)) in *. set (zy := fun t => bigsum n (fun j => z t j * y j)) in *.
  change (les (bigsum n (fun t => d t * (uy t * uy t))) (bigsum n (fun t => e t * (zy t * zy t)))) in Heq.
  assert (H1 : les 0 (bigsum n (fun t => d t * (uy t * uy t)))).
  { apply (sum_nonneg OL). intros t Ht. destruct (sltb (d t) 0) eqn:E.
    - unfold uy at 1. rewrite Hu by assumption. apply (les_iff OL). right. ring.
    - apply (mul_nonneg OL); [exact E|apply (sq_nonneg OL)]. }
  assert (H2 : forall t, (t < n)%nat -> les 0 ((- e t) * (zy t * zy t))).
  { intros t Ht. destruct (sltb (e t) 0) eqn:E.
    - apply (mul_nonneg OL); [apply (lts_les OL); now apply (neg_pos OL)|apply (sq_nonneg OL)].
    - unfold zy at 1. rewrite Hz by assumption. apply (les_iff OL). right. ring. }
  assert (Hs : bigsum n (fun t => (- e t) * (zy t * zy t)) = - bigsum n (fun t => e t * (zy t * zy t))).
  { transitivity (bigsum n (fun t => (- (1)) * (e t * (zy t * zy t)))); [apply bigsum_ext; intros; ring|]. rewrite (bigsum_scale_l FL). ring. }
  assert (H0 : bigsum n (fun t => (- e t) * (zy t * zy t)) = 0).
  { apply (les_antisym OL); [|now apply (sum_nonneg OL)]. rewrite Hs. apply (les_sub0 OL).
    match goal with |- les 0 ?x => replace x with (bigsum n (fun t => e t * (zy t * zy t))) by ring end. now apply (les_trans OL) with (2 := Heq). }
  apply Hy0. apply (Hinj y); [|exact Hj0]. intros t Ht. destruct (sltb (e t) 0) eqn:E; [|now apply Hz].
  pose proof (sum_nonneg_0 OL n _ H2 H0 t Ht) as Hzt. cbn beta in Hzt.
  apply (mul_eq_0 OL) in Hzt as [Hzt|Hzt].
  - exfalso. apply (lts_irr OL 0). assert (He : e t = 0) by (transitivity (- - e t); [ring|rewrite Hzt; ring]).
    unfold lts. now rewrite He in E.
  - now apply (mul_eq_0 OL) in Hzt as [Hzt|Hzt].
Qed.

(** the m-norm of column [j] *)
Definition mnorm (n : nat) (m v : nat -> nat -> A) (j : nat) : A := bigsum n (fun r => v r j * mv n m (fun c => v c j) r).

Lemma negs_count n (lam mj : nat -> A) (mu : A) : (forall j, (j < n)%nat -> lts 0 (mj j)) ->
  length (negs n (fun j => (lam j - mu) * mj j)) = count_below n lam mu.
Proof.
  intros Hmj. set (e := fun j => (lam j - mu) * mj j).
  unfold negs, count_below. f_equal.
  assert (G : forall L, (forall j, j ∈ L -> (j < n)%nat) -> List.filter (fun t => sltb (e t) 0) L = List.filter (fun j => sltb (lam j) mu) L).
  { induction L as [|j L IH]; intros HL; [reflexivity|]. cbn [List.filter].
    assert (E : sltb (e j) 0 = sltb (lam j) mu).
    { specialize (Hmj j (HL j ltac:(left))).
      destruct (sltb (lam j) mu) eqn:E.
      - apply (neg_pos OL). unfold e. replace (- ((lam j - mu) * mj j)) with ((mu - lam j) * mj j) by ring.
        apply (mul_pos OL); [|exact Hmj]. exact (proj1 (lts_sub0 OL _ _) E).
      - change (les 0 (e j)). unfold e. apply (mul_nonneg OL); [|now apply (lts_les OL)]. exact (proj1 (les_sub0 OL _ _) E). }
    rewrite E, IH; [reflexivity|]. intros i Hi. apply HL. now right. }
  apply G. intros j Hj. apply elem_of_seq in Hj. lia.
Qed.

(** l' v is injective *)
Lemma lv_inj n (k m v l : nat -> nat -> A) (lam : nat -> A) : gen_eigs n k m v lam ->
  (forall r c, (r < c)%nat -> l r c = 0) -> (forall r, (r < n)%nat -> l r r = 1) ->
  forall y : nat -> A, (forall t, (t < n)%nat -> bigsum n (fun j => bigsum n (fun r => l r t * v r j) * y j) = 0) -> forall j, (j < n)%nat -> y j = 0.
Proof.
  intros HG Hl0 Hl1. set (u := fun t j => bigsum n (fun r => l r t * v r j)). set (mj := mnorm n m v).
  assert (Hmj : forall j, (j < n)%nat -> lts 0 (mj j)) by (destruct HG as (_ & _ & H); exact H).
  intros y Hu j Hj.
    assert (Hx : forall r, (r < n)%nat -> bigsum n (fun j => v r j * y j) = 0).
    { assert (Hup : forall r, (r < n)%nat -> mv n (fun t r => l r t) (fun r => bigsum n (fun j => v r j * y j)) r = mv n (fun t r => l r t) (fun _ => 0) r).
      { intros t Hlt. unfold mv. rewrite (bigsum_0 FL n (fun c => l c t * 0)) by (intros; ring).
        rewrite <- (Hu t Hlt). unfold u. rewrite <- (bigsum_comp OL). apply bigsum_ext. intros; ring. }
      intros r Hr. apply (upper_unique FL n (fun t r => l r t) (fun r => bigsum n (fun j => v r j * y j)) (fun _ => 0) 0); try lia.
      + intros i c _ _ Hic. now apply Hl0.
      + intros i Hi. rewrite Hl1 by exact Hi. apply (one_neq_0 OL).
      + intros i [_ Hi]. now apply Hup. }
    pose proof HG as (_ & Ho & _).
    assert (E0 : y j * mj j = 0).
    { transitivity (bigsum n (fun i => y i * bigsum n (fun r => v r j * mv n m (fun c => v c i) r))).
      { symmetry. rewrite (bigsum_single FL n j) by (exact Hj || (intros i Hi Hne; rewrite Ho by auto; ring)). reflexivity. }
      transitivity (bigsum n (fun r => v r j * mv n m (fun c => bigsum n (fun i => v c i * y i)) r)).
      2:{ apply (bigsum_0 FL). intros r _. unfold mv. rewrite (bigsum_0 FL n (fun k0 => m r k0 * _)); [ring|].
          intros c Hc0. rewrite Hx by exact Hc0. ring. }
      transitivity (bigsum n (fun i => bigsum n (fun r => v r j * (y i * mv n m (fun c => v c i) r)))).
      { apply bigsum_ext. intros i _. rewrite <- (bigsum_scale_l FL). apply bigsum_ext. intros; ring. }
      rewrite (bigsum_swap FL). apply bigsum_ext. intros r _. rewrite (bigsum_scale_l FL). f_equal.
      unfold mv. transitivity (bigsum n (fun i => bigsum n (fun c => m r c * (v c i * y i)))).
      { apply bigsum_ext. intros i _. rewrite <- (bigsum_scale_l FL). apply bigsum_ext. intros; ring. }
      rewrite (bigsum_swap FL). apply bigsum_ext. intros c _. now rewrite (bigsum_scale_l FL). }
    apply (mul_eq_0 OL) in E0 as [E0|E0]; [exact E0|]. exfalso. specialize (Hmj j Hj). rewrite E0 in Hmj. now apply (lts_irr OL) in Hmj.
Qed.

(** a factored form within eps m of k - mu m *)
Lemma inertia_pert n (k m a v l : nat -> nat -> A) (lam d : nat -> A) (mu eps : A) : gen_eigs n k m v lam ->
  (forall r c, (r < c)%nat -> l r c = 0) -> (forall r, (r < n)%nat -> l r r = 1) ->
  (forall r c, (r < n)%nat -> (c < n)%nat -> ldl_table n l d r c = a r c) ->
  (forall x : nat -> A, les (bigsum n (fun r => x r * mv n a x r)) (bigsum n (fun r => x r * mv n (fun r c => k r c - (mu - eps) * m r c) x r))) ->
  (forall x : nat -> A, les (bigsum n (fun r => x r * mv n (fun r c => k r c - (mu + eps) * m r c) x r)) (bigsum n (fun r => x r * mv n a x r))) ->
  (count_below n lam (ssub mu eps) <= length (negs n d) <= count_below n lam (sadd mu eps))%nat.
Proof.
  intros HG Hl0 Hl1 Ht Hup Hlo.
  assert (Hmj : forall j, (j < n)%nat -> lts 0 (mnorm n m v j)) by (destruct HG as (_ & _ & H); exact H).
  set (u := fun t j => bigsum n (fun r => l r t * v r j)).
  set (z := fun t j : nat => (if decide (t = j) then 1 else 0) : A).
  assert (Hzy : forall y : nat -> A, forall t, (t < n)%nat -> bigsum n (fun j => z t j * y j) = y t).
  { intros y t Hlt. rewrite (bigsum_single FL n t) by (exact Hlt || (intros i Hi Hne; unfold z; rewrite decide_False by auto; ring)).
    unfold z. rewrite decide_True by reflexivity. ring. }
  assert (Hd : forall y : nat -> A,
     bigsum n (fun t => d t * (bigsum n (fun j => u t j * y j) * bigsum n (fun j => u t j * y j)))
     = bigsum n (fun r => bigsum n (fun j => v r j * y j) * mv n a (fun r => bigsum n (fun j => v r j * y j)) r)).
  { intros y. rewrite (quad_ldl OL n a l d _ Ht). apply bigsum_ext. intros t _. now rewrite !(bigsum_comp OL). }
  assert (He : forall nu (y : nat -> A),
     bigsum n (fun t => (lam t - nu) * mnorm n m v t * (bigsum n (fun j => z t j * y j) * bigsum n (fun j => z t j * y j)))
     = bigsum n (fun r => bigsum n (fun j => v r j * y j) * mv n (fun r c => k r c - nu * m r c) (fun r => bigsum n (fun j => v r j * y j)) r)).
  { intros nu y. rewrite (quad_eigs OL n k m _ v lam nu y HG) by reflexivity. apply bigsum_ext. intros t Hlt. now rewrite Hzy. }
  split.
  - rewrite <- (negs_count n lam (mnorm n m v) (mu - eps) Hmj). apply (inertia_half_le n u z).
    + intros y. rewrite Hd, He. apply Hup.
    + intros y Hz j Hj. rewrite <- (Hzy y j Hj). now apply Hz.
  - rewrite <- (negs_count n lam (mnorm n m v) (mu + eps) Hmj). apply (inertia_half_le n z u).
    + intros y. rewrite Hd, He. apply Hlo.
    + exact (lv_inj n k m v l lam HG Hl0 Hl1).
Qed.
End pert.
