(** Backward error of dense Gaussian elimination in rounded arithmetic. *)
From Coq Require Import Reals Lra Lia.
From Verif Require Export RoundSub GaussProofs.
Local Close Scope R_scope.

(** a bijection of the numbers below [n] *)
Definition perm_on (n : nat) (s : nat -> nat) : Prop :=
  (forall i, i < n -> s i < n) /\ exists s', forall i, i < n -> s' i < n /\ s' (s i) = i /\ s (s' i) = i.

Section gauss.
Context {u : R} {rnd : R -> R} (RN : rounding u rnd).
Let Hu := rn_u _ _ RN.
Local Notation A := (Rnd_arith rnd).
Implicit Types M : nat -> nat -> A.

(** comparisons are those of the real numbers *)
Lemma rmax_by_spec (g : nat -> A) k m :
  exists p, max_by (fun p q : nat * A => cmp_unwrap p.2 q.2) (map (fun r => (r, g r)) (seq k (S m)))
            = Ret (Some (p, g p)) /\ last_max k (k + S m) g p.
Proof. exact (max_by_spec R_ord_laws g k m). Qed.
Lemma rlast_max_unique k n (g : nat -> A) p q : last_max k n g p -> last_max k n g q -> p = q.
Proof. exact (last_max_unique R_ord_laws k n g p q). Qed.

Lemma rdiv_0 (x : A) : sdiv (s0 : A) x = s0.
Proof. cbn. unfold Rdiv. rewrite Rmult_0_l. apply (rnd_0 RN). Qed.
Lemma rsub_0 (x : A) : ssub (s0 : A) (smul s0 x) = s0.
Proof. cbn. rewrite Rmult_0_l, (rnd_0 RN), Rminus_0_r. apply (rnd_0 RN). Qed.

Lemma rgauss_col_spec n k p (a b : lm A) M (fb : nat -> A) : (k < n)%nat ->
  rep a n n M -> rep b n 1 (fun r _ => fb r) ->
  last_max k n (fun r => M r k) p ->
  (forall r c, k <= r < n -> c < k -> M r c = s0) ->
  exists a' b', gauss_col n k (a, b) = Ret (Ok (a', b')) /\
    rep a' n n (elim_step k p M) /\ rep b' n 1 (fun r _ => elim_rhs k p M fb r).
Proof.
  intros Hk Ha Hb Hp Hz. unfold gauss_col. cbn [fst snd].
  rewrite (rep_col a n n M k Ha) by lia. cbn [mbind out_bind].
  rewrite zip_seq_map.
  destruct (rmax_by_spec (fun r => M r k) k (n - k - 1)) as (q & E & Hq).
  replace (S (n - k - 1)) with (n - k)%nat in E, Hq by lia. rewrite E. cbn [mbind out_bind].
  replace (k + (n - k))%nat with n in Hq by lia.
  assert (q = p) as -> by (eapply rlast_max_unique; eauto).
  destruct Hp as ((Hp1 & Hp2) & _).
  destruct (rep_swap_rows a n n M k p Ha) as (a1 & E1 & Ha1); [lia..|]. rewrite E1. cbn [mbind out_bind].
  destruct (rep_swap_rows b n 1 _ k p Hb) as (b1 & E2 & Hb1); [lia..|]. rewrite E2. cbn [mbind out_bind].
  rewrite (rep_index a1 n n _ k k Ha1) by lia. cbn [mbind out_bind]. rewrite swapf_l.
  destruct (rep_mutate_row a1 n n _ k (fun x => sdiv x (M p k)) Ha1) as (a2 & E3 & Ha2); [lia|].
  rewrite E3. cbn [mbind out_bind].
  destruct (rep_mutate_row b1 n 1 _ k (fun x => sdiv x (M p k)) Hb1) as (b2 & E4 & Hb2); [lia|].
  rewrite E4. cbn [mbind out_bind].
  set (S := fun r c => M (swapf k p r) c).
  destruct (foldM_range_inv
    (fun j ab => rep ab.1 n n (fun r c => if (r <? j)%nat then elim_step k p M r c else S r c) /\
                 rep ab.2 n 1 (fun r _ => if (r <? j)%nat then elim_rhs k p M fb r else fb (swapf k p r)))
    (fun row ab => gauss_row k row n ab) (k + 1) n (a2, b2)) as ([a3 b3] & E5 & Ha3 & Hb3); [lia| | |].
  - split.
    + eapply rep_ext; [exact Ha2|]. intros r c Hr Hc. cbn beta. unfold elim_step, S.
      destruct (Nat.eqb_spec r k) as [->|Hrk].
      * rewrite (proj2 (Nat.ltb_lt k (k + 1))), Nat.ltb_irrefl by lia. rewrite swapf_l. reflexivity.
      * destruct (Nat.ltb_spec r k), (Nat.ltb_spec r (k + 1)); try lia; reflexivity.
    + eapply rep_ext; [exact Hb2|]. intros r c Hr Hc. cbn beta. unfold elim_rhs.
      destruct (Nat.eqb_spec r k) as [->|Hrk].
      * rewrite (proj2 (Nat.ltb_lt k (k + 1))), Nat.ltb_irrefl by lia. rewrite swapf_l. reflexivity.
      * destruct (Nat.ltb_spec r k), (Nat.ltb_spec r (k + 1)); try lia; reflexivity.
  - intros j [a3 b3] Hj (Ha3 & Hb3). cbn [fst snd] in *.
    destruct (gauss_row_spec n k j a3 b3 _ _ ltac:(lia) Ha3 Hb3) as (a4 & b4 & E5 & Ha4 & Hb4).
    exists (a4, b4). split; [exact E5|]. cbn [fst snd]. split.
    + eapply rep_ext; [exact Ha4|]. intros r c Hr Hc. cbn beta.
      rewrite Nat.ltb_irrefl. rewrite (proj2 (Nat.ltb_lt k j)) by lia.
      destruct (Nat.eqb_spec r j) as [->|Hrj]; cbn [andb].
      * rewrite (proj2 (Nat.ltb_lt j (Datatypes.S j))) by lia. unfold elim_step.
        rewrite (proj2 (Nat.ltb_ge j k)), (proj2 (Nat.eqb_neq j k)), Nat.eqb_refl, Nat.ltb_irrefl by lia.
        destruct (Nat.leb_spec k c); fold (S j c) (S k c) (S k k) (S j k).
        -- reflexivity.
        -- rewrite Nat.ltb_irrefl. unfold S. rewrite swapf_l. rewrite (Hz p c) by lia.
           rewrite rdiv_0. assert (Ez : M (swapf k p j) c = s0).
           { apply Hz; [|lia]. unfold swapf. destruct (Nat.eqb_spec j k), (Nat.eqb_spec j p); lia. }
           rewrite Ez. symmetry. apply rsub_0.
      * destruct (Nat.ltb_spec r j), (Nat.ltb_spec r (Datatypes.S j)); try lia; reflexivity.
    + eapply rep_ext; [exact Hb4|]. intros r c Hr Hc. cbn beta.
      rewrite Nat.ltb_irrefl. rewrite (proj2 (Nat.ltb_lt k j)) by lia.
      destruct (Nat.eqb_spec r j) as [->|Hrj]; cbn [andb].
      * rewrite (proj2 (Nat.ltb_lt j (Datatypes.S j))) by lia. unfold elim_rhs, S.
        rewrite (proj2 (Nat.ltb_ge j k)), (proj2 (Nat.eqb_neq j k)), Nat.eqb_refl, Nat.ltb_irrefl by lia.
        reflexivity.
      * destruct (Nat.ltb_spec r j), (Nat.ltb_spec r (Datatypes.S j)); try lia; reflexivity.
  - rewrite E5. cbn [mbind out_bind]. exists a3, b3. split; [reflexivity|]. cbn [fst snd] in *. split.
    + eapply rep_ext; [exact Ha3|]. intros r c Hr Hc. cbn beta. now rewrite (proj2 (Nat.ltb_lt r n)) by lia.
    + eapply rep_ext; [exact Hb3|]. intros r c Hr Hc. cbn beta. now rewrite (proj2 (Nat.ltb_lt r n)) by lia.
Qed.

(** ** The error factors *)
Local Open Scope R_scope.

(** one column of the table, or the right-hand side, under one elimination step: [l] are the
    entries of the pivot column *)
Definition col_step (k p : nat) (l f : nat -> R) : nat -> R :=
  fun r => if (r <? k)%nat then f (swapf k p r)
           else if (r =? k)%nat then rnd (f p / l p)
           else rnd (f (swapf k p r) - rnd (rnd (f p / l p) * l (swapf k p r))).

(** after [k] columns the original column [f0], with its rows reordered by [sg], is the product
    of the multipliers [L] with the finished part of [f], plus the unfinished part, each term
    with at most [k] roundings *)
Definition col_inv (n k : nat) (sg : nat -> nat) (L : nat -> nat -> R) (f0 f : nat -> R) : Prop :=
  forall r, (r < n)%nat -> exists t : nat -> R, (forall q, (q <= k)%nat -> ecnt u k (t q)) /\
    f0 (sg r) = rsum k (fun q => L r q * f q * t q) + (if (r <? k)%nat then 0 else f r * t k).

Definition next_L (k p : nat) (l : nat -> R) (L : nat -> nat -> R) : nat -> nat -> R :=
  fun r q => if (q =? k)%nat then (if (r <? k)%nat then 0 else l (swapf k p r)) else L (swapf k p r) q.

Lemma col_inv_step n k p sg L l f0 f : (k < n)%nat -> (k <= p < n)%nat -> l p <> 0 ->
  col_inv n k sg L f0 f ->
  col_inv n (S k) (fun r => sg (swapf k p r)) (next_L k p l L) f0 (col_step k p l f).
Proof.
  intros Hk Hp Hl H r Hr. destruct (H (swapf k p r)) as (t & Ht & E); [apply swapf_lt; lia|].
  assert (Hs : forall q, (q < k)%nat -> swapf k p q = q).
  { intros q Hq. unfold swapf. now rewrite (proj2 (Nat.eqb_neq q k)), (proj2 (Nat.eqb_neq q p)) by lia. }
  assert (Hge : (k <= r -> k <= swapf k p r)%nat).
  { unfold swapf. destruct (Nat.eqb_spec r k), (Nat.eqb_spec r p); lia. }
  set (g := col_step k p l f) in *.
  assert (Hsum : forall t', (forall q, (q < k)%nat -> t' q = t q) ->
    rsum k (fun q => next_L k p l L r q * g q * t' q) = rsum k (fun q => L (swapf k p r) q * f q * t q)).
  { intros t' Ht'. apply rsum_ext. intros q Hq. unfold next_L, g, col_step.
    rewrite (proj2 (Nat.eqb_neq q k)), (proj2 (Nat.ltb_lt q k)), (Hs q), Ht' by lia. reflexivity. }
  assert (Hbase : forall a b : R, ecnt u (S k) a -> ecnt u (S k) b ->
    exists t', (forall q, (q <= S k)%nat -> ecnt u (S k) (t' q)) /\ (forall q, (q < k)%nat -> t' q = t q) /\ t' k = a /\ t' (S k) = b).
  { intros a b Ha Hb. exists (fun q => if (q <? k)%nat then t q else if (q =? k)%nat then a else b). split; [|split; [|split]].
    - intros q Hq. destruct (Nat.ltb_spec q k); [apply (ecnt_mono u Hu k); [lia|apply Ht; lia]|]. now destruct (q =? k)%nat.
    - intros q Hq. now rewrite (proj2 (Nat.ltb_lt q k)).
    - now rewrite Nat.ltb_irrefl, Nat.eqb_refl.
    - rewrite (proj2 (Nat.ltb_ge (S k) k)), (proj2 (Nat.eqb_neq (S k) k)) by lia. reflexivity. }
  pose proof (ecnt_mono u Hu k (S k) _ ltac:(lia) (Ht k ltac:(lia))) as Htk.
  assert (Htf : forall x, ecnt u (S k) (t k * fac (rnd := rnd) x)).
  { intros x. replace (S k) with (k + 1)%nat by lia. apply (ecnt_mul u Hu); [apply Ht; lia|apply (fac_cnt RN)]. }
  assert (Htd : forall x, ecnt u (S k) (t k * / fac (rnd := rnd) x)).
  { intros x. replace (S k) with (k + 1)%nat by lia. apply (ecnt_mul u Hu); [apply Ht; lia|]. apply (ecnt_inv u Hu), (fac_cnt RN). }
  assert (Hgk : g k = f p / l p * fac (rnd := rnd) (f p / l p)).
  { unfold g, col_step. rewrite Nat.ltb_irrefl, Nat.eqb_refl. apply (rnd_fac RN). }
  pose proof (fac_neq RN (f p / l p)) as Hf1.
  destruct (lt_eq_lt_dec r k) as [[L1|L1]|L1].
  - (* finished rows *)
    destruct (Hbase 1 1 (ecnt_1 u Hu _) (ecnt_1 u Hu _)) as (t' & Ht' & Hq & Hk' & Hs'). exists t'. split; [exact Ht'|].
    rewrite E, rsum_S, (Hsum t' Hq), (Hs r L1), (proj2 (Nat.ltb_lt r k)), (proj2 (Nat.ltb_lt r (S k))) by lia.
    unfold next_L at 1. rewrite Nat.eqb_refl, (proj2 (Nat.ltb_lt r k)) by lia. ring.
  - (* the pivot row *)
    subst r. destruct (Hbase _ 1 (Htd (f p / l p)) (ecnt_1 u Hu _)) as (t' & Ht' & Hq & Hk' & Hs'). exists t'. split; [exact Ht'|].
    rewrite E, rsum_S, (Hsum t' Hq), (proj2 (Nat.ltb_lt k (S k))) by lia. unfold next_L at 1.
    rewrite Nat.eqb_refl, Nat.ltb_irrefl, swapf_l, (proj2 (Nat.ltb_ge p k)), Hk', Hgk by lia. field. split; assumption.
  - (* rows below *)
    set (s := swapf k p r) in *. assert (Hs1 : (k <= s)%nat) by (apply Hge; lia).
    set (f1 := fac (rnd := rnd) (g k * l s)). set (f2 := fac (rnd := rnd) (f s - rnd (g k * l s))).
    assert (Hgr : g r = (f s - g k * l s * f1) * f2).
    { assert (E' : rnd (g k * l s) = g k * l s * f1) by apply (rnd_fac RN).
      unfold f2. rewrite <- E', <- (rnd_fac RN). unfold g at 1, col_step. fold s.
      rewrite (proj2 (Nat.ltb_ge r k)), (proj2 (Nat.eqb_neq r k)) by lia. unfold g, col_step. now rewrite Nat.ltb_irrefl, Nat.eqb_refl. }
    pose proof (fac_neq RN (f s - rnd (g k * l s))) as Hf2. fold f2 in Hf2.
    destruct (Hbase _ _ (Htf (g k * l s)) (Htd (f s - rnd (g k * l s)))) as (t' & Ht' & Hq & Hk' & Hs'). fold f1 in Hk'. fold f2 in Hs'.
    exists t'. split; [exact Ht'|].
    rewrite E, rsum_S, (Hsum t' Hq), (proj2 (Nat.ltb_ge r (S k))), (proj2 (Nat.ltb_ge s k)), Hs' by lia. unfold next_L at 1.
    rewrite Nat.eqb_refl, (proj2 (Nat.ltb_ge r k)), Hk', Hgr by lia. fold s. field. assumption.
Qed.

Lemma perm_swap n k p sg : (k < n)%nat -> (p < n)%nat -> perm_on n sg -> perm_on n (fun r => sg (swapf k p r)).
Proof.
  intros Hk Hp (H1 & s' & H2). split; [intros i Hi; apply H1; now apply swapf_lt|].
  exists (fun i => swapf k p (s' i)). intros i Hi.
  destruct (H2 i Hi) as (A1 & A2 & A3). destruct (H2 (swapf k p i) ltac:(now apply swapf_lt)) as (_ & B2 & _).
  split; [now apply swapf_lt|]. split; [rewrite B2; apply swapf_swapf|now rewrite swapf_swapf].
Qed.

Context (rnd_1 : rnd 1 = 1).

Lemma elim_col k p M j r : elim_step k p M r j = col_step k p (fun s => M s k) (fun s => M s j) r.
Proof.
  unfold elim_step, col_step. rewrite swapf_l. destruct (r <? k)%nat; [reflexivity|]. destruct (r =? k)%nat; reflexivity.
Qed.
Lemma rhs_col k p M (b : nat -> A) r : elim_rhs k p M b r = col_step k p (fun s => M s k) b r.
Proof. unfold elim_rhs, col_step. destruct (r <? k)%nat; [reflexivity|]. destruct (r =? k)%nat; reflexivity. Qed.

Definition gauss_inv (n : nat) M (fb : nat -> A) (k : nat) (Mk : nat -> nat -> A) (bk : nat -> A) : Prop :=
  (forall r c, (r < n -> c < k -> c < r -> Mk r c = s0)%nat) /\ (forall r, (r < k)%nat -> Mk r r = s1) /\
  (forall r c, (r < n -> c < n -> rnd (Mk r c) = Mk r c)%nat) /\
  exists sg (L : nat -> nat -> R), perm_on n sg /\ (forall r q, (r < q)%nat -> (q < k)%nat -> L r q = 0) /\
    (forall r, (r < k)%nat -> L r r <> 0) /\
    (forall j, (j < n)%nat -> col_inv n k sg L (fun r => M r j) (fun r => Mk r j)) /\ col_inv n k sg L fb bk.

Lemma col_inv_ext n k sg L f0 f f' : (forall r, (r < n)%nat -> f r = f' r) -> (k <= n)%nat ->
  col_inv n k sg L f0 f -> col_inv n k sg L f0 f'.
Proof.
  intros He Hk H r Hr. destruct (H r Hr) as (t & Ht & E). exists t. split; [exact Ht|]. rewrite E, <- (He r Hr). f_equal.
  apply rsum_ext. intros q Hq. now rewrite He by lia.
Qed.

Lemma gauss_inv_0 n M fb : (forall r c, (r < n -> c < n -> rnd (M r c) = M r c)%nat) -> gauss_inv n M fb 0 M fb.
Proof.
  intros HM. split; [intros; lia|]. split; [intros; lia|]. split; [exact HM|].
  exists (fun r => r), (fun _ _ => 0). split; [split; [auto|]; exists (fun i => i); auto|].
  split; [intros; lia|]. split; [intros; lia|].
  assert (H : forall f, col_inv n 0 (fun r => r) (fun _ _ => 0) f f).
  { intros f r Hr. exists (fun _ => 1). split; [intros; apply (ecnt_1 u Hu)|]. change (f r = 0 + f r * 1). ring. }
  split; [intros; apply H|apply H].
Qed.

Lemma gauss_inv_step n M fb k p Mk bk Mk' : (k < n)%nat -> (k <= p < n)%nat -> Mk p k <> s0 ->
  (forall r c, (r < n -> c < n -> Mk' r c = elim_step k p Mk r c)%nat) ->
  gauss_inv n M fb k Mk bk -> gauss_inv n M fb (S k) Mk' (elim_rhs k p Mk bk).
Proof.
  intros Hk Hp Hz Hn (Ht & Hd & Hr & sg & L & Hsg & HL & HLd & Hcol & Hrhs).
  assert (Hs : forall q, (q < k)%nat -> swapf k p q = q).
  { intros q Hq. unfold swapf. now rewrite (proj2 (Nat.eqb_neq q k)), (proj2 (Nat.eqb_neq q p)) by lia. }
  assert (Hge : forall r, (k <= r < n -> k <= swapf k p r < n)%nat).
  { intros r. unfold swapf. destruct (Nat.eqb_spec r k), (Nat.eqb_spec r p); lia. }
  split; [|split; [|split]].
  - intros r c Hr' Hc Hcr. rewrite Hn by lia. unfold elim_step. rewrite swapf_l.
    destruct (Nat.ltb_spec r k) as [l|l]; [rewrite Hs by lia; apply Ht; lia|].
    destruct (Nat.eqb_spec r k) as [->|Hrk].
    + rewrite (Ht p c) by lia. apply rdiv_0.
    + pose proof (Hge r ltac:(lia)). destruct (decide (c = k)) as [->|Hck].
      * cbn. unfold Rdiv at 1. rewrite Rinv_r by exact Hz. rewrite rnd_1, Rmult_1_l, (Hr (swapf k p r) k) by lia.
        rewrite Rminus_diag_eq by reflexivity. apply (rnd_0 RN).
      * rewrite (Ht p c), (Ht (swapf k p r) c), rdiv_0 by lia. apply rsub_0.
  - intros r Hr'. rewrite Hn by lia. unfold elim_step. rewrite swapf_l.
    destruct (Nat.ltb_spec r k) as [l|l]; [rewrite Hs by lia; apply Hd; lia|].
    assert (r = k) as -> by lia. rewrite Nat.eqb_refl. cbn. unfold Rdiv at 1. rewrite Rinv_r by exact Hz. exact rnd_1.
  - intros r c Hr' Hc. rewrite Hn by lia. unfold elim_step.
    destruct (r <? k)%nat; [apply Hr; [apply swapf_lt; lia|lia]|].
    destruct (r =? k)%nat; cbn; apply (rn_idem _ _ RN).
  - exists (fun r => sg (swapf k p r)), (next_L k p (fun s => Mk s k) L). split; [apply perm_swap; auto; lia|].
    split; [|split; [|split]].
    + intros r q Hrq Hq. unfold next_L. destruct (Nat.eqb_spec q k) as [->|]; [now rewrite (proj2 (Nat.ltb_lt r k))|].
      rewrite Hs by lia. apply HL; lia.
    + intros r Hr'. unfold next_L. destruct (Nat.eqb_spec r k) as [->|]; [rewrite Nat.ltb_irrefl, swapf_l; exact Hz|].
      rewrite Hs by lia. apply HLd; lia.
    + intros j Hj. apply (col_inv_ext n (S k) _ _ _ (col_step k p (fun s => Mk s k) (fun s => Mk s j))); [|lia|].
      * intros r Hr'. rewrite Hn by lia. symmetry. apply elim_col.
      * apply col_inv_step; auto.
    + apply (col_inv_ext n (S k) _ _ _ (col_step k p (fun s => Mk s k) bk)); [|lia|].
      * intros r Hr'. symmetry. apply rhs_col.
      * apply col_inv_step; auto.
Qed.

(** the last substitution: [U] has a unit diagonal *)
Lemma fold_sum n a (g : nat -> A) (f : nat -> A -> out A) :
  (forall j t, (a <= j < a + n)%nat -> f j t = Ret (sadd t (g j))) ->
  foldM f (seq a n) s0 = Ret (bigsum n (fun i => g (a + i)%nat)).
Proof.
  induction n as [|n IH]; intros H; [reflexivity|].
  rewrite seq_S_app, foldM_app, IH by (intros; apply H; lia). cbn [mbind out_bind foldM]. now rewrite H by lia.
Qed.

Lemma back_row n i (U : nat -> nat -> A) (x : nat -> A) (y : A) : (i < n)%nat ->
  (forall c, (c < i)%nat -> U i c = s0) -> U i i = s1 ->
  x i = ssub y (bigsum (n - (i + 1)) (fun k => smul (U i (i + 1 + k)%nat) (x (i + 1 + k)%nat))) ->
  exists w : nat -> R, (forall j, (j < n)%nat -> ecnt u n (w j)) /\ (y : R) = rsum n (fun j => U i j * x j * w j).
Proof.
  intros Hi Hz Hd Hx.
  destruct (dot_cnt RN (n - (i + 1)) (fun k => U i (i + 1 + k)%nat) (fun k => x (i + 1 + k)%nat)) as (t & E & Ht).
  rewrite E in Hx. set (T := rsum (n - (i + 1)) _) in Hx. cbn [ssub Rnd_arith] in Hx. rewrite (rnd_fac RN) in Hx.
  set (f := fac (rnd := rnd) (y - T)) in Hx. pose proof (fac_neq RN (y - T)) as Hf. fold f in Hf.
  exists (fun j => if (j =? i)%nat then / f else if (j <? i)%nat then 1 else t (j - (i + 1))%nat). split.
  - intros j Hj. destruct (Nat.eqb_spec j i) as [->|].
    + apply (ecnt_mono u Hu 1); [lia|]. apply (ecnt_inv u Hu), (fac_cnt RN).
    + destruct (Nat.ltb_spec j i); [apply (ecnt_1 u Hu)|]. apply (ecnt_mono u Hu (n - (i + 1))); [lia|]. apply Ht. lia.
  - rewrite (rsum_split n (i + 1)) by lia. replace (i + 1)%nat with (S i) at 1 by lia. rewrite rsum_S, Nat.eqb_refl.
    rewrite (rsum_0 i).
    2:{ intros j Hj. rewrite (Hz j Hj). cbn [s0 Rnd_arith]. ring. }
    rewrite (rsum_ext _ _ (fun k => U i (i + 1 + k)%nat * x (i + 1 + k)%nat * t k)).
    2:{ intros j Hj. rewrite (proj2 (Nat.eqb_neq _ i)), (proj2 (Nat.ltb_ge _ i)) by lia. do 2 f_equal. lia. }
    fold T. rewrite Hd, Hx. cbn [s1 Rnd_arith]. rfield. exact Hf.
Qed.

Lemma gausselim_round n (a b : lm A) M fb : rep a n n M -> rep b n 1 (fun r _ => fb r) ->
  (forall r c, (r < n -> c < n -> rnd (M r c) = M r c)%nat) -> pivots_nonzero n M ->
  exists x, solve_gausselim a b = Ret (Ok x) /\ lm_wf x /\ mshape x = (n, 1%nat) /\
  exists (U : nat -> nat -> A) (y : nat -> A), gauss_inv n M fb n U y /\
    forall i, (i < n)%nat -> exists w : nat -> R, (forall j, (j < n)%nat -> ecnt u n (w j)) /\
      (y i : R) = rsum n (fun j => U i j * el (A := A) x j 0 * w j).
Proof.
  intros Ha Hb HM (Ms & H0 & Hstep). unfold solve_gausselim.
  rewrite (proj1 (proj2 Ha)), (proj1 (proj2 Hb)). cbn [fst snd]. rewrite !Nat.eqb_refl. cbn [negb orb].
  destruct (foldM_range_inv
    (fun k r => exists a' b' fb', r = Ok (a', b') /\ rep a' n n (Ms k) /\ rep b' n 1 (fun r _ => fb' r) /\
       gauss_inv n M fb k (Ms k) fb')
    (fun col (r : result merr (lm A * lm A)) => match r with Err e => Ret (Err e) | Ok ab => gauss_col n col ab end)
    0 n (Ok (a, b))) as (r & E & a' & b' & fb' & -> & Ha' & Hb' & Hinv); [lia| | |].
  - exists a, b, fb. split; [reflexivity|]. split.
    { eapply rep_ext; [exact Ha|]. intros; symmetry; now apply H0. }
    split; [exact Hb|]. destruct (gauss_inv_0 n M fb HM) as (G1 & G2 & G3 & sg & L & P1 & P2 & P3 & P4 & P5).
    split; [intros; lia|]. split; [intros; lia|]. split; [intros r c Hr Hc; rewrite H0 by lia; now apply HM|].
    exists sg, L. split; [exact P1|]. split; [exact P2|]. split; [exact P3|]. split; [|exact P5].
    intros j Hj. apply (col_inv_ext n 0 _ _ _ (fun r => M r j)); [intros; symmetry; now apply H0|lia|now apply P4].
  - intros k r Hk (a1 & b1 & fb1 & -> & Ha1 & Hb1 & Hinv).
    destruct (Hstep k ltac:(lia)) as (p & Hp & Hpz & Hnext).
    assert (Hp' : (k <= p < n)%nat) by (destruct Hp; lia).
    destruct (rgauss_col_spec n k p a1 b1 (Ms k) fb1 ltac:(lia) Ha1 Hb1 Hp) as (a2 & b2 & E & Ha2 & Hb2).
    { intros r c Hr Hc. apply (proj1 Hinv); lia. }
    exists (Ok (a2, b2)). split; [exact E|]. exists a2, b2, (elim_rhs k p (Ms k) fb1). split; [reflexivity|].
    split. { eapply rep_ext; [exact Ha2|]. intros; symmetry; now apply Hnext. }
    split; [exact Hb2|]. eapply gauss_inv_step; eauto. lia.
  - rewrite E. cbn [mbind out_bind mzeros lm_like fst snd]. clear E.
    assert (Hz : forall r c, (r < n -> c < r -> Ms n r c = s0)%nat) by (intros; apply (proj1 Hinv); lia).
    assert (H1 : forall r, (r < n)%nat -> Ms n r r = s1) by (apply Hinv).
    destruct (foldM_rev_range_inv
      (fun i x => rep (A := A) x n 1 (fun r _ => el (A := A) x r 0%nat) /\ forall j, (i <= j < n)%nat ->
          el (A := A) x j 0 = ssub (fb' j) (bigsum (n - (j + 1)) (fun k => smul (Ms n j (j + 1 + k)%nat) (el (A := A) x (j + 1 + k)%nat 0))))
      (fun row x =>
           temp ← foldM (fun j t => u ← index a' (row, j); v ← index x (j, 0%nat);
                                    Ret (sadd t (smul u v))) (range (row + 1)%nat n) s0;
           v ← index b' (row, 0%nat);
           index_set x (row, 0%nat) (ssub v temp)) n (lm_zeros (n, 1%nat))) as (x & Ex & Hx & Hsx).
    + split; [|intros; lia]. eapply rep_ext; [apply rep_zeros|]. intros; symmetry; apply lm_zeros_el.
    + intros i x Hi (Hx & Hsx). unfold range at 1.
      rewrite (fold_sum (n - (i + 1)) (i + 1) (fun k => smul (Ms n i k) (el (A := A) x k 0%nat))).
      2:{ intros j t Hj. rewrite (rep_index a' n n _ i j Ha') by lia. cbn [mbind out_bind].
          rewrite (rep_index x n 1 _ j 0 Hx) by lia. reflexivity. }
      cbn [mbind out_bind]. rewrite (rep_index b' n 1 _ i 0 Hb') by lia. cbn [mbind out_bind].
      destruct (rep_set x n 1 _ i 0 (ssub (fb' i) (bigsum (n - (i + 1)) (fun k => smul (Ms n i (i + 1 + k)%nat) (el (A := A) x (i + 1 + k)%nat 0%nat)))) Hx) as (x' & E' & Hx'); [lia..|].
      exists x'. split; [exact E'|].
      pose proof (proj2 (proj2 Hx')) as He. unfold fupd2 in He. cbn beta in He. split.
      { eapply rep_ext; [exact Hx'|]. intros r c Hr Hc. assert (c = 0%nat) as -> by lia. symmetry. apply He; lia. }
      assert (Hkeep : forall j, (i < j < n)%nat -> el (A := A) x' j 0 = el (A := A) x j 0).
      { intros j Hj. rewrite He by lia. rewrite (proj2 (Nat.eqb_neq j i)) by lia. reflexivity. }
      intros j Hj. destruct (decide (i < j)%nat) as [Hlt|Hge].
      * rewrite Hkeep, (Hsx j) by lia. f_equal. apply bigsum_ext. intros k Hk. now rewrite Hkeep by lia.
      * assert (j = i) as -> by lia. rewrite He by lia. rewrite !Nat.eqb_refl. cbn [andb]. f_equal.
        apply bigsum_ext. intros k Hk. now rewrite Hkeep by lia.
    + rewrite Ex. cbn [mbind out_bind]. exists x. split; [reflexivity|].
      split; [apply Hx|]. split; [apply Hx|]. exists (Ms n), fb'. split; [exact Hinv|].
      intros i Hi. apply (back_row n i (Ms n) (fun j => el (A := A) x j 0)); auto. apply Hsx; lia.
Qed.

(** ** The computed answer solves a neighbouring system *)
Lemma combine n (L : nat -> R) (U : nat -> nat -> R) (m x y : nat -> R) (b : R) :
  (forall j, (j < n)%nat -> exists t : nat -> R, (forall q, (q < n)%nat -> ecnt u n (t q)) /\ m j = rsum n (fun q => L q * U q j * t q)) ->
  (exists t : nat -> R, (forall q, (q < n)%nat -> ecnt u n (t q)) /\ b = rsum n (fun q => L q * y q * t q)) ->
  (forall q, (q < n)%nat -> exists w : nat -> R, (forall j, (j < n)%nat -> ecnt u n (w j)) /\ y q = rsum n (fun j => U q j * x j * w j)) ->
  exists E : nat -> R, rsum n (fun j => (m j + E j) * x j) = b /\
    (forall j, (j < n)%nat -> Rabs (E j) <= gee u (3 * n) * rsum n (fun q => Rabs (L q) * Rabs (U q j))) /\
    (forall j, (j < n)%nat -> Rabs (rsum n (fun q => L q * U q j) - m j) <= gee u n * rsum n (fun q => Rabs (L q) * Rabs (U q j))).
Proof.
  intros Hm (s & Hs & Hb) Hy. apply (fin_choice (fun _ => 0)) in Hm as (T & HT). apply (fin_choice (fun _ => 0)) in Hy as (W & HW).
  assert (Hbnd : forall (c : nat -> R) g j, (forall q, (q < n)%nat -> Rabs (c q) <= g) ->
    Rabs (rsum n (fun q => L q * U q j * c q)) <= g * rsum n (fun q => Rabs (L q) * Rabs (U q j))).
  { intros c g j Hc. eapply Rle_trans; [apply rsum_abs|]. rewrite <- rsum_scale_l. apply rsum_le. intros q Hq.
    rewrite !Rabs_mult. rewrite Rmult_comm. apply Rmult_le_compat_r; [apply Rmult_le_pos; apply Rabs_pos|now apply Hc]. }
  exists (fun j => rsum n (fun q => L q * U q j * (s q * W q j - T j q))). split; [|split].
  - transitivity (rsum n (fun j => rsum n (fun q => L q * U q j * (s q * W q j) * x j))).
    + apply rsum_ext. intros j Hj. rewrite (proj2 (HT j Hj)), <- rsum_add, <- rsum_scale_r. apply rsum_ext. intros q Hq. ring.
    + rewrite rsum_swap, Hb. apply rsum_ext. intros q Hq. rewrite (proj2 (HW q Hq)), <- rsum_scale_l, <- rsum_scale_r.
      apply rsum_ext. intros j Hj. ring.
  - intros j Hj. apply Hbnd. intros q Hq. replace (3 * n)%nat with (n + n + n)%nat by lia.
    apply (ecnt_diff u Hu); [apply (ecnt_mul u Hu); [now apply Hs|now apply HW]|now apply HT].
  - intros j Hj. rewrite (proj2 (HT j Hj)), <- rsum_sub.
    rewrite (rsum_ext n _ (fun q => L q * U q j * (1 - T j q))) by (intros; ring).
    apply Hbnd. intros q Hq. rewrite Rabs_minus_sym. apply (ecnt_gee u Hu). now apply HT.
Qed.

Lemma gausselim_error n (a b : lm A) M fb : rep a n n M -> rep b n 1 (fun r _ => fb r) ->
  (forall r c, (r < n -> c < n -> rnd (M r c) = M r c)%nat) -> pivots_nonzero n M -> INR (3 * n) * u < 1 ->
  exists x, solve_gausselim a b = Ret (Ok x) /\ lm_wf x /\ mshape x = (n, 1%nat) /\
  exists sg (L U E : nat -> nat -> R), perm_on n sg /\
    (forall r q, (r < n)%nat -> (q < n)%nat -> (r < q)%nat -> L r q = 0) /\ (forall r, (r < n)%nat -> L r r <> 0) /\
    (forall r c, (r < n)%nat -> (c < r)%nat -> U r c = 0) /\ (forall r, (r < n)%nat -> U r r = 1) /\
    forall r, (r < n)%nat ->
      rsum n (fun j => (M (sg r) j + E r j) * el (A := A) x j 0) = fb (sg r) /\
      (forall j, (j < n)%nat -> Rabs (E r j) <= gam u (3 * n) * rsum n (fun q => Rabs (L r q) * Rabs (U q j))) /\
      (forall j, (j < n)%nat -> Rabs (rsum n (fun q => L r q * U q j) - M (sg r) j) <= gam u n * rsum n (fun q => Rabs (L r q) * Rabs (U q j))).
Proof.
  intros Ha Hb HM Hp Hn. destruct (gausselim_round n a b M fb Ha Hb HM Hp) as (x & Ex & Wx & Sx & U & y & Hinv & Hy).
  exists x. split; [exact Ex|]. split; [exact Wx|]. split; [exact Sx|].
  destruct Hinv as (Hz & Hd & _ & sg & L & Hsg & HL & HLd & Hcol & Hrhs).
  assert (Hc : forall f0 f r, col_inv n n sg L f0 f -> (r < n)%nat ->
     exists t : nat -> R, (forall q, (q < n)%nat -> ecnt u n (t q)) /\ f0 (sg r) = rsum n (fun q => L r q * f q * t q)).
  { intros f0 f r H Hr. destruct (H r Hr) as (t & Ht & E). exists t. split; [intros; apply Ht; lia|].
    rewrite E, (proj2 (Nat.ltb_lt r n)) by assumption. ring. }
  assert (HE : exists E : nat -> nat -> R, forall r, (r < n)%nat ->
      rsum n (fun j => (M (sg r) j + E r j) * el (A := A) x j 0) = fb (sg r) /\
      (forall j, (j < n)%nat -> Rabs (E r j) <= gee u (3 * n) * rsum n (fun q => Rabs (L r q) * Rabs (U q j))) /\
      (forall j, (j < n)%nat -> Rabs (rsum n (fun q => L r q * U q j) - M (sg r) j) <= gee u n * rsum n (fun q => Rabs (L r q) * Rabs (U q j)))).
  { apply (fin_choice (fun _ : nat => 0) n (fun r Er =>
      rsum n (fun j => (M (sg r) j + Er j) * el (A := A) x j 0) = fb (sg r) /\
      (forall j, (j < n)%nat -> Rabs (Er j) <= gee u (3 * n) * rsum n (fun q => Rabs (L r q) * Rabs (U q j))) /\
      (forall j, (j < n)%nat -> Rabs (rsum n (fun q => L r q * U q j) - M (sg r) j) <= gee u n * rsum n (fun q => Rabs (L r q) * Rabs (U q j))))).
    intros r Hr.
    destruct (combine n (L r) U (fun j => M (sg r) j) (fun j => el (A := A) x j 0) y (fb (sg r))) as (E & HE).
    - intros j Hj. exact (Hc (fun r => M r j) (fun r => U r j) r (Hcol j Hj) Hr).
    - exact (Hc fb y r Hrhs Hr).
    - exact Hy.
    - exists E. exact HE. }
  destruct HE as (E & HE). exists sg, L, U, E. split; [exact Hsg|]. split; [intros; now apply HL|]. split; [exact HLd|].
  split; [intros; apply Hz; lia|]. split; [exact Hd|]. intros r Hr. destruct (HE r Hr) as (E1 & E2 & E3).
  assert (Hpos : forall j, 0 <= rsum n (fun q => Rabs (L r q) * Rabs (U q j))).
  { intros j. apply rsum_nonneg. intros. apply Rmult_le_pos; apply Rabs_pos. }
  split; [exact E1|]. split; intros j Hj.
  - eapply Rle_trans; [now apply E2|]. apply Rmult_le_compat_r; [apply Hpos|]. now apply (gee_gam u Hu).
  - eapply Rle_trans; [now apply E3|]. apply Rmult_le_compat_r; [apply Hpos|]. apply (gee_gam u Hu).
    eapply Rle_lt_trans; [|exact Hn]. apply Rmult_le_compat_r; [lra|]. apply le_INR. lia.
Qed.
End gauss.
