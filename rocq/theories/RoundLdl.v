(** Counting eigenvalues in rounded arithmetic. *)
From Coq Require Import Reals Lra Lia.
From Verif Require Export LdlFree InertiaPert RoundLL EigTop.
Local Close Scope R_scope.

Section ldl.
Context {u : R} {rnd : R -> R} (RN : rounding u rnd).
Let Hu := rn_u _ _ RN.
Local Open Scope R_scope.
Local Notation A := (Rnd_arith rnd).
Implicit Types (a l : lenv A) (d : dg A).
Local Notation ent := (el (A := A) (M := lenv A)).
Local Notation piv d := (vel (A := A) (dg_data d)).

(** sums of triple products *)
Lemma tri_cnt n (x y z : nat -> A) :
  exists t : nat -> R, bigsum n (fun j => smul (smul (x j) (y j)) (z j)) = rsum n (fun j => x j * y j * z j * t j) /\
    forall j, (j < n)%nat -> ecnt u (n + 1) (t j).
Proof.
  destruct (sum_cnt RN n (fun j => smul (smul (x j) (y j)) (z j))) as (t & E & Ht).
  { intros j _. apply (rn_idem _ _ RN). }
  exists (fun j => t j * (fac (rnd := rnd) (x j * y j) * fac (rnd := rnd) (rnd (x j * y j) * z j))). split.
  - rewrite E. apply rsum_ext. intros j _. cbn [smul Rnd_arith]. rewrite (rnd_fac RN (rnd (x j * y j) * z j)).
    rewrite (rnd_fac RN (x j * y j)) at 1. ring.
  - intros j Hj. replace (n + 1)%nat with (n - 1 + (1 + 1))%nat by lia. apply (ecnt_mul u Hu); [auto|].
    apply (ecnt_mul u Hu); apply (fac_cnt RN).
Qed.

(** the same over a window of columns outside which the product of the first two vanishes *)
Lemma tri_window n s (x y z : nat -> A) : (s <= n)%nat -> (forall q, (q < s)%nat -> (x q : R) * y q = 0) ->
  exists t : nat -> R, @bigsum A (n - s) (fun j => smul (smul (x (s + j)%nat) (y (s + j)%nat)) (z (s + j)%nat))
      = rsum n (fun q => x q * y q * z q * t q) /\
    forall q, (q < n)%nat -> ecnt u (n + 1) (t q).
Proof.
  intros Hs Hz. destruct (tri_cnt (n - s) (fun j => x (s + j)%nat) (fun j => y (s + j)%nat) (fun j => z (s + j)%nat)) as (t & E & Ht).
  exists (fun q => if (s <=? q)%nat then t (q - s)%nat else 1). split.
  - rewrite E. rewrite (rsum_window n s n) by (try lia; intros c Hc; try lia; rewrite Hz by assumption; rring).
    apply rsum_ext. intros j Hj. rewrite (proj2 (Nat.leb_le s _)) by lia. do 2 f_equal. lia.
  - intros q Hq. destruct (Nat.leb_spec s q); [|apply (ecnt_1 u Hu)]. apply (ecnt_mono u Hu (n - s + 1)); [lia|]. apply Ht. lia.
Qed.

(** each stored entry of the matrix, from the computed factors *)
Lemma ldl_off a l d r c : le_wf a -> ldl_steps a (lev_n a) (l, d) -> (c < r < lev_n a)%nat -> (piv d c : R) <> 0 ->
  exists t : nat -> R, (ent a r c : R) = rsum (S c) (fun q => ent l r q * piv d q * ent l c q * t q) /\
    forall q, (q <= c)%nat -> ecnt u (c + 2) (t q).
Proof.
  intros Wa (W & Hnn & Hn & Hd & H1 & _ & H3) Hc Hnz. cbn [fst snd] in *.
  assert (Hlsc : forall i, lsc l i = lsc a i) by (intros; unfold lsc; now rewrite Hnn).
  assert (Hout : forall q i, (i < lev_n a)%nat -> (q < lsc a i)%nat -> (ent l i q : R) = 0).
  { intros q i Hi Hq. exact (el_left l i q W ltac:(rewrite Hlsc; exact Hq)). }
  destruct (Nat.le_gt_cases (lsc a r) c) as [Hin|Hgt].
  - pose proof (H3 c r ltac:(lia) Hc Hin) as Hq. unfold ldl_quot, ldl_sum in Hq. rewrite !Hlsc in Hq. cbv zeta in Hq.
    destruct (lsc_le a c Wa ltac:(lia)) as [Hc1 _].
    destruct (tri_window c (lsc a c `max` lsc a r)%nat (ent l c) (ent l r) (piv d)) as (t & Et & Ht); [lia| |].
    { intros q Hq'. destruct (Nat.lt_ge_cases q (lsc a c)) as [Hl|Hg].
      - rewrite (Hout q c) by lia. apply Rmult_0_l.
      - rewrite (Hout q r) by lia. apply Rmult_0_r. }
    change (@carrier A) with R in *. rewrite Et in Hq. set (S0 := rsum c _) in *. cbn [sdiv ssub Rnd_arith] in Hq.
    set (f1 := fac (rnd := rnd) (ent a r c - S0)). set (f2 := fac (rnd := rnd) (rnd (ent a r c - S0) / piv d c)).
    pose proof (fac_cnt RN (ent a r c - S0)) as C1. fold f1 in C1.
    pose proof (fac_cnt RN (rnd (ent a r c - S0) / piv d c)) as C2. fold f2 in C2.
    pose proof (rnd_fac RN (rnd (ent a r c - S0) / piv d c)) as Q2. fold f2 in Q2. rewrite (rnd_fac RN (ent a r c - S0)) in Q2 at 2. fold f1 in Q2.
    change (@carrier A) with R in *. rewrite Q2 in Hq.
    pose proof (ecnt_pos u Hu _ _ C1) as P1. pose proof (ecnt_pos u Hu _ _ C2) as P2. clearbody f1 f2.
    exists (fun q => if (q =? c)%nat then / (f1 * f2) else t q). split.
    + rewrite rsum_S, Nat.eqb_refl. rewrite (rsum_ext c _ (fun q => ent l c q * ent l r q * piv d q * t q)).
      2:{ intros q Hq'. rewrite (proj2 (Nat.eqb_neq q c)) by lia. rring. }
      fold S0. rewrite (H1 c) by lia. cbn [s1 Rnd_arith]. change (@carrier A) with R in *. rewrite Hq. rfield. repeat split; lra.
    + intros q Hq'. destruct (Nat.eqb_spec q c) as [->|].
      * apply (ecnt_mono u Hu 2); [lia|]. apply (ecnt_inv u Hu). now apply (ecnt_mul u Hu 1 1).
      * apply (ecnt_mono u Hu (c + 1)); [lia|]. apply Ht. lia.
  - exists (fun _ => 1). split; [|intros; apply (ecnt_1 u Hu)].
    rewrite (el_left a r c) by assumption. rewrite rsum_0; [reflexivity|]. intros q Hq.
    rewrite (Hout q r) by lia. rring.
Qed.

Lemma ldl_diag a l d r : le_wf a -> ldl_steps a (lev_n a) (l, d) -> (r < lev_n a)%nat ->
  exists t : nat -> R, (ent a r r : R) = rsum (S r) (fun q => ent l r q * piv d q * ent l r q * t q) /\
    forall q, (q <= r)%nat -> ecnt u (r + 2) (t q).
Proof.
  intros Wa (W & Hnn & Hn & Hd & H1 & H2 & _) Hr. cbn [fst snd] in *.
  assert (Hlsc : forall i, lsc l i = lsc a i) by (intros; unfold lsc; now rewrite Hnn).
  pose proof (H2 r Hr) as Hq. unfold ldl_piv in Hq. rewrite !Hlsc in Hq. destruct (lsc_le a r Wa Hr) as [Hc1 _].
  destruct (tri_window r (lsc a r) (ent l r) (ent l r) (piv d)) as (t & Et & Ht); [lia| |].
  { intros q Hq'. rewrite (el_left l r q) by (rewrite ?Hlsc; assumption). apply Rmult_0_l. }
  change (@carrier A) with R in *. rewrite Et in Hq. set (S0 := rsum r _) in *. cbn [ssub Rnd_arith] in Hq.
  rewrite (rnd_fac RN) in Hq. set (f1 := fac (rnd := rnd) (ent a r r - S0)) in *.
  pose proof (fac_cnt RN (ent a r r - S0)) as C1. fold f1 in C1. pose proof (ecnt_pos u Hu _ _ C1) as P1. clearbody f1.
  exists (fun q => if (q =? r)%nat then / f1 else t q). split.
  - rewrite rsum_S, Nat.eqb_refl. rewrite (rsum_ext r _ (fun q => ent l r q * ent l r q * piv d q * t q)).
    2:{ intros q Hq'. rewrite (proj2 (Nat.eqb_neq q r)) by lia. rring. }
    fold S0. rewrite (H1 r) by lia. cbn [s1 Rnd_arith]. change (@carrier A) with R in *. rewrite Hq. rfield. lra.
  - intros q Hq'. destruct (Nat.eqb_spec q r) as [->|].
    + apply (ecnt_mono u Hu 1); [lia|]. now apply (ecnt_inv u Hu).
    + apply (ecnt_mono u Hu (r + 1)); [lia|]. apply Ht. lia.
Qed.

Lemma ldl_round a l d : le_wf a -> cholesky_envelope_no_root a = Ret (l, d) ->
  (forall c, (S c < lev_n a)%nat -> (piv d c : R) <> 0) ->
  exists T : nat -> nat -> nat -> R,
    (forall r c q, (r < lev_n a)%nat -> (c < lev_n a)%nat -> (q < lev_n a)%nat -> ecnt u (lev_n a + 2) (T r c q)) /\
    (forall r c q, T r c q = T c r q) /\
    forall r c, (r < lev_n a)%nat -> (c < lev_n a)%nat ->
      (sym_el a r c : R) = rsum (lev_n a) (fun q => ent l r q * piv d q * ent l c q * T r c q).
Proof.
  intros Wa E Hnz. destruct (ldl_steps_all a Wa) as (ld & E' & HI).
  rewrite E in E'. injection E' as <-. pose proof HI as (W & _). cbn [fst] in W. set (n := lev_n a) in *.
  destruct (fin_choice (fun _ _ : nat => 1) n (fun r t => forall c, (c <= r)%nat ->
     (forall q, (q <= c)%nat -> ecnt u (n + 2) (t c q)) /\
     (ent a r c : R) = rsum (S c) (fun q => ent l r q * piv d q * ent l c q * t c q))) as [T HT].
  { intros r Hr. destruct (fin_choice (fun _ : nat => 1) (S r) (fun c t =>
      (forall q, (q <= c)%nat -> ecnt u (n + 2) (t q)) /\
      (ent a r c : R) = rsum (S c) (fun q => ent l r q * piv d q * ent l c q * t q))) as [t Ht].
    - intros c Hc. destruct (decide (c = r)) as [->|Hne].
      + destruct (ldl_diag a l d r Wa HI Hr) as (t & Et & Ht).
        exists t. split; [|exact Et]. intros q Hq. apply (ecnt_mono u Hu (r + 2)); [lia|]. now apply Ht.
      + destruct (ldl_off a l d r c Wa HI ltac:(unfold n in *; lia)) as (t & Et & Ht); [apply Hnz; unfold n in *; lia|].
        exists t. split; [|exact Et]. intros q Hq. apply (ecnt_mono u Hu (c + 2)); [lia|]. now apply Ht.
    - exists t. intros c Hc. apply Ht. lia. }
  exists (fun r c q => if (q <=? r `min` c)%nat then T (r `max` c)%nat (r `min` c)%nat q else 1). split; [|split].
  - intros r c q Hr Hc Hq. destruct (Nat.leb_spec q (r `min` c)); [|apply (ecnt_1 u Hu)]. apply (HT (r `max` c)%nat); lia.
  - intros r c q. now rewrite (Nat.min_comm r c), (Nat.max_comm r c).
  - assert (G : forall r c, (c <= r)%nat -> (r < n)%nat -> (ent a r c : R) =
       rsum n (fun q => ent l r q * piv d q * ent l c q * (if (q <=? c)%nat then T r c q else 1))).
    { intros r c Hcr Hr. destruct (HT r Hr c Hcr) as [_ ->].
      rewrite (rsum_window n 0 (S c)) by (try lia; intros q Hq; try lia; rewrite (el_right l c q) by (assumption || lia); cbn [s0 Rnd_arith]; rring).
      rewrite Nat.sub_0_r. apply rsum_ext. intros q Hq. rewrite (proj2 (Nat.leb_le _ _)) by lia. reflexivity. }
    intros r c Hr Hc. destruct (Nat.le_gt_cases c r) as [Hcr|Hcr].
    + rewrite sym_el_lower by lia. rewrite (G r c Hcr Hr). rewrite Nat.min_r, Nat.max_l by lia. reflexivity.
    + rewrite sym_el_sym, sym_el_lower by lia. rewrite (G c r) by lia. rewrite Nat.min_l, Nat.max_r by lia.
      apply rsum_ext. intros q _. rring.
Qed.

(** the shifted matrix *)
Lemma shifted_round (es : esys A) n (k m : nat -> nat -> A) (mu : A) : es_ok es n k m ->
  exists a, shifted (es_k es) (es_m es) mu = Ret a /\ le_wf a /\ lev_n a = n /\
    forall r c, (r < n)%nat -> (c < n)%nat ->
      exists t1 t2, ecnt u 1 t1 /\ ecnt u 3 t2 /\ (sym_el a r c : R) = k r c * t1 - mu * m r c * t2.
Proof.
  intros [Hd Wk Hk Wm Hm Wf Hf Hen Ek Ef Em Ks Ms]. unfold shifted.
  destruct (add_scaled_free (es_k es) (es_m es) (smul (sneg s1) mu) Wk Wm) as (a & E & Wa & _ & Hna & Hel); [congruence| |].
  { intros i Hi. apply Hen. congruence. }
  exists a. split; [exact E|]. split; [exact Wa|]. split; [congruence|].
  assert (G : forall r c, (r < n)%nat -> (c <= r)%nat ->
     exists t1 t2, ecnt u 1 t1 /\ ecnt u 3 t2 /\ (ent a r c : R) = k r c * t1 - mu * m r c * t2).
  { intros r c Hr Hc. rewrite Hel by (congruence || exact Hc). rewrite Ek, Em by lia. destruct (be_dom (es_m es) r c) eqn:Hdom.
    - cbn [sadd smul sneg s1 Rnd_arith]. set (nm := rnd (- (1) * mu)). set (p := rnd (m r c * nm)).
      exists (fac (rnd := rnd) (k r c + p)), (fac (rnd := rnd) (- (1) * mu) * fac (rnd := rnd) (m r c * nm) * fac (rnd := rnd) (k r c + p)).
      split; [apply (fac_cnt RN)|]. split; [apply (ecnt_mul u Hu 2 1); [apply (ecnt_mul u Hu 1 1)|]; apply (fac_cnt RN)|].
      rewrite (rnd_fac RN (k r c + p)). unfold p at 1. rewrite (rnd_fac RN (m r c * nm)). unfold nm at 1. rewrite (rnd_fac RN (- (1) * mu)). rring.
    - assert (Hz : (m r c : R) = 0).
      { rewrite <- Em by lia. exact (law_nodom _ _ be_laws (es_m es) r c Wm Hdom). }
      exists 1, 1. split; [apply (ecnt_1 u Hu)|]. split; [apply (ecnt_1 u Hu)|]. change (@carrier A) with R in *. rewrite Hz. rring. }
  intros r c Hr Hc. unfold sym_el. destruct (Nat.leb_spec c r) as [Hle|Hgt].
  - now apply G.
  - destruct (G c r ltac:(lia) ltac:(lia)) as (t1 & t2 & C1 & C2 & Q). exists t1, t2. split; [exact C1|]. split; [exact C2|].
    rewrite (Ks r c), (Ms r c) by lia. exact Q.
Qed.

(** the computed count, against the eigenvalues of the exact pencil *)
Lemma count_round (es : esys A) n (k m : nat -> nat -> A) (mu : A) a l d : es_ok es n k m ->
  shifted (es_k es) (es_m es) mu = Ret a -> cholesky_envelope_no_root a = Ret (l, d) ->
  (forall c, (S c < n)%nat -> (piv d c : R) <> 0) -> INR (n + 3) * u < 1 ->
  exists E : nat -> nat -> R,
    (forall r c, (r < n)%nat -> (c < n)%nat -> E r c = E c r) /\
    (forall r c, (r < n)%nat -> (c < n)%nat -> Rabs (E r c) <=
       gam u (n + 3) * (rsum n (fun q => Rabs (ent l r q) * Rabs (piv d q) * Rabs (ent l c q)) + Rabs (k r c) + Rabs mu * Rabs (m r c))) /\
    forall (v : nat -> nat -> R) (lam : nat -> R) (eps : R), @gen_eigs R_arith n k m v lam ->
      (forall x : nat -> R, Rabs (rsum n (fun r => x r * rsum n (fun c => E r c * x c))) <= eps * rsum n (fun r => x r * rsum n (fun c => m r c * x c))) ->
      (@count_below R_arith n lam (mu - eps)%R <= num_neg d <= @count_below R_arith n lam (mu + eps)%R)%nat.
Proof.
  intros Hes Ea Ec Hnz Hsm. destruct (shifted_round es n k m mu Hes) as (a' & Ea' & Wa & Hna & Hsel). rewrite Ea in Ea'. injection Ea' as <-.
  destruct (ldl_round a l d Wa Ec) as (T & HT & HTs & Hrec); [rewrite Hna; exact Hnz|]. rewrite Hna in *.
  destruct (ldl_steps_all a Wa) as (ld & E' & HI). rewrite Ec in E'. injection E' as <-.
  destruct HI as (W & _ & Hln & Hld & H1 & _). cbn [fst snd] in *. rewrite Hna in *.
  set (G := fun r c => rsum n (fun q => ent l r q * piv d q * ent l c q)).
  set (E := fun r c => G r c - ((k r c : R) - mu * m r c)).
  assert (Gs : forall r c, G r c = G c r) by (intros; apply rsum_ext; intros; rring).
  assert (Ks : forall r c, (r < n)%nat -> (c < n)%nat -> (k r c : R) = k c r) by (apply Hes).
  assert (Ms : forall r c, (r < n)%nat -> (c < n)%nat -> (m r c : R) = m c r) by (apply Hes).
  exists E. split; [|split].
  - intros r c Hr Hc. unfold E. rewrite (Gs r c). change (@carrier A) with R in *. now rewrite (Ks r c), (Ms r c).
  - intros r c Hr Hc. destruct (Hsel r c Hr Hc) as (t1 & t2 & C1 & C2 & Q). rewrite (Hrec r c Hr Hc) in Q.
    assert (D1 : E r c = rsum n (fun q => ent l r q * piv d q * ent l c q * (1 - T r c q)) + (k r c * (t1 - 1) - mu * m r c * (t2 - 1))).
    { unfold E, G. rewrite (rsum_ext n (fun q => ent l r q * piv d q * ent l c q * (1 - T r c q)) (fun q => ent l r q * piv d q * ent l c q - ent l r q * piv d q * ent l c q * T r c q)) by (intros; rring).
      rewrite rsum_sub, Q. rring. }
    rewrite D1. set (g := gam u (n + 3)).
    assert (Hg : forall N t, (N <= n + 3)%nat -> ecnt u N t -> Rabs (t - 1) <= g).
    { intros N t HN Ht. apply Rle_trans with (gee u N); [now apply (ecnt_gee u Hu)|]. apply Rle_trans with (gee u (n + 3)); [now apply (gee_mono u Hu)|]. now apply (gee_gam u Hu). }
    assert (B1 : Rabs (rsum n (fun q => ent l r q * piv d q * ent l c q * (1 - T r c q))) <= g * rsum n (fun q => Rabs (ent l r q) * Rabs (piv d q) * Rabs (ent l c q))).
    { apply Rle_trans with (1 := rsum_abs _ _). rewrite <- rsum_scale_l. apply rsum_le. intros q Hq. rewrite !Rabs_mult, (Rmult_comm g).
      apply Rmult_le_compat_l; [repeat apply Rmult_le_pos; apply Rabs_pos|]. rewrite Rabs_minus_sym. apply (Hg (n + 2)%nat); [lia|]. now apply HT. }
    assert (B2 : Rabs (k r c * (t1 - 1)) <= g * Rabs (k r c)).
    { rewrite Rabs_mult, Rmult_comm. apply Rmult_le_compat_r; [apply Rabs_pos|]. apply (Hg 1%nat); [lia|exact C1]. }
    assert (B3 : Rabs (mu * m r c * (t2 - 1)) <= g * (Rabs mu * Rabs (m r c))).
    { rewrite !Rabs_mult, (Rmult_comm g). apply Rmult_le_compat_l; [apply Rmult_le_pos; apply Rabs_pos|]. apply (Hg 3%nat); [lia|exact C2]. }
    apply Rle_trans with (1 := Rabs_triang _ _). rewrite !Rmult_plus_distr_l, Rplus_assoc. apply Rplus_le_compat; [exact B1|].
    unfold Rminus at 1. apply Rle_trans with (1 := Rabs_triang _ _). rewrite Rabs_Ropp. now apply Rplus_le_compat.
  - intros v lam eps HG HE.
    assert (HS : forall (x : nat -> R) nu, rsum n (fun r => x r * rsum n (fun c => G r c * x c)) =
       rsum n (fun r => x r * rsum n (fun c => ((k r c : R) - nu * m r c) * x c)) + (nu - mu) * rsum n (fun r => x r * rsum n (fun c => m r c * x c))
       + rsum n (fun r => x r * rsum n (fun c => E r c * x c))).
    { intros x nu. rewrite <- rsum_scale_l, <- !rsum_add. apply rsum_ext. intros r _.
      transitivity (x r * (rsum n (fun c => ((k r c : R) - nu * m r c) * x c) + (nu - mu) * rsum n (fun c => m r c * x c) + rsum n (fun c => E r c * x c))); [|rring].
      f_equal. rewrite <- rsum_scale_l, <- !rsum_add. apply rsum_ext. intros c _. unfold E. rring. }
    assert (Hnn : num_neg d = length (@negs R_arith n (piv d))).
    { rewrite (num_neg_negs d n Hld). reflexivity. }
    rewrite Hnn.
    refine (inertia_pert R_ord_laws n k m G v (fun r c => ent l r c) lam (piv d) mu eps HG _ _ _ _ _).
    + intros r c Hrc. exact (el_right l r c W Hrc).
    + intros r Hr. exact (H1 r Hr).
    + intros r c Hr Hc. reflexivity.
    + intros x. apply les_R. pose proof (Rle_trans _ _ _ (Rle_abs _) (HE x)) as HE1. pose proof (Rle_trans _ _ _ (Rle_abs _) (Rle_trans _ _ _ (Req_le _ _ (Rabs_Ropp _)) (HE x))) as HE2. pose proof (HS x (mu - eps)) as Q.
      unfold mv. cbn [sadd smul ssub R_arith]. change (rsum n (fun r => x r * rsum n (fun c => G r c * x c)) <= rsum n (fun r => x r * rsum n (fun c => ((k r c : R) - (mu - eps) * m r c) * x c))).
      lra.
    + intros x. apply les_R. pose proof (Rle_trans _ _ _ (Rle_abs _) (HE x)) as HE1. pose proof (Rle_trans _ _ _ (Rle_abs _) (Rle_trans _ _ _ (Req_le _ _ (Rabs_Ropp _)) (HE x))) as HE2. pose proof (HS x (mu + eps)) as Q.
      unfold mv. cbn [sadd smul ssub R_arith]. change (rsum n (fun r => x r * rsum n (fun c => ((k r c : R) - (mu + eps) * m r c) * x c)) <= rsum n (fun r => x r * rsum n (fun c => G r c * x c))).
      lra.
Qed.
End ldl.
