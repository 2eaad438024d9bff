(** Counting eigenvalues in rounded arithmetic, in the numbering of the caller's system. *)
From Coq Require Import Reals Lra Lia.
From Verif Require Export RoundLdl RoundTop.
Local Close Scope R_scope.

Lemma eigen_ready_free {A : arith} ho n ops (s : system A) : assemble n ops = Ret s -> eigen_ready s n -> oracle_ok ho ->
  exists es, eigen_new ho s = Ret es /\ perm_wf n (es_perm es) /\
    es_ok es n (fun r c => k_at s (pf (es_perm es) r) (pf (es_perm es) c))
               (fun r c => m_at s (pf (es_perm es) r) (pf (es_perm es) c)).
Proof.
  intros Ea (_ & Hn & H2 & Hk & Hm & Hc & Hst & Hpat) Ho. destruct (assemble_wf n ops s Ea) as (W & Hp & _).
  destruct (Hst 0 ltac:(lia)) as (md & v0 & Emd & Ev0). destruct (Hpat 0 0) as (kd & w0 & Ekd & _).
  { exists md, v0. auto. }
  unfold k_at, m_at in *. rewrite Ekd, Emd in *.
  destruct (eigen_new_ret ho s kd md n Ho W Hn Hp Ekd Emd H2 Hk Hm Hc) as (es & p & E & Wp & Hep & Hok).
  - intros r Hr. destruct (Hst r Hr) as (d & v & E & Hv). injection E as <-. eauto.
  - intros r c (v & Hv). destruct (Hpat r c) as (d & w & E & Hw). { exists md, v. auto. } injection E as <-. eauto.
  - exists es. split; [exact E|]. rewrite Hep. split; [now apply invert_wf|]. exact Hok.
Qed.

Section top.
Context {u : R} {rnd : R -> R} (RN : rounding u rnd).
Let Hu := rn_u _ _ RN.
Local Open Scope R_scope.
Local Notation A := (Rnd_arith rnd).

Lemma form_permute n p (E : nat -> nat -> R) (x : nat -> R) : perm_wf n p ->
  rsum n (fun r => x (pf p r) * rsum n (fun c => E (pf p r) (pf p c) * x (pf p c))) = rsum n (fun i => x i * rsum n (fun j => E i j * x j)).
Proof.
  intros W. rewrite <- (rsum_permute n p (fun i => x i * rsum n (fun j => E i j * x j)) W). apply rsum_ext. intros r _. cbn beta. f_equal.
  now rewrite <- (rsum_permute n p (fun j => E (pf p r) j * x j) W).
Qed.

Lemma count_top ho n ops (s : system A) : assemble n ops = Ret s -> eigen_ready s n -> oracle_ok ho -> INR (n + 3) * u < 1 ->
  exists es, eigen_new ho s = Ret es /\ perm_wf n (es_perm es) /\ forall mu : R, exists a l d,
    shifted (es_k es) (es_m es) mu = Ret a /\ cholesky_envelope_no_root a = Ret (l, DG d) /\ length d = n /\
    eigenvalues_under es mu = Ret (num_neg (DG d)) /\
    ((forall c, (S c < n)%nat -> (vel d c : R) <> 0) ->
     exists E : nat -> nat -> R,
      (forall i j, (i < n)%nat -> (j < n)%nat -> E i j = E j i) /\
      (forall i j, (i < n)%nat -> (j < n)%nat -> Rabs (E i j) <= gam u (n + 3) *
         (rsum n (fun q => Rabs (el l (pb (es_perm es) i) q) * Rabs (vel d q) * Rabs (el l (pb (es_perm es) j) q))
          + Rabs (k_at s i j) + Rabs mu * Rabs (m_at s i j))) /\
      forall (v : nat -> nat -> R) (lam : nat -> R) (eps : R), @gen_eigs R_arith n (k_at s) (m_at s) v lam ->
        (forall x : nat -> R, Rabs (rsum n (fun i => x i * rsum n (fun j => E i j * x j))) <= eps * rsum n (fun i => x i * rsum n (fun j => m_at s i j * x j))) ->
        (@count_below R_arith n lam (mu - eps)%R <= num_neg (DG d) <= @count_below R_arith n lam (mu + eps)%R)%nat).
Proof.
  intros Ea Hr Ho Hsm. destruct (eigen_ready_free ho n ops s Ea Hr Ho) as (es & Ees & W & Hok). exists es. split; [exact Ees|]. split; [exact W|].
  intros mu. destruct (shifted_round RN es n _ _ mu Hok) as (a & Es & Wa & Hna & _).
  destruct (ldl_steps_all a Wa) as ([l [d]] & Ec & HI). pose proof HI as (_ & _ & _ & Hl & _). cbn [fst snd dg_data] in Hl.
  exists a, l, d. split; [exact Es|]. split; [exact Ec|]. split; [congruence|].
  split; [unfold eigenvalues_under; rewrite Es; cbn [mbind out_bind]; rewrite Ec; reflexivity|].
  intros Hnz. destruct (count_round RN es n _ _ mu a l (DG d) Hok Es Ec Hnz Hsm) as (E & Esym & HB & HC).
  set (p := es_perm es) in *.
  assert (Hpb : forall i, (i < n)%nat -> (pb p i < n)%nat /\ pf p (pb p i) = i).
  { intros r Hr'. destruct (pb_lookup n p r W Hr') as (_ & B1 & _ & B2). auto. }
  assert (Hpf : forall i, (i < n)%nat -> (pf p i < n)%nat /\ pb p (pf p i) = i).
  { intros r Hr'. destruct (pf_lookup n p r W Hr') as (_ & B1 & _ & B2). auto. }
  exists (fun i j => E (pb p i) (pb p j)). split; [|split].
  - intros i j Hi Hj. apply Esym; now apply Hpb.
  - intros i j Hi Hj. destruct (Hpb i Hi) as [Bi Ei]. destruct (Hpb j Hj) as [Bj Ej]. pose proof (HB _ _ Bi Bj) as Q. rewrite Ei, Ej in Q. exact Q.
  - intros v lam eps HG HE. apply (HC (fun r j => v (pf p r) j) lam eps).
    + exact (gen_eigs_permute R_ord_laws n p (k_at s) (m_at s) v lam W HG).
    + intros x. specialize (HE (fun i => x (pb p i))). cbn beta in HE.
      rewrite <- (form_permute n p (fun i j => E (pb p i) (pb p j)) (fun i => x (pb p i)) W) in HE.
      rewrite <- (form_permute n p (fun i j => m_at s i j) (fun i => x (pb p i)) W) in HE. cbn beta in HE.
      rewrite (rsum_ext n (fun r => x (pb p (pf p r)) * rsum n (fun c => E (pb p (pf p r)) (pb p (pf p c)) * x (pb p (pf p c)))) (fun r => x r * rsum n (fun c => E r c * x c))) in HE.
      2:{ intros r Hr'. rewrite (proj2 (Hpf r Hr')). f_equal. apply rsum_ext. intros c Hc'. now rewrite (proj2 (Hpf c Hc')). }
      rewrite (rsum_ext n (fun r => x (pb p (pf p r)) * rsum n (fun c => m_at s (pf p r) (pf p c) * x (pb p (pf p c)))) (fun r => x r * rsum n (fun c => m_at s (pf p r) (pf p c) * x c))) in HE.
      2:{ intros r Hr'. rewrite (proj2 (Hpf r Hr')). f_equal. apply rsum_ext. intros c Hc'. now rewrite (proj2 (Hpf c Hc')). }
      exact HE.
Qed.
End top.

Lemma count_below_mono (n : nat) (lam : nat -> R) (a b : R) : (forall j, j < n -> (lam j < a)%R <-> (lam j < b)%R) ->
  @count_below R_arith n lam a = @count_below R_arith n lam b.
Proof.
  intros H. unfold count_below. f_equal. assert (G : forall L, (forall j, j ∈ L -> j < n) ->
    List.filter (fun j => sltb (lam j : R_arith) a) L = List.filter (fun j => sltb (lam j : R_arith) b) L).
  { induction L as [|j L IH]; intros HL; [reflexivity|]. cbn [List.filter]. rewrite IH by (intros i Hi; apply HL; now right).
    specialize (H j (HL j ltac:(left))). cbn. unfold R_ltb. destruct (Rlt_dec (lam j) a), (Rlt_dec (lam j) b); tauto. }
  apply G. intros j Hj. apply elem_of_seq in Hj. lia.
Qed.

Section rows.
Local Open Scope R_scope.
(** a symmetric form is bounded by its row sums *)
Lemma form_rows n (E B : nat -> nat -> R) (g : R) (x : nat -> R) : (forall i j, (i < n)%nat -> (j < n)%nat -> E i j = E j i) ->
  (forall i j, (i < n)%nat -> (j < n)%nat -> Rabs (E i j) <= B i j) -> (forall i, (i < n)%nat -> rsum n (fun j => B i j) <= g) ->
  Rabs (rsum n (fun i => x i * rsum n (fun j => E i j * x j))) <= g * rsum n (fun i => x i * x i).
Proof.
  intros Hs HB Hg.
  assert (H2 : forall i j, (i < n)%nat -> (j < n)%nat -> Rabs (x i * (E i j * x j)) <= / 2 * (Rabs (E i j) * (x i * x i)) + / 2 * (Rabs (E i j) * (x j * x j))).
  { intros i j _ _. rewrite !Rabs_mult. pose proof (Rabs_pos (E i j)) as P. pose proof (Rle_0_sqr (Rabs (x i) - Rabs (x j))) as Q. unfold Rsqr in Q.
    assert (Q1 : Rabs (x i) * Rabs (x i) = x i * x i) by (rewrite <- Rabs_mult; apply Rabs_right, Rle_ge, Rle_0_sqr).
    assert (Q2 : Rabs (x j) * Rabs (x j) = x j * x j) by (rewrite <- Rabs_mult; apply Rabs_right, Rle_ge, Rle_0_sqr).
    assert (Q3 : Rabs (x i) * Rabs (x j) <= / 2 * (x i * x i) + / 2 * (x j * x j)) by lra.
    apply Rle_trans with (Rabs (E i j) * (Rabs (x i) * Rabs (x j))); [right; ring|].
    apply Rle_trans with (Rabs (E i j) * (/ 2 * (x i * x i) + / 2 * (x j * x j))); [now apply Rmult_le_compat_l|right; ring]. }
  apply Rle_trans with (rsum n (fun i => rsum n (fun j => / 2 * (Rabs (E i j) * (x i * x i)) + / 2 * (Rabs (E i j) * (x j * x j))))).
  { apply Rle_trans with (1 := rsum_abs _ _). apply rsum_le. intros i Hi. rewrite <- rsum_scale_l.
    apply Rle_trans with (1 := rsum_abs _ _). apply rsum_le. intros j Hj. now apply H2. }
  apply Rle_trans with (rsum n (fun i => rsum n (fun j => Rabs (E i j) * (x i * x i)))).
  { right. rewrite (rsum_ext n (fun i => rsum n (fun j => / 2 * (Rabs (E i j) * (x i * x i)) + / 2 * (Rabs (E i j) * (x j * x j))))
      (fun i => / 2 * rsum n (fun j => Rabs (E i j) * (x i * x i)) + / 2 * rsum n (fun j => Rabs (E i j) * (x j * x j)))).
    2:{ intros i _. now rewrite rsum_add, !rsum_scale_l. }
    rewrite rsum_add, !rsum_scale_l. rewrite (rsum_swap n n (fun i j => Rabs (E i j) * (x j * x j))).
    rewrite (rsum_ext n (fun j => rsum n (fun i => Rabs (E i j) * (x j * x j))) (fun j => rsum n (fun i => Rabs (E j i) * (x j * x j)))).
    2:{ intros j Hj. apply rsum_ext. intros i Hi. now rewrite (Hs i j Hi Hj). }
    lra. }
  rewrite <- rsum_scale_l. apply rsum_le. intros i Hi. rewrite rsum_scale_r. apply Rmult_le_compat_r; [apply Rle_0_sqr|].
  apply Rle_trans with (2 := Hg i Hi). apply rsum_le. intros j Hj. now apply HB.
Qed.
End rows.

Section exact.
Context {u : R} {rnd : R -> R} (RN : rounding u rnd).
Let Hu := rn_u _ _ RN.
Local Open Scope R_scope.
Local Notation A := (Rnd_arith rnd).

Lemma count_exact ho n ops (s : system A) : assemble n ops = Ret s -> eigen_ready s n -> oracle_ok ho -> INR (n + 3) * u < 1 ->
  exists es, eigen_new ho s = Ret es /\ perm_wf n (es_perm es) /\ forall mu : R, exists a l d,
    shifted (es_k es) (es_m es) mu = Ret a /\ cholesky_envelope_no_root a = Ret (l, DG d) /\ length d = n /\
    forall (v : nat -> nat -> R) (lam : nat -> R) (c eps : R), @gen_eigs R_arith n (k_at s) (m_at s) v lam ->
      (forall x : nat -> R, c * rsum n (fun i => x i * x i) <= rsum n (fun i => x i * rsum n (fun j => m_at s i j * x j))) -> 0 <= eps ->
      (forall q, (S q < n)%nat -> (vel d q : R) <> 0) ->
      (forall i, (i < n)%nat -> gam u (n + 3) * rsum n (fun j =>
         rsum n (fun q => Rabs (el l (pb (es_perm es) i) q) * Rabs (vel d q) * Rabs (el l (pb (es_perm es) j) q))
          + Rabs (k_at s i j) + Rabs mu * Rabs (m_at s i j)) <= eps * c) ->
      (forall j, (j < n)%nat -> lam j < mu - eps \/ mu + eps <= lam j) ->
      eigenvalues_under es mu = Ret (@count_below R_arith n lam mu).
Proof.
  intros Ea Hr Ho Hsm. destruct (count_top RN ho n ops s Ea Hr Ho Hsm) as (es & Ees & W & Hmu). exists es. split; [exact Ees|]. split; [exact W|].
  intros mu. destruct (Hmu mu) as (a & l & d & Es & Ec & Hl & Eu & HC). exists a, l, d. split; [exact Es|]. split; [exact Ec|]. split; [exact Hl|].
  intros v lam c eps HG Hm He Hnz Hrow Hgap. destruct (HC Hnz) as (E & Esym & HB & Hcount).
  destruct (Hcount v lam eps HG) as [L1 L2].
  { intros x. apply Rle_trans with (eps * c * rsum n (fun i => x i * x i)).
    - refine (form_rows n E _ (eps * c) x Esym HB _). intros i Hi. rewrite rsum_scale_l. now apply Hrow.
    - rewrite Rmult_assoc. now apply Rmult_le_compat_l. }
  rewrite Eu. f_equal. rewrite (count_below_mono n lam (mu - eps) mu) in L1 by (intros j Hj; destruct (Hgap j Hj); lra).
  rewrite (count_below_mono n lam (mu + eps) mu) in L2 by (intros j Hj; destruct (Hgap j Hj); lra). lia.
Qed.
End exact.
