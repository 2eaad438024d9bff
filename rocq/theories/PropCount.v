(** C106: the eigenvalue count of the search in floating point. *)
From Coq Require Import Floats Reals Lra Lia.
From Verif Require Import RoundCount PropSolve InstR InstQc InstF64.
Local Close Scope R_scope.
Local Open Scope list_scope.

(** *** C106 — refuted in binary64: three unknowns, whole coefficients below 2^53, unit masses,
    and a shift whose distance to every eigenvalue is at least 1/256 of the largest; two eigenvalues
    are below it and the code counts one.  The first pivot is 1, the coefficients beside it
    are 2^51, and the elimination loses the rest of the matrix. *)
Definition big : Z := (2 ^ 45)%Z.
Definition three_k : list (list Z) := [[129 * big; 2 * big; 64 * big]; [2 * big; 129 * big; 64 * big]; [64 * big; 64 * big; 128 * big + 1]]%Z.
Definition zk3 (i j : nat) : Z := nth j (nth i three_k []) 0%Z.
Definition three (A : arith) : list (asm A) :=
  flat_map (fun i => map (fun j => AddK i j (sz (zk3 i j))) (seq 0 3)) (seq 0 3) ++ map (fun i => AddM i i s1) (seq 0 3).

Lemma three_eigs : exists (v : nat -> nat -> R) (lam : nat -> R),
  @gen_eigs R_arith 3 (fun i j => IZR (zk3 i j)) (fun i j => if i =? j then 1%R else 0%R) v lam /\
  lam 0 = (127 * IZR big)%R /\ (37 * IZR big <= lam 1%nat <= 40 * IZR big)%R /\ (220 * IZR big <= lam 2%nat <= 222 * IZR big)%R.
Proof.
  set (U := IZR big). assert (HU : (1000 <= U)%R) by (unfold U; apply IZR_le; unfold big; lia).
  set (D := (32777 * (U * U) - 6 * U + 1)%R). assert (HUU : (1000 * U <= U * U)%R) by (apply Rmult_le_compat_r; lra).
  assert (HD : (0 <= D)%R) by (unfold D; lra). set (s := R_sqrt.sqrt D). assert (Hs : (s * s = D)%R) by (apply R_sqrt.sqrt_sqrt; exact HD).
  assert (Hs0 : (0 <= s)%R) by apply R_sqrt.sqrt_pos.
  assert (B1 : (181 * U <= s)%R). { apply Rsqr_incr_0; [unfold Rsqr; rewrite Hs; unfold D; lra|lra|lra]. }
  assert (B2 : (s <= 182 * U)%R). { apply Rsqr_incr_0; [unfold Rsqr; rewrite Hs; unfold D; lra|lra|lra]. }
  set (p := ((3 * U + 1 + s) / 2)%R). set (q := ((3 * U + 1 - s) / 2)%R).
  assert (Hp : (p * p = (3 * U + 1) * p - 3 * U + 8192 * (U * U))%R).
  { unfold p. replace ((3 * U + 1 + s) / 2 * ((3 * U + 1 + s) / 2))%R with (((3 * U + 1) * (3 * U + 1) + 2 * (3 * U + 1) * s + s * s) / 4)%R by field. rewrite Hs. unfold D. field. }
  assert (Hq : (q * q = (3 * U + 1) * q - 3 * U + 8192 * (U * U))%R).
  { unfold q. replace ((3 * U + 1 - s) / 2 * ((3 * U + 1 - s) / 2))%R with (((3 * U + 1) * (3 * U + 1) - 2 * (3 * U + 1) * s + s * s) / 4)%R by field. rewrite Hs. unfold D. field. }
  assert (Hpq : (p * q = 3 * U - 8192 * (U * U))%R).
  { unfold p, q. replace ((3 * U + 1 + s) / 2 * ((3 * U + 1 - s) / 2))%R with (((3 * U + 1) * (3 * U + 1) - s * s) / 4)%R by field. rewrite Hs. unfold D. field. }
  assert (Hsum : (p * U + q * U = 3 * (U * U) + U)%R) by (unfold p, q; field).
  exists (fun r j => match j, r with 0%nat, 0%nat => 1 | 0%nat, 1%nat => -1 | 0%nat, _ => 0 | 1%nat, 2%nat => q - 3 * U | _, 2%nat => p - 3 * U | _, _ => 64 * U end)%R,
         (fun j => match j with 0%nat => 127 * U | 1%nat => 128 * U + q | _ => 128 * U + p end)%R.
  split; [|split; [reflexivity|split; [unfold q; lra|unfold p; lra]]].
  assert (Z : forall i j, i < 3 -> j < 3 -> IZR (zk3 i j) = match i, j with 0%nat, 0%nat | 1%nat, 1%nat => 129 * U | 0%nat, 1%nat | 1%nat, 0%nat => 2 * U | 0%nat, 2%nat | 1%nat, 2%nat | 2%nat, 0%nat | 2%nat, 1%nat => 64 * U | 2%nat, 2%nat => 128 * U + 1 | _, _ => 0 end%R).
  { intros i j Hi Hj. unfold U, zk3, three_k. destruct i as [|[|[|i]]]; destruct j as [|[|[|j]]]; try lia; cbn [nth]; rewrite ?plus_IZR, ?mult_IZR; reflexivity. }
  clearbody p q. clear s Hs Hs0 B1 B2 D HD.
  split; [|split].
  - intros j r Hj Hr. unfold mv, bigsum. rewrite !Z by lia. destruct j as [|[|[|j]]]; destruct r as [|[|[|r]]]; try lia; cbn; cbv [Nat.eqb]; change (carrier R_arith) with R; lra.
  - intros i j Hi Hj Hne. unfold mv, bigsum. destruct i as [|[|[|i]]]; destruct j as [|[|[|j]]]; try lia; cbn; cbv [Nat.eqb]; change (carrier R_arith) with R; lra.
  - intros j Hj. apply R_ltb_iff. unfold mv, bigsum. pose proof (Rle_0_sqr (p - 3 * U)) as Q1. pose proof (Rle_0_sqr (q - 3 * U)) as Q2. unfold Rsqr in Q1, Q2.
    destruct j as [|[|[|j]]]; try lia; cbn; cbv [Nat.eqb]; lra.
Qed.

Theorem C106_refuted :
  exists (v : nat -> nat -> R) (lam : nat -> R),
    @gen_eigs R_arith 3 (fun i j => IZR (zk3 i j)) (fun i j => if i =? j then 1%R else 0%R) v lam /\
    (forall j, j < 3 -> (0 < lam j <= 222 * IZR big)%R /\ (IZR big <= Rabs (lam j - 128 * IZR big))%R) /\
    @count_below R_arith 3 lam (128 * IZR big)%R = 2 /\
    exists s es, assemble 3 (three F64_arith) = Ret s /\ eigen_new hash_id s = Ret es /\
      eigenvalues_under es (sz (128 * big)) = Ret 1.
Proof.
  destruct three_eigs as (v & lam & HG & H0 & H1 & H2). exists v, lam. split; [exact HG|].
  assert (HU : (1000 <= IZR big)%R) by (apply IZR_le; unfold big; lia).
  split; [|split].
  - intros [|[|[|j]]] Hj; try lia; (split; [lra|]).
    + rewrite Rabs_left; lra.
    + rewrite Rabs_left; lra.
    + rewrite Rabs_right; lra.
  - unfold count_below. cbn. unfold R_ltb. destruct (Rlt_dec (lam 0) _) as [|N]; [|exfalso; apply N; lra]. destruct (Rlt_dec (lam 1) _) as [|N]; [|exfalso; apply N; lra].
    destruct (Rlt_dec (lam 2) _) as [N|]; [exfalso; lra|]. reflexivity.
  - vm_run (assemble 3 (three F64_arith)) s Es. exists s. vm_run (eigen_new hash_id s) es Ees. exists es. split; [exact Es|]. split; [exact Ees|]. vm_refl.
Qed.
Print Assumptions C106_refuted.

(** what holds: *)

(** for every shift the computed count lies between the counts at two nearby shifts of the
    exact problem; the distance is bounded by the computed factors. *)
Theorem C106_bracket_partial u rnd (RN : rounding u rnd) (ho : hash_oracle (Rnd_arith rnd)) n ops (s : system (Rnd_arith rnd)) :
  assemble n ops = Ret s -> eigen_ready s n -> oracle_ok ho -> (INR (n + 3) * u < 1)%R ->
  exists es, eigen_new ho s = Ret es /\ perm_wf n (es_perm es) /\ forall mu : R, exists a l d,
    shifted (es_k es) (es_m es) mu = Ret a /\ cholesky_envelope_no_root a = Ret (l, DG d) /\ length d = n /\
    eigenvalues_under es mu = Ret (num_neg (DG d)) /\
    ((forall c, S c < n -> (vel d c : R) <> 0%R) ->
     exists E : nat -> nat -> R,
      (forall i j, i < n -> j < n -> E i j = E j i) /\
      (forall i j, i < n -> j < n -> (Rabs (E i j) <= gam u (n + 3) *
         (rsum n (fun q => Rabs (el l (pb (es_perm es) i) q) * Rabs (vel d q) * Rabs (el l (pb (es_perm es) j) q))
          + Rabs (k_at s i j) + Rabs mu * Rabs (m_at s i j)))%R) /\
      forall (v : nat -> nat -> R) (lam : nat -> R) (eps : R), @gen_eigs R_arith n (k_at s) (m_at s) v lam ->
        (forall x : nat -> R, (Rabs (rsum n (fun i => x i * rsum n (fun j => E i j * x j))) <= eps * rsum n (fun i => x i * rsum n (fun j => m_at s i j * x j)))%R) ->
        @count_below R_arith n lam (mu - eps)%R <= num_neg (DG d) <= @count_below R_arith n lam (mu + eps)%R).
Proof. exact (count_top RN ho n ops s). Qed.
Print Assumptions C106_bracket_partial.

(** if no eigenvalue is that close to the shift, the count is right *)
Theorem C106_exact_partial u rnd (RN : rounding u rnd) (ho : hash_oracle (Rnd_arith rnd)) n ops (s : system (Rnd_arith rnd)) :
  assemble n ops = Ret s -> eigen_ready s n -> oracle_ok ho -> (INR (n + 3) * u < 1)%R ->
  exists es, eigen_new ho s = Ret es /\ perm_wf n (es_perm es) /\ forall mu : R, exists a l d,
    shifted (es_k es) (es_m es) mu = Ret a /\ cholesky_envelope_no_root a = Ret (l, DG d) /\ length d = n /\
    forall (v : nat -> nat -> R) (lam : nat -> R) (c eps : R), @gen_eigs R_arith n (k_at s) (m_at s) v lam ->
      (forall x : nat -> R, (c * rsum n (fun i => x i * x i) <= rsum n (fun i => x i * rsum n (fun j => m_at s i j * x j)))%R) -> (0 <= eps)%R ->
      (forall q, S q < n -> (vel d q : R) <> 0%R) ->
      (forall i, i < n -> (gam u (n + 3) * rsum n (fun j =>
         rsum n (fun q => Rabs (el l (pb (es_perm es) i) q) * Rabs (vel d q) * Rabs (el l (pb (es_perm es) j) q))
          + Rabs (k_at s i j) + Rabs mu * Rabs (m_at s i j)) <= eps * c)%R) ->
      (forall j, j < n -> (lam j < mu - eps)%R \/ (mu + eps <= lam j)%R) ->
      eigenvalues_under es mu = Ret (@count_below R_arith n lam mu).
Proof. exact (count_exact RN ho n ops s). Qed.
Print Assumptions C106_exact_partial.

(** stiffness [[4,2],[2,4]], unit masses, double precision: values 2 and 6, shift 3 *)
Local Arguments rnd64 : simpl never.
Definition ops106 : list (asm (Rnd_arith rnd64)) :=
  [AddK 0 0 (4%R : Rnd_arith rnd64); AddK 0 1 (2%R : Rnd_arith rnd64); AddK 1 0 (2%R : Rnd_arith rnd64); AddK 1 1 (4%R : Rnd_arith rnd64);
   AddM 0 0 (1%R : Rnd_arith rnd64); AddM 1 1 (1%R : Rnd_arith rnd64)].
Definition lam106 (j : nat) : R := match j with 0 => 2%R | _ => 6%R end.
Definition v106 (r j : nat) : R := match j, r with 0, 1 => (-1)%R | _, _ => 1%R end.

Lemma ready106 : exists s, assemble 2 ops106 = Ret s /\ eigen_ready s 2 /\
  forall r c, r < 2 -> c < 2 -> k_at s r c = (if r =? c then 4%R else 2%R) /\ m_at s r c = (if r =? c then 1%R else 0%R).
Proof.
  assert (F : forall z, (Z.abs z <= 100)%Z -> rnd64 (IZR z) = IZR z) by (intros; apply rnd64_int; lia).
  destruct (assemble_free 2 ops106) as (s & E & _ & Hn & _ & Hk & Hm & Hr).
  { intros o Ho. repeat (apply elem_of_cons in Ho as [->|Ho]; [cbn; rewrite Rplus_0_l; apply F; lia|]). now apply elem_of_nil in Ho. }
  { intros o Ho. repeat (apply elem_of_cons in Ho as [->|Ho]; [cbn; lia|]). now apply elem_of_nil in Ho. }
  exists s. split; [exact E|].
  assert (Hs : forall z, (Z.abs z <= 100)%Z -> ssum (A := Rnd_arith rnd64) [(IZR z : Rnd_arith rnd64)] = IZR z).
  { intros z Hz. unfold ssum. cbn [fold_left]. change (rnd64 (0 + IZR z)%R = IZR z). rewrite Rplus_0_l. now apply F. }
  assert (HKM : forall r c, r < 2 -> c < 2 -> k_at s r c = (if r =? c then 4%R else 2%R) /\ m_at s r c = (if r =? c then 1%R else 0%R)).
  { intros r c Hr' Hc. rewrite Hk, Hm. destruct r as [|[|r]]; destruct c as [|[|c]]; try lia;
      (split; [first [exact (Hs 4%Z ltac:(lia)) | exact (Hs 2%Z ltac:(lia))]|]); first [exact (Hs 1%Z ltac:(lia)) | reflexivity]. }
  split; [|exact HKM]. destruct (assemble_wf 2 ops106 s E) as ((Wk & Wm & _) & _ & Hdof). rewrite Hdof in *.
  destruct (sy_k s) as [kd|] eqn:Ek.
  2:{ pose proof (proj1 (HKM 0 0 ltac:(lia) ltac:(lia))) as H. unfold k_at in H. rewrite Ek in H. change (0%R = 4%R) in H. lra. }
  destruct (sy_m s) as [md|] eqn:Em.
  2:{ pose proof (proj2 (HKM 0 0 ltac:(lia) ltac:(lia))) as H. unfold m_at in H. rewrite Em in H. change (0%R = 1%R) in H. lra. }
  destruct Wk as [Wk Hsk], Wm as [Wm Hsm].
  assert (Hkst : forall i j, i < 2 -> j < 2 -> exists w, d_data kd !! (i, j) = Some w).
  { intros i j Hi Hj. apply (el_stored kd i j Wk). pose proof (proj1 (HKM i j Hi Hj)) as H. unfold k_at in H. rewrite Ek in H. rewrite H.
    destruct (i =? j); cbn; lra. }
  split; [now apply (built_asm 2 ops106)|]. split; [exact Hdof|]. split; [lia|]. split; [|split; [|split; [|split]]].
  - intros i j Hi Hj. destruct (HKM i j Hi Hj) as [-> _], (HKM j i Hj Hi) as [-> _]. now rewrite Nat.eqb_sym.
  - intros i j Hi Hj. destruct (HKM i j Hi Hj) as [_ ->], (HKM j i Hj Hi) as [_ ->]. now rewrite Nat.eqb_sym.
  - intros i j Hi Hj. destruct (decide (i = j)) as [->|Hne]; [reflexivity|]. apply rtc_once. split; [exact Hi|]. split; [exact Hj|]. split; [exact Hne|].
    rewrite (proj1 (HKM i j Hi Hj)), (proj2 (Nat.eqb_neq i j) Hne). cbn. lra.
  - intros i Hi. exists md. destruct (el_stored md i i Wm) as (v & Hv).
    + pose proof (proj2 (HKM i i Hi Hi)) as H. unfold m_at in H. rewrite Em, Nat.eqb_refl in H. rewrite H. cbn. lra.
    + exists v. rewrite Em. auto.
  - intros i j (d & v & Ed & Hv). rewrite Em in Ed. injection Ed as <-. destruct (Wm _ _ _ Hv) as [H1 H3]. rewrite Hsm in H1, H3. cbn in H1, H3.
    destruct (Hkst i j H1 H3) as (w & Hw). exists kd, w. rewrite Ek. auto.
Qed.

Lemma gen106 (K M : nat -> nat -> R) : (forall r c, r < 2 -> c < 2 -> K r c = (if r =? c then 4%R else 2%R) /\ M r c = (if r =? c then 1%R else 0%R)) ->
  @gen_eigs R_arith 2 K M v106 lam106.
Proof.
  intros H.
  assert (K00 : K 0 0 = 4%R) by exact (proj1 (H 0 0 ltac:(lia) ltac:(lia))). assert (M00 : M 0 0 = 1%R) by exact (proj2 (H 0 0 ltac:(lia) ltac:(lia))).
  assert (K01 : K 0 1 = 2%R) by exact (proj1 (H 0 1 ltac:(lia) ltac:(lia))). assert (M01 : M 0 1 = 0%R) by exact (proj2 (H 0 1 ltac:(lia) ltac:(lia))).
  assert (K10 : K 1 0 = 2%R) by exact (proj1 (H 1 0 ltac:(lia) ltac:(lia))). assert (M10 : M 1 0 = 0%R) by exact (proj2 (H 1 0 ltac:(lia) ltac:(lia))).
  assert (K11 : K 1 1 = 4%R) by exact (proj1 (H 1 1 ltac:(lia) ltac:(lia))). assert (M11 : M 1 1 = 1%R) by exact (proj2 (H 1 1 ltac:(lia) ltac:(lia))).
  split; [|split].
  - intros j r Hj Hr. destruct j as [|[|j]]; destruct r as [|[|r]]; try lia; unfold mv, bigsum; cbn;
      rewrite ?K00, ?K01, ?K10, ?K11, ?M00, ?M01, ?M10, ?M11; change (carrier R_arith) with R; lra.
  - intros i j Hi Hj Hne. destruct i as [|[|i]]; destruct j as [|[|j]]; try lia; unfold mv, bigsum; cbn; rewrite ?M00, ?M01, ?M10, ?M11; change (carrier R_arith) with R; lra.
  - intros j Hj. apply R_ltb_iff. destruct j as [|[|j]]; try lia; unfold mv, bigsum; cbn; rewrite ?M00, ?M01, ?M10, ?M11; change (carrier R_arith) with R; lra.
Qed.

Example C106_example : exists s es a l d, assemble 2 ops106 = Ret s /\ eigen_ready s 2 /\ eigen_new hash_id s = Ret es /\
  (INR (2 + 3) * u64 < 1)%R /\ shifted (es_k es) (es_m es) (3%R : Rnd_arith rnd64) = Ret a /\
  cholesky_envelope_no_root a = Ret (l, DG d) /\ d = [1%R; (-3)%R] /\ el l 1 0 = 2%R /\
  @gen_eigs R_arith 2 (k_at s) (m_at s) v106 lam106 /\ eigenvalues_under es (3%R : Rnd_arith rnd64) = Ret 1.
Proof.
  assert (F : forall z, (Z.abs z <= 100)%Z -> rnd64 (IZR z) = IZR z) by (intros; apply rnd64_int; lia).
  assert (Hsm : (INR (2 + 3) * u64 < 1)%R) by (rewrite u64_val; cbn; lra).
  destruct ready106 as (s & Es & Hr & HKM).
  destruct (eigen_ready_free hash_id 2 ops106 s Es Hr hash_id_ok) as (es0 & Ees0 & W0 & Hok).
  destruct (C106_exact_partial u64 rnd64 rounding64 hash_id 2 ops106 s Es Hr hash_id_ok Hsm) as (es & Ees & W & HC).
  rewrite Ees in Ees0. injection Ees0 as <-.
  assert (HK' : forall r c, r < 2 -> c < 2 -> k_at s (pf (es_perm es) r) (pf (es_perm es) c) = (if r =? c then 4%R else 2%R) /\
                 m_at s (pf (es_perm es) r) (pf (es_perm es) c) = (if r =? c then 1%R else 0%R)).
  { intros r c Hr' Hc. destruct (pf_lookup 2 _ r W Hr') as (_ & L1 & _ & B1). destruct (pf_lookup 2 _ c W Hc) as (_ & L2 & _ & B2).
    destruct (HKM _ _ L1 L2) as [-> ->]. assert ((pf (es_perm es) r =? pf (es_perm es) c) = (r =? c)) as ->; [|auto].
    destruct (Nat.eqb_spec r c) as [->|Hne]; [apply Nat.eqb_refl|]. apply Nat.eqb_neq. congruence. }
  destruct (HC 3%R) as (a & l & d & Ea & Ec & Hl & Hcount).
  destruct Hok as [Hdo Wk Hk Wm Hm Wf Hf Hen Ek Ef Em Ks Ms].
  destruct (add_scaled_free (es_k es) (es_m es) (smul (sneg s1) (3%R : Rnd_arith rnd64)) Wk Wm) as (a' & Ea' & Wa & Hna & Hla & Hel); [congruence| |].
  { intros i Hi. apply Hen. congruence. }
  assert (a' = a) as -> by (unfold shifted in Ea; congruence).
  assert (Hsc : smul (sneg s1) (3%R : Rnd_arith rnd64) = (-3)%R) by (cbn; replace (- (1) * 3)%R with (-3)%R by ring; apply F; lia).
  assert (Hela : forall r c, r < 2 -> c <= r -> el a r c = (if r =? c then 1%R else 2%R)).
  { intros r c Hr' Hc. rewrite Hel by lia. rewrite Ek, Em by lia. destruct (HK' r c ltac:(lia) ltac:(lia)) as [-> Hmm]. rewrite Hmm, Hsc.
    destruct (Nat.eqb_spec r c) as [Erc|Hne].
    - destruct (be_dom (es_m es) r c) eqn:D.
      + cbn. replace (1 * -3)%R with (-3)%R by ring. rewrite F by lia. replace (4 + -3)%R with 1%R by ring. apply F; lia.
      + exfalso. pose proof (law_nodom _ _ be_laws (es_m es) r c Wm D) as Z. change (el (es_m es) r c = s0) in Z. rewrite Em in Z by lia.
        rewrite Hmm in Z. cbn in Z. lra.
    - destruct (be_dom (es_m es) r c); [|reflexivity]. cbn. rewrite Rmult_0_l, (F 0%Z) by lia. replace (2 + 0)%R with 2%R by ring. apply F; lia. }
  assert (A00 : el a 0 0 = 1%R) by (apply (Hela 0 0); lia). assert (A10 : el a 1 0 = 2%R) by (apply (Hela 1 0); lia). assert (A11 : el a 1 1 = 1%R) by (apply (Hela 1 1); lia).
  destruct (ldl_steps_all a Wa) as (ld & Ec' & HI). rewrite Ec in Ec'. injection Ec' as <-.
  destruct HI as (Wl & Hnl & _ & _ & H1 & H2 & H3). cbn [fst snd dg_data] in *. rewrite Hla, Hk in *.
  assert (L1 : lsc a 1 = 0).
  { destruct (Nat.eq_dec (lsc a 1) 0) as [|Hn0]; [assumption|]. pose proof (el_left a 1 0 Wa ltac:(lia)) as Z. rewrite A10 in Z. cbn in Z. lra. }
  assert (D0 : vel d 0 = 1%R).
  { rewrite (H2 0) by lia. unfold ldl_piv. cbn [Nat.sub bigsum]. rewrite A00. cbn. rewrite Rminus_0_r. apply (F 1%Z); lia. }
  assert (L10 : el l 1 0 = 2%R).
  { rewrite (H3 0 1) by lia. unfold ldl_quot, ldl_sum. cbn [Nat.sub bigsum dg_data]. rewrite A10, D0. cbn. rewrite Rminus_0_r, (F 2%Z) by lia.
    replace (2 / 1)%R with 2%R by field. apply F; lia. }
  assert (D1 : vel d 1 = (-3)%R).
  { rewrite (H2 1) by lia. unfold ldl_piv. assert (lsc l 1 = 0) as -> by (unfold lsc in *; rewrite Hnl; exact L1). cbn [Nat.sub Nat.add bigsum dg_data].
    rewrite A11, L10, D0. cbn. replace (2 * 2)%R with 4%R by ring. rewrite (F 4%Z) by lia. replace (4 * 1)%R with 4%R by ring. rewrite (F 4%Z) by lia.
    rewrite Rplus_0_l, (F 4%Z) by lia. replace (1 - 4)%R with (-3)%R by ring. apply F; lia. }
  exists s, es, a, l, d. split; [exact Es|]. split; [exact Hr|]. split; [exact Ees|]. split; [exact Hsm|]. split; [exact Ea|]. split; [exact Ec|].
  split. { destruct d as [|x [|y [|]]]; try discriminate. cbn in D0, D1. now subst. }
  split; [exact L10|].
  assert (HG : @gen_eigs R_arith 2 (k_at s) (m_at s) v106 lam106) by (apply gen106; exact HKM).
  split; [exact HG|].
  assert (Hc1 : @count_below R_arith 2 lam106 3%R = 1).
  { unfold count_below. cbn. unfold R_ltb. destruct (Rlt_dec 2 3) as [|]; [|lra]. destruct (Rlt_dec 6 3) as [|]; [lra|]. reflexivity. }
  rewrite <- Hc1. apply (Hcount v106 lam106 1%R (1/2)%R HG).
  - intros x.
    assert (M00 : m_at s 0 0 = 1%R) by exact (proj2 (HKM 0 0 ltac:(lia) ltac:(lia))).
    assert (M01 : m_at s 0 1 = 0%R) by exact (proj2 (HKM 0 1 ltac:(lia) ltac:(lia))).
    assert (M10 : m_at s 1 0 = 0%R) by exact (proj2 (HKM 1 0 ltac:(lia) ltac:(lia))).
    assert (M11 : m_at s 1 1 = 1%R) by exact (proj2 (HKM 1 1 ltac:(lia) ltac:(lia))).
    rewrite !rsum_S. unfold rsum. cbn [bigsum s0 R_arith]. rewrite M00, M01, M10, M11. lra.
  - lra.
  - intros [|q] Hq; [|lia]. rewrite D0. lra.
  - assert (Lb : forall r q, r < 2 -> q < 2 -> (Rabs (el l r q) <= 2)%R).
    { intros [|[|r]] [|[|q]] H4 H5; try lia.
      - rewrite (H1 0) by lia. cbn. rewrite Rabs_R1. lra.
      - rewrite (el_right l 0 1 Wl) by lia. cbn. rewrite Rabs_R0. lra.
      - rewrite L10, Rabs_right; lra.
      - rewrite (H1 1) by lia. cbn. rewrite Rabs_R1. lra. }
    assert (Db : forall q, q < 2 -> (Rabs (vel d q) <= 3)%R).
    { intros [|[|q]] H4; try lia; [rewrite D0, Rabs_R1; lra|rewrite D1, Rabs_left; lra]. }
    assert (Kb : forall i j, i < 2 -> j < 2 -> (Rabs (k_at s i j) <= 4)%R /\ (Rabs (m_at s i j) <= 1)%R).
    { intros i j H4 H5. destruct (HKM i j H4 H5) as [-> ->]. destruct (i =? j); rewrite !Rabs_right; lra. }
    intros i Hi. assert (HG5 : (0 <= gam u64 (2 + 3) <= 5 * (2 / 10 ^ 16))%R) by (apply gam_le; cbn; lra).
    apply Rle_trans with (5 * (2 / 10 ^ 16) * rsum 2 (fun _ => 31))%R; [|rewrite !rsum_S; unfold rsum; cbn [bigsum s0 R_arith]; lra].
    apply Rmult_le_compat; [apply HG5| |apply HG5|].
    + apply rsum_nonneg. intros j Hj. apply Rplus_le_le_0_compat; [apply Rplus_le_le_0_compat; [|apply Rabs_pos]|apply Rmult_le_pos; apply Rabs_pos].
      apply rsum_nonneg. intros q Hq. repeat apply Rmult_le_pos; apply Rabs_pos.
    + apply rsum_le. intros j Hj. destruct (Kb i j Hi Hj) as [Kb1 Kb2].
      assert (P1 : (rsum 2 (fun q => Rabs (el l (pb (es_perm es) i) q) * Rabs (vel d q) * Rabs (el l (pb (es_perm es) j) q)) <= rsum 2 (fun _ => 12))%R).
      { apply rsum_le. intros q Hq. destruct (pb_lookup 2 _ i W Hi) as (_ & B1 & _). destruct (pb_lookup 2 _ j W Hj) as (_ & B2 & _).
        replace 12%R with (2 * 3 * 2)%R by ring. apply Rmult_le_compat; [apply Rmult_le_pos; apply Rabs_pos|apply Rabs_pos| |now apply Lb].
        apply Rmult_le_compat; [apply Rabs_pos|apply Rabs_pos|now apply Lb|now apply Db]. }
      assert (P2 : (Rabs 3 * Rabs (m_at s i j) <= 3)%R) by (rewrite (Rabs_right 3) by lra; lra).
      assert (P3 : (rsum 2 (fun _ => 12) = 24)%R) by (rewrite !rsum_S; unfold rsum; cbn [bigsum s0 R_arith]; lra).
      rewrite P3 in P1. lra.
  - intros [|[|j]] Hj; cbn; lra || lia.
Qed.
