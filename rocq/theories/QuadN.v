(** The segment rule of every order in the table, against integrals. *)
From Coq Require Import Reals Lra.
From Coquelicot Require Import Coquelicot.
From Verif Require Import StressProofs Quad.
Local Open Scope R_scope.

(** the polynomial with the given coefficients, from degree k upwards *)
Fixpoint poly (k : nat) (c : list R) (t : R) : R :=
  match c with [] => 0 | x :: c => x * t ^ k + poly (S k) c t end.
(** the sum of the absolute values of the coefficients *)
Fixpoint size (c : list R) : R := match c with [] => 0 | x :: c => Rabs x + size c end.

(** ** moments *)
Definition mom (k : nat) : R := (1 - (-1) ^ S k) / INR (S k).
Fixpoint qsum (tab : list (R * R)) (g : R -> R) : R :=
  match tab with [] => 0 | pw :: tab => g pw.1 * pw.2 + qsum tab g end.

Lemma seg_sum_qsum tab g : seg_sum (A := R_arith) tab g = qsum tab g.
Proof.
  assert (G : forall l s, fold_left (fun s (pw : R * R) => s + g pw.1 * pw.2) l s = s + qsum l g).
  { induction l as [|pw l IH]; intros s; cbn [fold_left qsum]; [ring|]. rewrite IH. ring. }
  destruct tab as [|[p w] l]; [reflexivity|]. unfold seg_sum. cbn [qsum fst snd]. exact (G l (g p * w)).
Qed.
Lemma qsum_ext tab f g : (forall t, f t = g t) -> qsum tab f = qsum tab g.
Proof. intros H. induction tab as [|pw l IH]; cbn; [reflexivity|]. now rewrite IH, H. Qed.
Lemma qsum_add tab x f g : qsum tab (fun t => x * f t + g t) = x * qsum tab f + qsum tab g.
Proof. induction tab as [|pw l IH]; cbn; [ring|]. rewrite IH. ring. Qed.
Lemma qsum_0 tab : qsum tab (fun _ => 0) = 0.
Proof. induction tab as [|pw l IH]; cbn; [reflexivity|]. rewrite IH. ring. Qed.

Lemma is_RInt_pow k : is_RInt (fun t => t ^ k) (-1) 1 (mom k).
Proof.
  assert (N : INR (S k) <> 0) by now apply not_0_INR.
  evar_last. { apply (is_RInt_derive (fun t => t ^ S k / INR (S k)) (fun t => t ^ k)).
    - intros t _. auto_derive; [auto|]. cbn [pred]. change (match k with O => 1 | S _ => INR k + 1 end) with (INR (S k)). Rfield. exact N.
    - intros t _. cont. }
  unfold mom, minus, plus, opp. cbn [AbelianGroup.sort]. rewrite pow1. unfold Rdiv. change (@eq R (1 * / INR (S k) + - ((-1) ^ S k * / INR (S k))) ((1 - (-1) ^ S k) * / INR (S k))). ring.
Qed.
Fixpoint psum (k : nat) (c : list R) : R := match c with [] => 0 | x :: c => x * mom k + psum (S k) c end.
Lemma is_RInt_poly c : forall k, is_RInt (poly k c) (-1) 1 (psum k c).
Proof.
  induction c as [|x c IH]; intros k; cbn [poly psum].
  - evar_last; [apply is_RInt_const|]. unfold scal; cbn; unfold mult; cbn. change (@eq R ((1 - -1) * 0) 0). ring.
  - apply (is_RInt_plus (V := R_NormedModule) (fun t => x * t ^ k) (poly (S k) c)); [|apply IH].
    apply (is_RInt_scal (V := R_NormedModule)). apply is_RInt_pow.
Qed.

Lemma rule_error tab e K c : forall k, 0 <= e -> (k + length c <= K)%nat ->
  (forall j, (j < K)%nat -> Rabs (qsum tab (fun t => t ^ j) - mom j) <= e) ->
  Rabs (qsum tab (poly k c) - psum k c) <= e * size c.
Proof.
  intros k He. revert k. induction c as [|x c IH]; intros k Hk H; cbn [poly psum size length] in *.
  - rewrite qsum_0, Rminus_0_r, Rabs_R0. lra.
  - rewrite qsum_add.
    assert (Q : x * qsum tab (fun t => t ^ k) + qsum tab (poly (S k) c) - (x * mom k + psum (S k) c) =
       x * (qsum tab (fun t => t ^ k) - mom k) + (qsum tab (poly (S k) c) - psum (S k) c)) by ring.
    change (fun t => poly (S k) c t) with (poly (S k) c). rewrite Q.
    eapply Rle_trans; [apply Rabs_triang|]. rewrite (Rmult_plus_distr_l e). apply Rplus_le_compat.
    + rewrite (Rabs_mult x), (Rmult_comm e). apply Rmult_le_compat_l; [apply Rabs_pos|]. apply H. lia.
    + apply IH; [lia|exact H].
Qed.

(** ** the stored tables *)
Lemma slit_R a : slit (A := R_arith) a (10 ^ 15) = IZR a / 10 ^ 15.
Proof. unfold slit. rewrite !sz_IZR. cbn [sdiv R_arith]. f_equal. symmetry. exact (pow_IZR 10 15). Qed.

Lemma table_moments order : (1 <= order <= 4)%nat ->
  exists tab, gauss_table (A := R_arith) order = Ret tab /\ tab <> [] /\
    forall j, (j < 2 * order)%nat -> Rabs (qsum tab (fun t => t ^ j) - mom j) <= 3 / 10 ^ 15.
Proof.
  intros Ho. destruct order as [|[|[|[|[|o]]]]]; try lia; unfold gauss_table, idx;
    eexists; (split; [reflexivity|]); (split; [discriminate|]); intros j Hj;
    unfold s2; rewrite ?slit_R, ?sz_IZR; cbn [qsum fst snd s0 s1 R_arith];
    do 8 (destruct j as [|j]; [first [lia | unfold mom; cbn [Rpow_def.pow INR]; apply Rabs_le; lra]|]); lia.
Qed.

Lemma table_panic order : (order = 0 \/ 4 < order)%nat -> gauss_table (A := R_arith) order = Ret [] \/ gauss_table (A := R_arith) order = Panic.
Proof. intros [->|H]; [left; reflexivity|right]. do 5 (destruct order as [|order]; [lia|]). reflexivity. Qed.

Lemma orders_rule (f : point R_arith -> out (lm R_arith)) (h : nat -> nat -> R -> R -> R) ax ay bx byy NR NC order :
  (1 <= order <= 4)%nat ->
  (forall q, p_n q = 2%nat -> exists m, f q = Ret m /\ lm_wf m /\ mshape m = (NR, NC) /\
     forall i j, (i < NR)%nat -> (j < NC)%nat -> el m i j = h i j (p_x q) (p_y q)) ->
  exists m, gauss_segment_mat (A := R_arith) f (Spatial.pt2 (A := R_arith) ax ay) (Spatial.pt2 (A := R_arith) bx byy) order = Ret m /\
    mshape m = (NR, NC) /\
    forall i j, (i < NR)%nat -> (j < NC)%nat -> forall c, (length c <= 2 * order)%nat ->
      (forall t, h i j (along ax bx ((1 + t) / 2)) (along ay byy ((1 + t) / 2)) = poly 0 c t) ->
      let L := R_sqrt.sqrt ((ax - bx) * (ax - bx) + (ay - byy) * (ay - byy)) in
      Rabs (el m i j - L / 2 * RInt (fun t => h i j (along ax bx ((1 + t) / 2)) (along ay byy ((1 + t) / 2))) (-1) 1) <=
        L / 2 * (3 / 10 ^ 15 * size c).
Proof.
  intros Ho Hf. set (a := Spatial.pt2 (A := R_arith) ax ay). set (b := Spatial.pt2 (A := R_arith) bx byy).
  set (L := R_sqrt.sqrt ((ax - bx) * (ax - bx) + (ay - byy) * (ay - byy))).
  destruct (table_moments order Ho) as (tab & Et & Hne & Hm).
  destruct (gauss_segment_ret f (fun t i j => h i j (seg_x a b t) (seg_y a b t)) a b order tab L NR NC)
    as (m & E & W & Sm & V); try reflexivity.
  - rewrite pt_dist_ret by reflexivity. f_equal. unfold L, a, b, ssq. cbn. f_equal. ring.
  - exact Et.
  - exact Hne.
  - intros t. destruct (Hf (Pt 2 (seg_x a b t) (seg_y a b t) (seg_z a b t)) eq_refl) as (m & E & W & Sm & V). eauto 10.
  - exists m. split; [exact E|]. split; [exact Sm|]. intros i j Hi Hj c Hc Hh. cbn zeta.
    rewrite (RInt_ext _ (poly 0 c)) by (intros s _; apply Hh). rewrite (is_RInt_unique _ _ _ _ (is_RInt_poly c 0)).
    assert (Sx : forall t, seg_x a b t = along ax bx ((1 + t) / 2)).
    { intros t. unfold seg_x, a, b, along, s2. rewrite sz_IZR. cbn. Rfield. }
    assert (Sy : forall t, seg_y a b t = along ay byy ((1 + t) / 2)).
    { intros t. unfold seg_y, a, b, along, s2. rewrite sz_IZR. cbn. Rfield. }
    rewrite (V i j Hi Hj), seg_sum_qsum, (qsum_ext tab _ (poly 0 c)) by (intros t; rewrite Sx, Sy; apply Hh).
    unfold s2. rewrite sz_IZR. cbn [smul sdiv R_arith].
    assert (HL : 0 <= L / 2) by (pose proof (R_sqrt.sqrt_pos ((ax - bx) * (ax - bx) + (ay - byy) * (ay - byy))); fold L in H; lra).
    replace (qsum tab (poly 0 c) * (L / 2) - L / 2 * psum 0 c) with (L / 2 * (qsum tab (poly 0 c) - psum 0 c)) by ring.
    rewrite Rabs_mult, (Rabs_pos_eq _ HL). apply Rmult_le_compat_l; [exact HL|].
    apply (rule_error tab _ (2 * order) c 0); [lra|exact Hc|exact Hm].
Qed.

Lemma orders_panic (f : point R_arith -> out (lm R_arith)) a b order : (order = 0 \/ 4 < order)%nat -> p_n a = 2%nat -> p_n b = 2%nat ->
  gauss_segment_mat (A := R_arith) f a b order = Panic.
Proof.
  intros Ho Ha Hb. unfold gauss_segment_mat. rewrite pt_dist_ret by assumption. cbn [mbind out_bind].
  destruct (table_panic order Ho) as [->| ->]; reflexivity.
Qed.
