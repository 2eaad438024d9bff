(** Quadrature against integrals. *)
From Coq Require Import Reals Lra.
From Coquelicot Require Import Coquelicot.
From Verif Require Import StressProofs.
Local Open Scope R_scope.

Lemma sz_IZR z : sz (A := R_arith) z = IZR z.
Proof.
  assert (P : forall p, InitialRing.gen_phiPOS (1 : R) Rplus Rmult p = IZR (Z.pos p)).
  { induction p as [p IH|p IH|]; [| |reflexivity].
    - rewrite Pos2Z.inj_xI, plus_IZR, mult_IZR, <- IH. destruct p; cbn; ring.
    - rewrite Pos2Z.inj_xO, mult_IZR, <- IH. destruct p; cbn; ring. }
  destruct z as [|p|p]; [reflexivity|exact (P p)|].
  change (- InitialRing.gen_phiPOS (1 : R) Rplus Rmult p = IZR (Z.neg p)). rewrite P.
  change (Z.neg p) with (- Z.pos p)%Z. now rewrite opp_IZR.
Qed.

(** integrals of polynomials through an antiderivative *)
Lemma RInt_anti (F f : R -> R) a b : (forall x, is_derive F x (f x)) -> (forall x, continuous f x) ->
  RInt f a b = F b - F a.
Proof. intros Hd Hc. apply is_RInt_unique. apply (is_RInt_derive F f a b); intros x _; [apply Hd|apply Hc]. Qed.

Ltac Rfield := match goal with |- @eq _ ?a ?b => change (@eq R a b) end; field.
Ltac cont := apply (ex_derive_continuous (V := R_NormedModule)); auto_derive; auto.

Section tri.
Context (c0 c1 c2 c3 c4 c5 : R).
Definition quadratic (x y : R) : R := c0 + c1 * x + c2 * y + c3 * x * x + c4 * x * y + c5 * y * y.

Lemma tri_integral :
  RInt (fun x => RInt (fun y => quadratic x y) 0 (1 - x)) 0 1 =
  c0 / 2 + c1 / 6 + c2 / 6 + c3 / 12 + c4 / 24 + c5 / 12.
Proof.
  rewrite (RInt_ext _ (fun x => c0 * (1 - x) + c1 * x * (1 - x) + c2 * (1 - x) * (1 - x) / 2 + c3 * x * x * (1 - x) +
     c4 * x * ((1 - x) * (1 - x)) / 2 + c5 * ((1 - x) * (1 - x) * (1 - x)) / 3)).
  2:{ intros x _. unfold quadratic.
      rewrite (RInt_anti (fun y => c0 * y + c1 * x * y + c2 * (y * y) / 2 + c3 * x * x * y + c4 * x * (y * y) / 2 + c5 * (y * y * y) / 3)).
      - Rfield.
      - intros y. auto_derive; [auto|Rfield].
      - intros y. cont. }
  rewrite (RInt_anti (fun x => c0 * (x - x * x / 2) + c1 * (x * x / 2 - x * x * x / 3) +
      c2 / 2 * (x - x * x + x * x * x / 3) + c3 * (x * x * x / 3 - x * x * x * x / 4) +
      c4 / 2 * (x * x / 2 - 2 * x * x * x / 3 + x * x * x * x / 4) +
      c5 / 3 * (x - 3 * x * x / 2 + x * x * x - x * x * x * x / 4))).
  - Rfield.
  - intros x. auto_derive; [auto|Rfield].
  - intros x. cont.
Qed.

Lemma tri_rule :
  gauss_tri (A := R_arith) (fun x y => Ret (x + y)) Rmult (fun p => Ret (quadratic (p_x p) (p_y p))) =
  Ret (RInt (fun x => RInt (fun y => quadratic x y) 0 (1 - x)) 0 1).
Proof.
  rewrite tri_integral. unfold gauss_tri, tri_a, tri_b. cbn [pt2 p_x p_y Spatial.pt2].
  unfold s2. rewrite !sz_IZR. cbn [mbind out_bind]. f_equal. unfold quadratic. cbn. Rfield.
Qed.
End tri.

Section seg.
Context (c0 c1 c2 c3 : R).
Definition cubic (s : R) : R := c0 + c1 * s + c2 * s * s + c3 * s * s * s.
Lemma cubic_integral : RInt cubic 0 1 = c0 + c1 / 2 + c2 / 3 + c3 / 4.
Proof.
  rewrite (RInt_anti (fun s => c0 * s + c1 * (s * s) / 2 + c2 * (s * s * s) / 3 + c3 * (s * s * s * s) / 4)).
  - Rfield.
  - intros s. unfold cubic. auto_derive; [auto|Rfield].
  - intros s. unfold cubic. cont.
Qed.
End seg.

(** the point at parameter s of the segment from (ax, ay) to (bx, by) *)
Definition along (a b s : R) : R := a + (b - a) * s.

Lemma seg_rule (f : point R_arith -> out (lm R_arith)) (h : nat -> nat -> R -> R -> R) ax ay bx byy NR NC :
  (forall q, p_n q = 2%nat -> exists m, f q = Ret m /\ lm_wf m /\ mshape m = (NR, NC) /\
     forall i j, (i < NR)%nat -> (j < NC)%nat -> el m i j = h i j (p_x q) (p_y q)) ->
  exists m, gauss_segment_mat (A := R_arith) f (Spatial.pt2 (A := R_arith) ax ay) (Spatial.pt2 (A := R_arith) bx byy) 2 = Ret m /\
    mshape m = (NR, NC) /\
    forall i j, (i < NR)%nat -> (j < NC)%nat -> forall c0 c1 c2 c3,
      (forall s, h i j (along ax bx s) (along ay byy s) = cubic c0 c1 c2 c3 s) ->
      let L := R_sqrt.sqrt ((ax - bx) * (ax - bx) + (ay - byy) * (ay - byy)) in
      Rabs (el m i j - L * RInt (fun s => h i j (along ax bx s) (along ay byy s)) 0 1) <=
        L * (Rabs c2 + Rabs c3) * (2 / 10 ^ 16) /\
      (c2 = 0 -> c3 = 0 -> el m i j = L * RInt (fun s => h i j (along ax bx s) (along ay byy s)) 0 1).
Proof.
  intros Hf. set (a := Spatial.pt2 (A := R_arith) ax ay). set (b := Spatial.pt2 (A := R_arith) bx byy).
  set (L := R_sqrt.sqrt ((ax - bx) * (ax - bx) + (ay - byy) * (ay - byy))).
  set (p := 577350269189626 / 10 ^ 15).
  assert (Ep : slit (A := R_arith) 577350269189626 (10 ^ 15) = p).
  { unfold slit. rewrite !sz_IZR. unfold p. cbn [sdiv R_arith]. f_equal. symmetry. exact (pow_IZR 10 15). }
  assert (Em : slit (A := R_arith) (-577350269189626) (10 ^ 15) = - p).
  { rewrite <- Ep. unfold slit. rewrite !sz_IZR. cbn [sdiv R_arith]. rewrite (opp_IZR 577350269189626 : IZR (-577350269189626) = _). unfold Rdiv. apply Ropp_mult_distr_l_reverse. }
  destruct (gauss_segment_ret f (fun t i j => h i j (seg_x a b t) (seg_y a b t)) a b 2
     [(slit (A := R_arith) (-577350269189626) (10 ^ 15), s1); (slit (A := R_arith) 577350269189626 (10 ^ 15), s1)] L NR NC)
    as (m & E & W & Sm & V); try reflexivity.
  - rewrite pt_dist_ret by reflexivity. f_equal. unfold L, a, b, ssq. cbn. f_equal. ring.
  - discriminate.
  - intros t. destruct (Hf (Pt 2 (seg_x a b t) (seg_y a b t) (seg_z a b t)) eq_refl) as (m & E & W & Sm & V). eauto 10.
  - exists m. split; [exact E|]. split; [exact Sm|]. intros i j Hi Hj c0 c1 c2 c3 Hh. cbn zeta.
    rewrite (RInt_ext _ (cubic c0 c1 c2 c3)) by (intros s _; apply Hh). rewrite cubic_integral.
    assert (Sx : forall t, seg_x a b t = along ax bx ((1 + t) / 2)).
    { intros t. unfold seg_x, a, b, along, s2. rewrite sz_IZR. cbn. Rfield. }
    assert (Sy : forall t, seg_y a b t = along ay byy ((1 + t) / 2)).
    { intros t. unfold seg_y, a, b, along, s2. rewrite sz_IZR. cbn. Rfield. }
    rewrite (V i j Hi Hj). unfold seg_sum. cbn [fold_left fst snd]. rewrite Ep, Em.
    rewrite !Sx, !Sy, !Hh. unfold s2. rewrite sz_IZR.
    set (v := sdiv _ _). 
    match goal with |- Rabs (?e - _) <= _ /\ _ =>
      assert (Ev : e = L * (c0 + c1 / 2 + c2 * (1 + p * p) / 4 + c3 * (1 + 3 * (p * p)) / 8)) by (subst v; unfold cubic; cbn; Rfield);
      rewrite Ev end.
    split; [|intros -> ->; Rfield].
    replace (L * (c0 + c1 / 2 + c2 * (1 + p * p) / 4 + c3 * (1 + 3 * (p * p)) / 8) - L * (c0 + c1 / 2 + c2 / 3 + c3 / 4))
      with (L * ((p * p - 1 / 3) * (c2 / 4 + 3 * c3 / 8))) by Rfield.
    assert (HL : 0 <= L) by apply R_sqrt.sqrt_pos.
    assert (Hp : Rabs (p * p - 1 / 3) <= 3 / 10 ^ 16).
    { unfold p. apply Rabs_le. lra. }
    rewrite Rabs_mult, (Rabs_pos_eq L HL), Rmult_assoc. apply Rmult_le_compat_l; [exact HL|].
    rewrite Rabs_mult.
    assert (Hc : Rabs (c2 / 4 + 3 * c3 / 8) <= 3 / 8 * (Rabs c2 + Rabs c3)).
    { pose proof (Rle_abs c2). pose proof (Rle_abs c3). pose proof (Rle_abs (- c2)). pose proof (Rle_abs (- c3)).
      rewrite !Rabs_Ropp in *. pose proof (Rabs_pos c2). pose proof (Rabs_pos c3). apply Rabs_le. lra. }
    eapply Rle_trans; [apply Rmult_le_compat; [apply Rabs_pos|apply Rabs_pos|exact Hp|exact Hc]|].
    pose proof (Rabs_pos c2). pose proof (Rabs_pos c3). lra.
Qed.
