(** The scalar instance of Coq's real numbers (standard-library axioms). *)
From Verif Require Import Scalar.
From Coq Require Import ZArith Reals Lra.

Definition R_ltb (x y : R) : bool := if Rlt_dec x y then true else false.
Definition R_eqb (x y : R) : bool := if Req_EM_T x y then true else false.

Definition R_arith : arith :=
  {| carrier := R; s0 := 0%R; s1 := 1%R; sadd := Rplus; ssub := Rminus;
     smul := Rmult; sdiv := Rdiv; sneg := Ropp; sabs := Rabs; ssqrt := sqrt;
     scos := cos; ssin := sin; seqb := R_eqb; sltb := R_ltb |}.

Lemma R_ltb_iff (x y : R) : R_ltb x y = true <-> (x < y)%R.
Proof. unfold R_ltb. destruct (Rlt_dec x y); split; congruence || tauto. Qed.

Lemma R_eqb_iff (x y : R) : R_eqb x y = true <-> x = y.
Proof. unfold R_eqb. destruct (Req_EM_T x y); split; congruence || tauto. Qed.

Lemma R_field_laws : field_laws R_arith.
Proof.
  constructor.
  - constructor; [exact RTheory| | |]; simpl.
    + lra.
    + intros x y. unfold Rdiv. ring.
    + intros x Hx. unfold Rdiv. field. exact Hx.
  - exact R_eqb_iff.
Qed.

Lemma R_ord_laws : ord_laws R_arith.
Proof.
  constructor; simpl.
  - exact R_field_laws.
  - intros x. apply not_true_iff_false. rewrite R_ltb_iff. lra.
  - intros x y z. rewrite !R_ltb_iff. lra.
  - intros x y. rewrite !R_ltb_iff. lra.
  - intros x y z. rewrite !R_ltb_iff. lra.
  - intros x y. rewrite !R_ltb_iff. apply Rmult_lt_0_compat.
  - intros x. unfold R_ltb. destruct (Rlt_dec x 0).
    + apply Rabs_left. assumption.
    + apply Rabs_right. lra.
Qed.
