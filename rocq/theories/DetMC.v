(** The determinant of the mathematical components library satisfies the specification
    [det_function], and its real fields are scalar types with all laws. *)
Set Warnings "-ambiguous-paths,-notation-overridden,-notation-incompatible-format".
From mathcomp Require Import all_ssreflect all_algebra.
From Verif Require Scalar TriProofs DetProofs.
Import GRing.Theory Num.Theory Order.Theory.
Local Open Scope ring_scope.

(** The square root, sine and cosine are not used by the routines concerned; they are
    filled with the identity. *)
Definition mc_arith (F : realFieldType) : Scalar.arith :=
  @Scalar.Arith F 0 1 (fun x y => x + y) (fun x y => x - y) (fun x y => x * y) (fun x y => x / y)
    (fun x => - x) (fun x => `|x|) id id id (fun x y => x == y) (fun x y => x < y).

Lemma mc_field_laws (F : realFieldType) : Scalar.field_laws (mc_arith F).
Proof.
constructor.
- constructor; [constructor|..] => //=.
  + exact: add0r.
  + exact: addrC.
  + exact: addrA.
  + exact: mul1r.
  + exact: mulrC.
  + exact: mulrA.
  + exact: mulrDl.
  + exact: subrr.
  + by apply/eqP; rewrite oner_eq0.
  + by move=> x y; rewrite mul1r.
  + by move=> x Hx; rewrite mul1r mulVf //; apply/eqP.
- move=> x y; split=> H; [exact: (eqP H)|by rewrite H /= eqxx].
Qed.

Lemma mc_ord_laws (F : realFieldType) : Scalar.ord_laws (mc_arith F).
Proof.
constructor.
- exact: mc_field_laws.
- by move=> x /=; rewrite ltxx.
- by move=> x y z /=; apply: lt_trans.
- move=> x y /=; case: (ltgtP x y) => H; by [right; left|right; right|left].
- by move=> x y z /= H; rewrite ltr_add2r.
- by move=> x y /=; apply: mulr_gt0.
- move=> x /=; case: ifP => H; first by rewrite ltr0_norm.
  by rewrite ger0_norm // leNgt H.
Qed.

Definition tab {F : realFieldType} (n : nat) (a : nat -> nat -> F) : 'M[F]_n :=
  \matrix_(i < n, j < n) a i j.

Lemma mc_det_function (F : realFieldType) n :
  @DetProofs.det_function (mc_arith F) n (fun a => \det (tab n a)).
Proof.
constructor.
- move=> a b H. congr (\det _). apply/matrixP => i j; rewrite !mxE. by apply: H; apply/ssrnat.ltP.
- move=> a r k u v /ssrnat.ltP Hr /=.
  rewrite -[X in _ = _ + X]mul1r.
  apply: (determinant_multilinear (i0 := Ordinal Hr)).
  + apply/rowP => j. rewrite !mxE /DetProofs.with_row /= PeanoNat.Nat.eqb_refl /=. by rewrite mul1r.
  + apply/matrixP => i j. rewrite !mxE /DetProofs.with_row /=.
    case: (PeanoNat.Nat.eqb_spec (lift (Ordinal Hr) i) r) => // E.
    exfalso. have := neq_lift (Ordinal Hr) i. move/eqP; apply. by apply: val_inj.
  + apply/matrixP => i j. rewrite !mxE /DetProofs.with_row /=.
    case: (PeanoNat.Nat.eqb_spec (lift (Ordinal Hr) i) r) => // E.
    exfalso. have := neq_lift (Ordinal Hr) i. move/eqP; apply. by apply: val_inj.
- move=> a r s /ssrnat.ltP Hr /ssrnat.ltP Hs Hn H /=.
  apply: (determinant_alternate (i1 := Ordinal Hr) (i2 := Ordinal Hs)).
  + apply/eqP => E. apply: Hn. by have := congr1 val E.
  + move=> j. rewrite !mxE /=. apply: H. by apply/ssrnat.ltP.
- rewrite /= -(det1 _ n). congr (\det _). apply/matrixP => i j. rewrite !mxE /TriProofs.delta.
  case: (base.decide _) => [E|E] /=.
  + have -> : i = j by apply: val_inj. by rewrite eqxx.
  + case: eqP => // E'. by case: E; rewrite E'.
Qed.
