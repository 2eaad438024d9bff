(** C09 against the determinant of the mathematical components library. *)
Set Warnings "-ambiguous-paths,-notation-overridden,-notation-incompatible-format".
From mathcomp Require Import all_ssreflect all_algebra.
From Verif Require Base Scalar MatrixLaws DenseProofs Inverse PropInverse LuProofs PropBulk.
From Verif Require Import DetMC.
Local Open Scope ring_scope.

Theorem C09_determinant_mathcomp (F : realFieldType) (m : Buffer.lm (mc_arith F)) (n : nat) :
  DenseProofs.dense_built m -> Matrix.mshape m = (n, n) ->
  (exists v, Inverse.det_lu_pivot m = Base.Ret (Inverse.Ok v) /\
     v = \det (\matrix_(i < n, j < n) (MatrixLaws.el m i j : F)) /\ v <> 0 :> F) \/
  (Inverse.det_lu_pivot m = Base.Ret (Inverse.Err Inverse.Pivot) /\
   exists E : nat -> nat -> F, (forall r c, Peano.lt r n -> Peano.lt c n ->
       (`|E r c| < Inverse.small_num (A:=mc_arith F)) = true) /\
     \det (\matrix_(i < n, j < n) (MatrixLaws.el m i j + E i j : F)) = 0).
Proof.
move=> Hb Hs.
exact: (PropInverse.C09_determinant (mc_arith F) (mc_ord_laws F) m n _ Hb Hs (mc_det_function F n)).
Qed.
Print Assumptions C09_determinant_mathcomp.

(** C95 against the same determinant *)
Theorem C95_det_lu_mathcomp (F : realFieldType) (m : Buffer.lm (mc_arith F)) (n : nat) :
  DenseProofs.dense_built m -> Matrix.mshape m = (n, n) ->
  (forall k, Peano.lt k n -> LuProofs.nonsingular k (MatrixLaws.el m)) ->
  Inverse.det_lu m = Base.Ret (\det (\matrix_(i < n, j < n) (MatrixLaws.el m i j : F))).
Proof.
move=> Hb Hs Hn.
exact: (PropBulk.C95_det_lu (mc_arith F) (mc_field_laws F) n _ m (mc_det_function F n) Hb Hs Hn).
Qed.
Print Assumptions C95_det_lu_mathcomp.
