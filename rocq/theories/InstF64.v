(** The scalar instance of IEEE binary64: Coq's primitive floats.  No laws; used for
    executable witnesses. *)
From Verif Require Import Scalar.
From Coq Require Import Floats.

(** cos and sin have no primitive and are left as NaN *)
Definition F64_arith : arith :=
  {| carrier := float; s0 := PrimFloat.zero; s1 := PrimFloat.one; sadd := PrimFloat.add;
     ssub := PrimFloat.sub; smul := PrimFloat.mul; sdiv := PrimFloat.div;
     sneg := PrimFloat.opp; sabs := PrimFloat.abs; ssqrt := PrimFloat.sqrt;
     scos := fun _ => PrimFloat.nan; ssin := fun _ => PrimFloat.nan;
     seqb := PrimFloat.eqb; sltb := PrimFloat.ltb |}.

(** shorthand for float literals in examples *)
Definition fl (x : float) : F64_arith := x.
Global Arguments fl x%float.
