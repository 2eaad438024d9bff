(** Scalars.

    The crate computes with f64 throughout (e.g. /repo/src/matrix/buffer.rs:10).
    The model is polymorphic in a record [arith] of the operations the code uses;
    a theorem that assumes nothing about the record holds for IEEE binary64, a
    theorem that assumes [field_laws] or [ord_laws] is about exact arithmetic.

    Simplification: rounding is not modelled by the lawful instances ([Qc_arith] in
    InstQc.v, [R_arith] in InstR.v); [F64_arith] (InstF64.v) is IEEE binary64 itself (Coq primitive floats) and is
    used for executable witnesses. *)
From Verif Require Export Base.
From Coq Require Export Ring Field Ring_theory Field_theory.
From Coq Require Import ZArith InitialRing.

Record arith := Arith {
  carrier :> Type;
  s0 : carrier;                              (* 0.0 *)
  s1 : carrier;                              (* 1.0 *)
  sadd : carrier -> carrier -> carrier;      (* + *)
  ssub : carrier -> carrier -> carrier;      (* - *)
  smul : carrier -> carrier -> carrier;      (* * *)
  sdiv : carrier -> carrier -> carrier;      (* / *)
  sneg : carrier -> carrier;                 (* unary - *)
  sabs : carrier -> carrier;                 (* f64::abs *)
  ssqrt : carrier -> carrier;                (* f64::sqrt *)
  scos : carrier -> carrier;                 (* f64::cos *)
  ssin : carrier -> carrier;                 (* f64::sin *)
  seqb : carrier -> carrier -> bool;         (* == *)
  sltb : carrier -> carrier -> bool;         (* <  *)
}.
Global Arguments s0 {_}.
Global Arguments s1 {_}.
Global Arguments sadd {_} _ _.
Global Arguments ssub {_} _ _.
Global Arguments smul {_} _ _.
Global Arguments sdiv {_} _ _.
Global Arguments sneg {_} _.
Global Arguments sabs {_} _.
Global Arguments ssqrt {_} _.
Global Arguments scos {_} _.
Global Arguments ssin {_} _.
Global Arguments seqb {_} _ _.
Global Arguments sltb {_} _ _.

Declare Scope arith_scope.
Delimit Scope arith_scope with A.
Notation "0" := (@s0 _) : arith_scope.
Notation "1" := (@s1 _) : arith_scope.
Notation "x + y" := (sadd x y) : arith_scope.
Notation "x - y" := (ssub x y) : arith_scope.
Notation "x * y" := (smul x y) : arith_scope.
Notation "x / y" := (sdiv x y) : arith_scope.
Notation "- x" := (sneg x) : arith_scope.

(** [x <= y] on f64. *)
Definition sleb {A : arith} (x y : A) : bool := sltb x y || seqb x y.

(** f64::partial_cmp *)
Definition scmp {A : arith} (x y : A) : option comparison :=
  if sltb x y then Some Lt else if seqb x y then Some Eq
  else if sltb y x then Some Gt else None.

(** integer literals such as 2.0, 3.0; built from 1.0 by doubling, exact in binary64
    below 2^53 *)
Definition sz {A : arith} (z : Z) : A := gen_phiZ s0 s1 sadd smul sneg z.

(** a decimal literal n/d *)
Definition slit {A : arith} (n : Z) (d : Z) : A := sdiv (sz n) (sz d).

(** x.powi(2) *)
Definition ssq {A : arith} (x : A) : A := smul x x.

(** [iter.sum::<f64>()]: left to right from 0.0 *)
Definition ssum {A : arith} (l : list A) : A := fold_left sadd l s0.

(** [iter.product::<f64>()]: left to right from 1.0 *)
Definition sprod {A : arith} (l : list A) : A := fold_left smul l s1.

(** ** Laws *)

Record field_laws (A : arith) : Prop := FieldLaws {
  fl_field : field_theory (R:=A) s0 s1 sadd smul ssub sneg sdiv (fun x => sdiv s1 x) (@eq A);
  fl_eqb : forall x y : A, seqb x y = true <-> x = y
}.

Record ord_laws (A : arith) : Prop := OrdLaws {
  ol_field : field_laws A;
  ol_irr : forall x : A, sltb x x = false;
  ol_trans : forall x y z : A, sltb x y = true -> sltb y z = true -> sltb x z = true;
  ol_total : forall x y : A, x = y \/ sltb x y = true \/ sltb y x = true;
  ol_add : forall x y z : A, sltb x y = true -> sltb (sadd x z) (sadd y z) = true;
  ol_mul : forall x y : A, sltb s0 x = true -> sltb s0 y = true -> sltb s0 (smul x y) = true;
  ol_abs : forall x : A, sabs x = if sltb x s0 then sneg x else x
}.

