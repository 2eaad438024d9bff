(** A concrete geometry for the executable examples of the mesher: the usual formulas for
    spacemath's predicates.  The theorems quantify over all geometries instead. *)
From Coq Require Import Floats.
From Verif Require Import Bounds InstF64 InstQc.

Section plain.
Context {A : arith}.
Local Open Scope arith_scope.
Definition turn (a b c : xy A) : A := (b.1 - a.1) * (c.2 - a.2) - (c.1 - a.1) * (b.2 - a.2).
Definition plain_meet (a b p q : xy A) : bool :=
  sltb (turn a b p * turn a b q) 0 && sltb (turn p q a * turn p q b) 0.
Definition plain_dir (a b c : xy A) : orient :=
  if sltb 0 (turn a b c) then Positive else if sltb (turn a b c) 0 then Negative else Zero.
Definition plain_cr (a b c : xy A) : A := xy_dist a b * xy_dist b c * xy_dist c a / (sz 2 * sabs (turn a b c)).
Definition plain_geo (floor : A -> Z) : geo A :=
  Geo A plain_meet (fun a b p => sabs (turn a b p) / xy_dist a b) plain_dir plain_cr (fun _ => 0) floor.
End plain.

(** f64::floor as an integer *)
Definition f64_floor (x : F64_arith) : Z :=
  match Prim2SF x with
  | S754_finite s m e => let z := if s then Z.neg m else Z.pos m in
                         (if 0 <=? e then z * 2 ^ e else z / 2 ^ (- e))%Z
  | _ => 0%Z
  end.
Definition f64_geo : geo F64_arith := plain_geo f64_floor.
Definition qc_geo : geo Qc_arith := plain_geo (A := Qc_arith) (fun x => Qround.Qfloor (Qcanon.this x)).
