(** Roundings of the pictures for the three scalar instances.  Rust's [round] takes halves away
    from zero; the [as u32] and [as u8] casts saturate, and send NaN to 0. *)
From Coq Require Import Reals Floats QArith Qcanon.
From Verif Require Export InstR InstQc InstF64 Visual.
Local Close Scope R_scope.
Local Close Scope Q_scope.
Local Close Scope Qc_scope.

Definition sat (top z : Z) : Z := Z.max 0 (Z.min top z).
Definition u32_max : Z := (2 ^ 32 - 1)%Z.

(** reals *)
Definition R_round (x : R) : Z :=
  if Rle_dec 0 x then Int_part (x + / 2) else (- Int_part (- x + / 2))%Z.
Definition R_raster : raster R_arith := Raster (A := R_arith) (fun x => sat u32_max (R_round x)) (fun x => sat 255 (R_round x)).

(** rationals: the nearest integer of n/d is the floor of (2n+d)/(2d) *)
Definition Qc_round (x : Qc) : Z :=
  let n := Qnum x in let d := Z.pos (Qden x) in
  if (0 <=? n)%Z then ((2 * n + d) / (2 * d))%Z else (- ((2 * (- n) + d) / (2 * d)))%Z.
Definition Qc_raster : raster Qc_arith := Raster (A := Qc_arith) (fun x => sat u32_max (Qc_round x)) (fun x => sat 255 (Qc_round x)).

(** binary64 *)
Definition F64_cast (top : Z) (x : float) : Z :=
  match Prim2SF x with
  | S754_zero _ | S754_nan => 0%Z
  | S754_infinity s => if s then 0%Z else top
  | S754_finite s m e =>
      if s then 0%Z else
      sat top (match e with
               | Z0 => Z.pos m
               | Zpos k => (Z.pos m * 2 ^ Z.pos k)%Z
               | Zneg k => ((Z.pos m + 2 ^ (Z.pos k - 1)) / 2 ^ Z.pos k)%Z
               end)
  end.
Definition F64_raster : raster F64_arith := Raster (A := F64_arith) (F64_cast u32_max) (F64_cast 255).
