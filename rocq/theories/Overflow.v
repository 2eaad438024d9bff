(** Machine-word version of the dense constructor and accessor: sizes are 64-bit words. *)
From Coq Require Import NArith.
From Verif Require Export Buffer.

Open Scope N_scope.
Definition word : N := 2 ^ 64.

(** build profiles: arithmetic overflow panics (debug) or wraps (release, Cargo.toml:16-17
    leaves overflow-checks off) *)
Inductive profile := Debug | Release.
Definition wmul (p : profile) (x y : N) : out N :=
  if x * y <? word then Ret (x * y)
  else match p with Debug => Panic | Release => Ret ((x * y) mod word) end.
Definition wadd (p : profile) (x y : N) : out N :=
  if x + y <? word then Ret (x + y)
  else match p with Debug => Panic | Release => Ret ((x + y) mod word) end.

(** a dense matrix as its dimensions and the length of its buffer; buffer.rs:6-11 *)
Record wdense := WD { wd_r : N; wd_c : N; wd_rm : bool; wd_len : N }.

(** zeros, buffer.rs:222-231: [vec![0.0; n]] panics ("capacity overflow") when n * 8 bytes
    exceed isize::MAX = 2^63 - 1 *)
Definition wd_zeros (p : profile) (r c : N) : out wdense :=
  n ← wmul p r c;
  if n * 8 <? 2 ^ 63 then Ret (WD r c true n) else Panic.

(** pos, buffer.rs:37-48, and the unchecked access of get, buffer.rs:200-207 *)
Definition wd_get (p : profile) (m : wdense) (loc : N * N) : out (option N) :=
  if (wd_c m <=? loc.2) || (wd_r m <=? loc.1) then Ret None
  else i ← (if wd_rm m then q ← wmul p (wd_c m) loc.1; wadd p q loc.2
            else q ← wmul p (wd_r m) loc.2; wadd p q loc.1);
       if i <? wd_len m then Ret (Some i) else UB.
Close Scope N_scope.
