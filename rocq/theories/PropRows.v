(** C116: the stored rows of envelope matrices. *)
From Coq Require Import Floats.
From Verif Require Import RowProofs InstQc InstF64 PropSparse.

(** *** C116 — the stored part of a row of a lower envelope matrix ends at the diagonal and is what reading
    gives, everything outside it reads as zero, and replacing it changes that row and nothing else *)
Theorem C116_row (A : arith) (m : lenv A) i : reach le_init le_other m -> i < (mshape m).1 -> exists s front d,
  le_row_stored m i = Ret (s, front ++ [d]) /\ le_row_stored_nodiag m i = Ret (s, front) /\ s + length front = i /\
  mget m (i, i) = Ret (Some d) /\ (forall k x, front !! k = Some x -> mget m (i, s + k) = Ret (Some x)) /\
  (forall c, c < (mshape m).2 -> c < s \/ i < c -> mget m (i, c) = Ret (Some s0)).
Proof. intros H. apply (row_of m i). now apply le_built_wf. Qed.
Print Assumptions C116_row.
Theorem C116_out (A : arith) (m : lenv A) i : reach le_init le_other m -> (mshape m).1 <= i ->
  le_row_stored m i = Panic /\ le_row_stored_nodiag m i = Panic.
Proof. intros H. apply (row_out m i). now apply le_built_wf. Qed.
Print Assumptions C116_out.
Theorem C116_write (A : arith) (m : lenv A) i s vals row : reach le_init le_other m -> i < (mshape m).1 -> le_row_stored m i = Ret (s, vals) ->
  (length row = length vals -> exists m', le_row_write m i row = Ret m' /\ (mshape m').1 = (mshape m).1 /\ le_row_stored m' i = Ret (s, row) /\
    forall j, j <> i -> le_row_stored m' j = le_row_stored m j) /\
  (length row <> length vals -> le_row_write m i row = Panic).
Proof.
  intros H Hi E. destruct (row_write m i s vals row (le_built_wf m H) Hi E) as [H1 H2]. split; [|exact H2].
  intros Hl. destruct (H1 Hl) as (m' & Ew & _ & Hn & Hr & Ho). exists m'. auto.
Qed.
Print Assumptions C116_write.
(** a row that starts behind the first column *)
Example C116_example :
  (m ← c17_ex; m ← le_row_write m 1 [qc 7]; r ← le_row_stored m 2; d ← le_row_stored_nodiag m 2; q ← le_row_stored m 1; z ← le_get m (1, 0);
   Ret (r, d, q, z)) = Ret (0, [qc 1; qc 3; qc 5], (0, [qc 1; qc 3]), (1, [qc 7]), Some (qc 0)) /\
  (m ← c17_ex; le_row_stored m 3) = Panic /\ (m ← c17_ex; le_row_write m 1 [qc 7; qc 7]) = Panic.
Proof. split; [|split]; vm_refl. Qed.
