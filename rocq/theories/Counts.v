(** Model of comparisons and counts that nothing else in the library calls.
    /repo/src/matrix/{buffer,sparse,graph}.rs *)
From Verif Require Export Sparse.

(** Graph == Graph, graph.rs:231-235 *)
Definition graph_eq (g h : graph) : bool :=
  bool_decide (g_adj g = g_adj h) && bool_decide (g_ind g = g_ind h).

(** degree_masked, graph.rs:131-137 *)
Definition degree_masked (g : graph) (v : nat) (mask : list bool) : out nat :=
  se ← adj_idxs g v;
  foldM (fun i k => w ← idx (g_adj g) i; b ← idx mask w; Ret (k + if b : bool then 1 else 0)) (range se.1 se.2) 0.

Section counts.
Context {A : arith}.

(** Diagonal == Diagonal, buffer.rs:558-562 *)
Definition dg_eq (a b : dg A) : bool := data_eqb (dg_data a) (dg_data b).

(** m[i] for a Diagonal, buffer.rs:581-589 *)
Definition dg_at (m : dg A) (i : nat) : out A := idx (dg_data m) i.

(** ConstMatrix == ConstMatrix, buffer.rs:679-687 *)
Definition cm_eq (a b : cm A) : bool :=
  if negb ((cm_r a =? cm_r b) && (cm_c a =? cm_c b)) then false else data_eqb (cm_data a) (cm_data b).

(** Diagonal::product_scaled, buffer.rs:155-157 *)
Definition dg_product_scaled (m : dg A) (k : A) : A := sprod (map (fun x => smul x k) (dg_data m)).

(** Diagonal::mean, buffer.rs:159-161 *)
Definition dg_mean (m : dg A) : A := sdiv (ssum (dg_data m)) (sz (Z.of_nat (length (dg_data m)))).

(** CompressedRow::non_zero_count, sparse.rs:88-91 *)
Definition cr_count (m : crow A) : nat := cr_nz m.

(** LowerRowEnvelope::non_zero_count, sparse.rs:312-315 *)
Definition le_count (m : lenv A) : nat := length (le_data m).
End counts.
