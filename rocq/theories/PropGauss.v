(** C105: accuracy of the dense solver. *)
From Coq Require Import Floats Reals Lra.
From Verif Require Import RoundDense PropFactor PropSolve InstR InstQc InstF64.
Local Close Scope R_scope.
Local Open Scope list_scope.
Local Open Scope nat_scope.

(** *** C105 — refuted in binary64: four unknowns, coefficients that are whole numbers up to
    12, and a matrix far from singular; one component of the answer is -1.5 where the solution
    has 5/21, and the first equation is missed by more than 2.  The Cholesky solver answers correctly. *)
Definition four_k : list (list Z) := [[3; 3; 2; 1]; [3; 12; -2; 2]; [2; -2; 7; 1]; [1; 2; 1; 7]]%Z.
Definition four_r : list Z := [2; 3; 2; -1]%Z.
Definition zk (i j : nat) : Z := nth j (nth i four_k []) 0%Z.
Definition zr (i : nat) : Z := nth i four_r 0%Z.
Definition four (A : arith) : list (asm A) :=
  flat_map (fun i => map (fun j => AddK i j (sz (zk i j))) (seq 0 4)) (seq 0 4) ++ map (fun i => AddR i (sz (zr i))) (seq 0 4).
Theorem C105_refuted :
  (forall i j, i < 4 -> j < 4 -> zk i j = zk j i) /\
  (forall z : nat -> R, (1 / 5 * rsum 4 (fun i => IZR (zk i i) * (z i * z i)) <= rsum 4 (fun i => z i * rsum 4 (fun j => IZR (zk i j) * z j)))%R) /\
  (forall i, i < 4 -> rsum 4 (fun j => (IZR (zk i j) * nth j [5 / 21; 101 / 336; 39 / 112; - 5 / 16] 0)%R) = IZR (zr i)) /\
  exists s x y, assemble 4 (four F64_arith) = Ret s /\
    dense_gauss s = Ret (Ok x) /\ x = map fl [-1.5; 0.84375; 1; -0.3125]%float /\
    cholesky_solver hash_id s = Ret (Ok y) /\
    forallb (fun p => (abs (p.1 - p.2) <=? fl 0x1p-48))%float (zip y (map (fun p => fl p.1 / fl p.2) [(5, 21); (101, 336); (39, 112); (-5, 16)])%float) = true.
Proof.
  split; [|split; [|split]].
  - intros [|[|[|[|i]]]] [|[|[|[|j]]]] Hi Hj; try lia; reflexivity.
  - intros z. unfold rsum. cbn [bigsum sadd R_arith s0 zk four_k nth]. generalize (z 0) (z 1) (z 2) (z 3). intros a b c d.
    pose proof (Rle_0_sqr (a + 5 / 4 * b + 5 / 6 * c + 5 / 12 * d)) as Q1. pose proof (Rle_0_sqr (b - 10 / 13 * c + 5 / 39 * d)) as Q2.
    pose proof (Rle_0_sqr (c + 145 / 92 * d)) as Q3. pose proof (Rle_0_sqr d) as Q4. unfold Rsqr in *. lra.
  - intros [|[|[|[|i]]]] Hi; try lia; unfold rsum; cbn [bigsum sadd R_arith s0 zk zr four_k four_r nth]; lra.
  - vm_run (assemble 4 (four F64_arith)) s Es. exists s. eexists. eexists. split; [exact Es|]. split; [vm_refl|]. split; [vm_refl|]. split; vm_refl.
Qed.
Print Assumptions C105_refuted.

(** what holds: the answer solves exactly a system that differs from the assembled one by a
    multiple of the product of the factors computed; nothing bounds these factors by the matrix *)
Theorem C105_partial u rnd (RN : rounding u rnd) n (ops : list (asm (Rnd_arith rnd))) s :
  rnd 1%R = 1%R -> (forall o, o ∈ ops -> asm_ok n o) ->
  (forall o, o ∈ ops -> match o with AddK _ _ v | AddM _ _ v | AddR _ v => rnd v = v end) ->
  assemble n ops = Ret s -> 0 < n -> sy_rhs s <> None -> pivots_nonzero n (k_at s) -> (INR (3 * n) * u < 1)%R ->
  exists x, dense_gauss s = Ret (Ok x) /\ length x = n /\
  exists sg (L U E : nat -> nat -> R), perm_on n sg /\
    (forall r q, r < n -> q < n -> r < q -> L r q = 0%R) /\ (forall r, r < n -> L r r <> 0%R) /\
    (forall r c, r < n -> c < r -> U r c = 0%R) /\ (forall r, r < n -> U r r = 1%R) /\
    (forall r j, r < n -> j < n ->
       (Rabs (rsum n (fun q => L r q * U q j) - k_at s (sg r) j) <= gam u n * rsum n (fun q => Rabs (L r q) * Rabs (U q j)))%R) /\
    (forall r, r < n -> rsum n (fun j => (((k_at s (sg r) j : R) + E r j) * vel x j)%R) = r_at s (sg r)) /\
    (forall r j, r < n -> j < n -> (Rabs (E r j) <= gam u (3 * n) * rsum n (fun q => Rabs (L r q) * Rabs (U q j)))%R) /\
    forall (Z : nat -> nat -> R) (xs : nat -> R),
      (forall i, i < n -> rsum n (fun j => (k_at s i j * xs j)%R) = r_at s i) ->
      (forall a j, a < n -> j < n -> rsum n (fun i => (Z a i * k_at s i j)%R) = if a =? j then 1%R else 0%R) ->
      forall a, a < n -> (Rabs ((vel x a : R) - xs a) <= gam u (3 * n) *
        rsum n (fun r => Rabs (Z a (sg r)) * rsum n (fun j => rsum n (fun q => Rabs (L r q) * Rabs (U q j)) * Rabs (vel x j))))%R.
Proof.
  intros H1 Hok Hv Ea Hn Hr Hp Hu.
  destruct (dense_error RN H1 n ops s Hok Hv Ea Hn Hr Hp Hu) as (x & Ex & Hl & sg & L & U & E & P1 & P2 & P3 & P4 & P5 & P6 & P7 & P8).
  exists x. split; [exact Ex|]. split; [exact Hl|]. exists sg, L, U, E. repeat (split; [assumption|]).
  intros Z xs Hxs HZ. exact (dense_forward n (k_at s) E L U Z (vel x) xs (r_at s) sg _ P1 P7 P8 Hxs HZ).
Qed.
Print Assumptions C105_partial.

(** the matrix [[1,-1],[-1,3]] in double precision *)
Local Arguments rnd64 : simpl never.
Definition dbl (z : Z) : Rnd_arith rnd64 := IZR z.
Definition ops2 : list (asm (Rnd_arith rnd64)) := [AddK 0 0 (dbl 1); AddK 0 1 (dbl (-1)); AddK 1 0 (dbl (-1)); AddK 1 1 (dbl 3); AddR 0 (dbl 1); AddR 1 (dbl 5)].
Example C105_example : rnd64 1%R = 1%R /\ (forall o, o ∈ ops2 -> asm_ok 2 o) /\
  (forall o, o ∈ ops2 -> match o with AddK _ _ v | AddM _ _ v | AddR _ v => rnd64 v = v end) /\ (INR (3 * 2) * u64 < 1)%R /\
  exists s, assemble 2 ops2 = Ret s /\ sy_rhs s <> None /\ pivots_nonzero 2 (k_at s) /\
    k_at s 0 0 = dbl 1 /\ k_at s 0 1 = dbl (-1) /\ k_at s 1 0 = dbl (-1) /\ k_at s 1 1 = dbl 3.
Proof.
  assert (H1 : rnd64 1%R = 1%R) by (apply (rnd64_int 1); lia). split; [exact H1|].
  assert (H2 : forall o, o ∈ ops2 -> asm_ok 2 o).
  { intros o Ho. repeat (apply elem_of_cons in Ho as [->|Ho]; [cbn; lia|]). now apply elem_of_nil in Ho. }
  split; [exact H2|].
  assert (H3 : forall o, o ∈ ops2 -> match o with AddK _ _ v | AddM _ _ v | AddR _ v => rnd64 v = v end).
  { intros o Ho. repeat (apply elem_of_cons in Ho as [->|Ho]; [apply rnd64_int; lia|]). now apply elem_of_nil in Ho. }
  split; [exact H3|]. split; [rewrite u64_val; cbn; lra|].
  destruct (assemble_free 2 ops2) as (s & E & _ & Hn & _ & Hk & _ & Hr).
  { intros o Ho. specialize (H3 o Ho). destruct o; cbn in *; now rewrite Rplus_0_l. }
  { exact H2. }
  exists s. split; [exact E|].
  assert (F : forall z, (Z.abs z <= 100)%Z -> rnd64 (IZR z) = IZR z) by (intros; apply rnd64_int; lia).
  assert (Hs : forall z, (Z.abs z <= 100)%Z -> ssum [dbl z] = dbl z).
  { intros z Hz. unfold ssum. cbn [fold_left]. change (rnd64 (0 + IZR z)%R = IZR z). rewrite Rplus_0_l. now apply F. }
  assert (K00 : k_at s 0 0 = dbl 1) by (rewrite Hk; apply Hs; lia). assert (K01 : k_at s 0 1 = dbl (-1)) by (rewrite Hk; apply Hs; lia).
  assert (K10 : k_at s 1 0 = dbl (-1)) by (rewrite Hk; apply Hs; lia). assert (K11 : k_at s 1 1 = dbl 3) by (rewrite Hk; apply Hs; lia).
  assert (R0 : r_at s 0 = dbl 1) by (rewrite Hr; apply Hs; lia).
  split; [intros Hc; unfold r_at in R0; rewrite Hc in R0; unfold dbl in R0; cbn in R0; lra|].
  split; [|auto].
  pose (M1 := elim_step (A := Rnd_arith rnd64) 0 0 (k_at s)). pose (M2 := elim_step (A := Rnd_arith rnd64) 1 1 M1).
  assert (E11 : M1 1 1 = dbl 2).
  { change (M1 1 1) with (ssub (k_at s 1 1) (smul (sdiv (k_at s 0 1) (k_at s 0 0)) (k_at s 1 0))). rewrite K00, K01, K10, K11. unfold dbl. cbn.
    replace (-1 / 1)%R with (IZR (-1)) by field. rewrite F by lia. replace (-1 * -1)%R with (IZR 1) by ring. rewrite F by lia.
    replace (3 - 1)%R with (IZR 2) by ring. apply F; lia. }
  exists (fun k => match k with 0 => k_at s | 1 => M1 | _ => M2 end). split; [reflexivity|].
  intros [|[|k]] Hk'; [exists 0|exists 1|lia].
  - split; [|split; [|reflexivity]].
    + split; [lia|]. split; [intros; lia|]. intros r Hr'. assert (r = 1) as -> by lia. rewrite K10, K00. apply R_ltb_iff. unfold dbl. lra.
    + rewrite K00. unfold dbl. cbn. lra.
  - split; [|split; [|reflexivity]].
    + split; [lia|]. split; intros; lia.
    + rewrite E11. unfold dbl. cbn. lra.
Qed.
