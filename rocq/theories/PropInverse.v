(** Properties of the dense factorisations: C08, C09, C10, C11, C12, C13. *)
From Coq Require Import Floats Reals Lra.
From Verif Require Import DenseProofs DetProofs InstQc InstR InstF64.

(** a literal table *)
Definition lit {A : arith} (l : list (list A)) (r c : nat) : A := nth c (nth r l []) s0.

(** *** C08 — the pivots met are non-zero exactly when every leading block smaller than the
    matrix is non-singular; then lower (unit diagonal) times upper is the matrix. *)
Theorem C08_lu (A : arith) (FL : field_laws A) (m : lm A) (n : nat) :
  dense_built m -> mshape m = (n, n) ->
  (forall k, k < n -> nonsingular k (el m)) ->
  exists (l : ltm A) (u : utm A), lu_decompose m = Ret (l, u) /\
    mshape l = (n, n) /\ mshape u = (n, n) /\
    (forall r, r < n -> el l r r = s1) /\
    (forall r c, r < c -> el l r c = s0) /\ (forall r c, c < r -> el u r c = s0) /\
    forall r c, r < n -> c < n -> bigsum n (fun k => smul (el l r k) (el u k c)) = el m r c.
Proof.
  intros Hb Hs Hns. apply dense_built_wf in Hb.
  destruct (lu_decompose_inv FL m n (el m) (rep_self m n n Hb Hs) Hns)
    as ([l u] & E & Hwl & Hln & Hwu & Hun & _ & _ & H1 & _ & HP).
  exists l, u. split; [exact E|]. cbn in *. subst n. split; [reflexivity|]. split; [congruence|].
  split; [exact H1|]. split; [intros; now apply el_lt_upper|]. split; [intros; now apply el_ut_lower|].
  intros r c Hr Hc. apply HP; auto.
Qed.
Print Assumptions C08_lu.

Lemma left_inverse_nonsingular {A : arith} (FL : field_laws A) k (a b : nat -> nat -> A) :
  (forall i j, i < k -> j < k -> mm k b a i j = delta i j) -> nonsingular k a.
Proof.
  intros H x Hx i Hi.
  rewrite <- (mm_delta_l FL k (fun j _ => x j) i 0 Hi).
  transitivity (mm k b (fun j _ => mv k a x j) i 0).
  - transitivity (mm k (mm k b a) (fun j _ => x j) i 0).
    + apply mm_ext; [|auto]. intros j Hj. symmetry. now apply H.
    + apply (mm_assoc FL).
  - unfold mm. apply (bigsum_0 FL). intros j Hj. rewrite Hx by exact Hj.
    destruct FL as [F _]. rewrite (Rmul_comm (F_R F)), (ARmul_0_l (Rth_ARth (Eqsth _) (Eq_ext _ _ _) (F_R F))). reflexivity.
Qed.

(** the 3 x 3 matrix [[2,1,1],[4,-6,0],[-2,7,2]] meets the hypotheses *)
Definition c08_m : lm Qc_arith := LM 3 3 true (map qc [2; 1; 1; 4; -6; 0; -2; 7; 2]%Z).
Example C08_example :
  (forall k, k <= 3 -> nonsingular k (el c08_m)) /\
  exists l u, lu_decompose c08_m = Ret (l, u) /\ map (fun x => Qcanon.this x) (ut_data u) <> [].
Proof.
  split.
  - intros k Hk. destruct k as [|[|[|[|k]]]]; [| | | |lia];
    [ apply (left_inverse_nonsingular Qc_field_laws 0 _ (lit []))
    | apply (left_inverse_nonsingular Qc_field_laws 1 _ (lit [[qcd 1 2]]))
    | apply (left_inverse_nonsingular Qc_field_laws 2 _ (lit [[qcd 3 8; qcd 1 16]; [qcd 1 4; qcd (-1) 8]]))
    | apply (left_inverse_nonsingular Qc_field_laws 3 _ (lit [[qcd 3 4; qcd (-5) 16; qcd (-3) 8];
        [qcd 1 2; qcd (-3) 8; qcd (-1) 4]; [qc (-1); qc 1; qc 1]])) ];
    intros [|[|[|i]]] [|[|[|j]]] Hi Hj; try lia; qc_compute.
  - eexists _, _. split; [vm_refl|]. discriminate.
Qed.

(** *** C09 — the value is the determinant; failure means an entrywise 1e-100 perturbation
    of the matrix is singular; a non-square matrix is a shape error. *)
Theorem C09_determinant (A : arith) (OL : ord_laws A) (m : lm A) (n : nat) (D : (nat -> nat -> A) -> A) :
  dense_built m -> mshape m = (n, n) -> det_function n D ->
  (exists v, det_lu_pivot m = Ret (Ok v) /\ v = D (el m) /\ v <> s0) \/
  (det_lu_pivot m = Ret (Err Pivot) /\
   exists E, (forall r c, r < n -> c < n -> sltb (sabs (E r c)) (slit 1 (10 ^ 100)) = true) /\
             D (fun r c => sadd (el m r c) (E r c)) = s0).
Proof.
  intros Hb Hs HD. apply dense_built_wf in Hb.
  exact (det_lu_pivot_spec OL n D HD m (el m) (rep_self m n n Hb Hs)).
Qed.
Print Assumptions C09_determinant.

Theorem C09_dispatch (A : arith) (FL : field_laws A) (m : lm A) (D : (nat -> nat -> A) -> A) :
  dense_built m ->
  (mshape m = (2, 2) -> det_function 2 D -> determinant m = Ret (Ok (D (el m)))) /\
  (mshape m <> (2, 2) -> determinant m = det_lu_pivot m) /\
  ((mshape m).1 <> (mshape m).2 -> determinant m = Ret (Err SolveError)).
Proof.
  intros Hb. apply dense_built_wf in Hb. split; [|split].
  - intros Hs HD. unfold determinant. rewrite decide_True by exact Hs.
    pose proof (rep_self m 2 2 Hb Hs) as Hr.
    rewrite !(rep_index m 2 2 _ _ _ Hr) by lia. cbn [mbind out_bind].
    now rewrite (D_2x2 FL D (el m) HD).
  - intros Hs. unfold determinant. now rewrite decide_False.
  - intros Hs. unfold determinant. rewrite decide_False by (intros E; rewrite E in Hs; now apply Hs).
    unfold det_lu_pivot. now rewrite (proj2 (Nat.eqb_neq _ _) Hs).
Qed.
Print Assumptions C09_dispatch.

Example C09_example :
  det_lu_pivot (LM 3 3 true (map qc [0; 1; 1; 4; -6; 0; -2; 7; 2]%Z)) = Ret (Ok (qc 8)) /\
  det_lu_pivot (LM 2 2 true (map qc [1; 2; 2; 4]%Z)) = Ret (Err Pivot) /\
  det_lu_pivot (LM 2 3 true (map qc [1; 2; 2; 4; 0; 0]%Z)) = Ret (Err SolveError).
Proof.
  split; [|split; vm_refl].
  assert (E : match det_lu_pivot (LM 3 3 true (map qc [0; 1; 1; 4; -6; 0; -2; 7; 2]%Z)) with
              | Ret (Ok v) => Some (Qcanon.this v) | _ => None end = Some (Qcanon.this (qc 8)))
    by (vm_refl).
  destruct (det_lu_pivot _) as [[v|e]| | |]; try discriminate E. injection E as E. do 2 f_equal.
  now apply qc_eq.
Qed.

(** *** C10 — the inverse, two-sided. *)
Theorem C10_inverse (A : arith) (FL : field_laws A) (m : lm A) (n : nat) :
  dense_built m -> mshape m = (n, n) ->
  (forall k, k <= n -> nonsingular k (el m)) \/
  (n = 2 /\ ssub (smul (el m 0 0) (el m 1 1)) (smul (el m 1 0) (el m 0 1)) <> s0) ->
  exists m', inverse m = Ret m' /\ mshape m' = (n, n) /\
    forall i j, i < n -> j < n ->
      bigsum n (fun k => smul (el m i k) (el m' k j)) = (if decide (i = j) then s1 else s0) /\
      bigsum n (fun k => smul (el m' i k) (el m k j)) = (if decide (i = j) then s1 else s0).
Proof.
  intros Hb Hs H. apply dense_built_wf in Hb.
  destruct (inverse_spec FL m n (el m) (rep_self m n n Hb Hs) H) as (m' & E & _ & Hs' & He).
  exists m'. auto.
Qed.
Print Assumptions C10_inverse.

(** the matrix of [C08_example] meets the hypothesis, and so does a 2 x 2 matrix with a zero
    first entry *)
Example C10_example :
  (exists m', inverse c08_m = Ret m' /\ map Qcanon.this (lm_data m') =
     map Qcanon.this [qcd 3 4; qcd (-5) 16; qcd (-3) 8; qcd 1 2; qcd (-3) 8; qcd (-1) 4; qc (-1); qc 1; qc 1]) /\
  (exists m', inverse (LM 2 2 true (map qc [0; 2; 5; 1]%Z)) = Ret m' /\ map Qcanon.this (lm_data m') =
     map Qcanon.this [qcd (-1) 10; qcd 1 5; qcd 1 2; qc 0]).
Proof. split; (eexists; split; [vm_refl|vm_refl]). Qed.

(** *** C11 — refuted: a permutation matrix, its own inverse, is "inverted" to NaN. *)
Theorem C11_refuted :
  exists m m' : lm F64_arith, dense_built m /\ mshape m = (3, 3) /\
    (p ← mmul (M3:=lm F64_arith) m m; flat p) = Ret (map fl [1; 0; 0; 0; 1; 0; 0; 0; 1]%float) /\
    inverse m = Ret m' /\ lm_data m' = replicate 9 (fl nan).
Proof.
  exists (LM 3 3 true (map fl [0; 1; 0; 1; 0; 0; 0; 0; 1]%float)). eexists.
  split; [apply dense_built_wf; reflexivity|]. split; [reflexivity|].
  split; [vm_refl|]. split; [vm_refl|]. vm_refl.
Qed.
Print Assumptions C11_refuted.

(** *** C12 — Gaussian elimination: the unique solution; wrong shapes are refused. *)
Theorem C12_gauss (A : arith) (OL : ord_laws A) (a b : lm A) (n : nat) :
  dense_built a -> dense_built b -> mshape a = (n, n) -> mshape b = (n, 1) ->
  pivots_nonzero n (el a) ->
  exists x, solve_gausselim a b = Ret (Ok x) /\ mshape x = (n, 1) /\
    (forall r, r < n -> bigsum n (fun c => smul (el a r c) (el x c 0)) = el b r 0) /\
    (forall y : nat -> A, (forall r, r < n -> bigsum n (fun c => smul (el a r c) (y c)) = el b r 0) ->
       forall i, i < n -> y i = el x i 0).
Proof.
  intros Ha Hb Hsa Hsb Hp. apply dense_built_wf in Ha, Hb.
  destruct (solve_gausselim_spec OL n a b (el a) (fun r => el b r 0) (rep_self a n n Ha Hsa)) as (x & E & _ & Hs & Hx & Hu).
  - eapply rep_ext; [exact (rep_self b n 1 Hb Hsb)|]. intros r c Hr Hc. now replace c with 0 by lia.
  - exact Hp.
  - exists x. auto.
Qed.
Print Assumptions C12_gauss.

Theorem C12_refuses (A : arith) (a b : lm A) :
  (mshape a).1 <> (mshape a).2 \/ mshape b <> ((mshape a).1, 1) ->
  solve_gausselim a b = Ret (Err SolveError).
Proof. apply solve_gausselim_refuses. Qed.
Print Assumptions C12_refuses.

Definition c12_a : lm Qc_arith := LM 2 2 true (map qc [1; 2; 3; 4]%Z).
Example C12_example : pivots_nonzero 2 (el c12_a) /\
  exists x, solve_gausselim c12_a (LM 2 1 true (map qc [5; 11]%Z)) = Ret (Ok x) /\
    map Qcanon.this (lm_data x) = map Qcanon.this (map qc [1; 2]%Z).
Proof.
  split; [|eexists; split; [vm_refl|vm_refl]].
  set (M1 := elim_step 0 1 (el c12_a)).
  exists (fun k => match k with 0 => el c12_a | 1 => M1 | _ => elim_step 1 1 M1 end).
  split; [reflexivity|]. intros [|[|k]] Hk; [exists 1|exists 1|lia].
  - split; [|split; [|reflexivity]].
    + split; [lia|]. split; [|intros; lia]. intros r Hr. assert (r = 0) as -> by lia. unfold les. vm_refl.
    + apply qc_neq. vm_refl.
  - split; [|split; [|reflexivity]].
    + split; [lia|]. split; intros; lia.
    + apply qc_neq. vm_refl.
Qed.

(** *** C13 — refuted twice: on a symmetric positive definite matrix the answer is NaN, and
    a singular matrix is answered instead of reported. *)
Definition spd_witness (A : arith) : lm A :=
  LM 3 3 true [sz 1; sz 2; sz 1; sz 2; sz 5; slit 5 2; sz 1; slit 5 2; sz 10].

Theorem C13_spd_refuted :
  (forall x y z : R, (x <> 0 \/ y <> 0 \/ z <> 0)%R ->
     (bigsum (A:=R_arith) 3 (fun i => bigsum (A:=R_arith) 3 (fun j =>
        smul (smul (el (spd_witness R_arith) i j) (nth i [x; y; z] 0%R)) (nth j [x; y; z] 0%R))) > 0)%R) /\
  (forall i j, i < 3 -> j < 3 -> el (spd_witness R_arith) i j = el (spd_witness R_arith) j i) /\
  exists x, solve_gausselim (spd_witness F64_arith) (LM 3 1 true (map fl [1; 1; 1]%float)) = Ret (Ok x) /\
    lm_data x = replicate 3 (fl nan).
Proof.
  split; [|split].
  - intros x y z H. cbn [bigsum nth].
    repeat match goal with |- context [el (spd_witness R_arith) ?i ?j] =>
      let v := eval cbn in (nth (3 * i + j) (lm_data (spd_witness R_arith)) 0%R) in
      change (el (spd_witness R_arith) i j) with v end.
    unfold slit, sz. cbn.
    match goal with |- Rgt ?e _ =>
      replace e with ((x + 2 * y + z) * (x + 2 * y + z) + (y + z / 2) * (y + z / 2) + 35 / 4 * (z * z))%R by field end.
    pose proof (Rle_0_sqr (x + 2 * y + z)) as H1. pose proof (Rle_0_sqr (y + z / 2)) as H2.
    pose proof (Rle_0_sqr z) as H3. unfold Rsqr in *.
    destruct (Req_dec z 0) as [->|Hz].
    + destruct (Req_dec y 0) as [->|Hy].
      * assert (Hx : (x <> 0)%R) by tauto. pose proof (Rsqr_pos_lt x Hx) as Hp. unfold Rsqr in Hp.
        replace ((x + 2 * 0 + 0) * (x + 2 * 0 + 0))%R with (x * x)%R in * by ring. lra.
      * pose proof (Rsqr_pos_lt y Hy) as Hp. unfold Rsqr in Hp.
        replace ((y + 0 / 2) * (y + 0 / 2))%R with (y * y)%R in * by field. lra.
    + pose proof (Rsqr_pos_lt z Hz) as Hp. unfold Rsqr in Hp. lra.
  - intros [|[|[|i]]] [|[|[|j]]] Hi Hj; try lia; reflexivity.
  - eexists. split; [vm_refl|]. vm_refl.
Qed.
Print Assumptions C13_spd_refuted.

Theorem C13_singular_refuted :
  exists (a b x : lm F64_arith), a = LM 2 2 true (map fl [1; 2; 2; 4]%float) /\
    mshape b = (2, 1) /\ solve_gausselim a b = Ret (Ok x) /\ lm_data x = [fl neg_infinity; fl infinity].
Proof.
  eexists _, (LM 2 1 true (map fl [1; 1]%float)), _. split; [reflexivity|]. split; [reflexivity|].
  split; vm_refl.
Qed.
Print Assumptions C13_singular_refuted.
