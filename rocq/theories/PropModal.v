(** C107: the pair that inverse iteration answers. *)
From Coq Require Import Floats Reals Lra Lia.
From Verif Require Import EigConv PropSolve InstR InstQc InstF64.
Local Close Scope R_scope.
Local Open Scope list_scope.

(** *** C107 — refuted in binary64: two unknowns, stiffness [[3,-1],[-1,3]], unit masses.  The frequencies
    squared are 2 and 4; asked for the lowest pair from a start vector in the cube, the search answers the value 2.79.
    The midpoint of the bracket is nearly 3, both values are nearly as far from it, and the quotient,
    still far from either, moves by less than a millionth between two steps. *)
Definition near_ops (A : arith) : list (asm A) :=
  [AddK 0 0 (sz 3); AddK 0 1 (sz (-1)); AddK 1 0 (sz (-1)); AddK 1 1 (sz 3); AddM 0 0 s1; AddM 1 1 s1].
Definition near_k (r c : nat) : R := if r =? c then 3%R else (-1)%R.
Definition near_m (r c : nat) : R := if r =? c then 1%R else 0%R.

Theorem C107_refuted :
  (forall (x : R) (u0 u1 : R), (u0 <> 0 \/ u1 <> 0)%R ->
     (near_k 0 0 * u0 + near_k 0 1 * u1 = x * (near_m 0 0 * u0 + near_m 0 1 * u1))%R ->
     (near_k 1 0 * u0 + near_k 1 1 * u1 = x * (near_m 1 0 * u0 + near_m 1 1 * u1))%R -> x = 2%R \/ x = 4%R) /\
  exists s es r p, assemble 2 (near_ops F64_arith) = Ret s /\ eigen_new hash_id s = Ret es /\
    find_eigens 5 60 60 1 (map fl [0.5; 0x1.b2ab1p-5]%float) (searcher_new es) = Ret (r, [p]) /\
    sltb (fl 2.75) (ep_value p) = true /\ sltb (ep_value p) (fl 2.8125) = true.
Proof.
  split.
  - intros x u0 u1 Hu H1 H2. unfold near_k, near_m in *. cbv [Nat.eqb] in *.
    assert (Ha : ((x - 2) * (u0 + u1) = 0)%R) by lra. assert (Hb : ((x - 4) * (u0 - u1) = 0)%R) by lra.
    apply Rmult_integral in Ha as [Ha|Ha]; [left; lra|]. apply Rmult_integral in Hb as [Hb|Hb]; [right; lra|]. exfalso. lra.
  - vm_run (assemble 2 (near_ops F64_arith)) s E. vm_run (eigen_new hash_id s) es Ees.
    vm_run (find_eigens 5 60 60 1 (map fl [0.5; 0x1.b2ab1p-5]%float) (searcher_new es)) rl Er.
    exists s, es, rl.1, (nth 0 rl.2 (EPair s0 [])). split; [exact E|]. split; [exact Ees|]. split; [rewrite Er; vm_refl|]. split; vm_refl.
Qed.
Print Assumptions C107_refuted.

(** over the reals, from any start with a share in the nearest value, the iteration ends; the error of the value and the share of
    every other vector fall with the third and second power of the ratio of the distances to the shift.
    [g j] is the share of vector [j] in the start [w], which is the drawn vector in the caller's numbering. *)
Theorem C107_converges_partial (ho : hash_oracle R_arith) (s : system R_arith) (n : nat) (v : nat -> nat -> R_arith) (lam : nat -> R_arith) :
  eigen_ready s n -> oracle_ok ho -> gen_eigs n (k_at s) (m_at s) v lam -> exists es, eigen_new ho s = Ret es /\
  forall (rnd w : list R_arith) (mu : R) d (i0 : nat) (q : R),
    pivots_at es (mu : R_arith) d -> (forall c, c < n -> vel d c <> s0) -> length rnd = n ->
    (forall i, i < n -> w !! pf (es_perm es) i = rnd !! i) ->
    let g : nat -> R := fun j => bigsum n (fun r => v r j * mv n (m_at s) (vel w) r)%A in
    let sq : nat -> R := fun j => bigsum n (fun r => v r j * mv n (m_at s) (fun c => v c j) r)%A in
    i0 < n -> g i0 <> 0%R -> (0 <= q < 1)%R ->
    (forall j, j < n -> g j <> 0%R -> lam j <> lam i0 -> (Rabs ((lam i0 : R) - mu) <= q * Rabs ((lam j : R) - mu))%R) ->
    exists fi0 p u, (forall fi, fi0 <= fi -> inverse_iterate fi rnd (es_k es) (es_m es) (mu : R_arith) None = Ret p) /\
      ep_permute (es_perm es) p = Ret u /\ length (ep_vec u) = n /\
      (Rabs ((ep_value u : R) - lam i0) <= Rabs ((lam i0 : R) - mu) * (2 * rsum n (fun j => g j * g j / sq j) / (g i0 * g i0 / sq i0)) * q ^ 3)%R /\
      forall j, j < n -> lam j <> lam i0 ->
        let gu : nat -> R := fun j => bigsum n (fun r => v r j * mv n (m_at s) (vel (ep_vec u)) r)%A in
        (Rabs (gu j) * Rabs (g i0) <= q ^ 2 * Rabs (g j) * Rabs (gu i0))%R.
Proof.
  intros Hr Ho HG. destruct (eigen_ready_es R_ord_laws ho s n Hr Ho) as (es & E & W & Hok). exists es. split; [exact E|].
  intros rnd w mu d i0 q Hp Hnz Hl Hw g sq Hi0 Hg Hq Hap.
  pose proof (gen_eigs_permute R_ord_laws n (es_perm es) _ _ v lam W HG) as HG'.
  set (v' := fun r j => v (pf (es_perm es) r) j) in *. set (m' := fun r c => m_at s (pf (es_perm es) r) (pf (es_perm es) c)) in *.
  assert (Hgg : forall j, (gco n v' (mv n m' (vel rnd)) j : R) = g j) by (intros j; apply (gco_permute R_ord_laws n (es_perm es) (m_at s) v rnd w j W Hl Hw)).
  assert (Hss : forall j, (nrm n m' v' j : R) = sq j) by (intros j; apply (nrm_permute R_ord_laws n (es_perm es) (m_at s) v j W)).
  destruct (inverse_iterate_conv es n _ m' v' lam mu d rnd None rnd i0 q Hok HG' Hp Hnz eq_refl Hl Hi0) as (fi0 & p & Hrun & Hlp & Hval & Hvec).
  { now rewrite Hgg. } { exact Hq. } { intros j Hj Hgj Hne. apply Hap; [exact Hj|now rewrite <- Hgg|exact Hne]. }
  destruct (permute_slice_ret n (es_perm es) (ep_vec p) W Hlp) as (u & Eu & Hlu & Hu).
  exists fi0, p, (EPair (ep_value p) u). split; [exact Hrun|]. split; [unfold ep_permute; now rewrite Eu|]. cbn [ep_vec ep_value]. split; [exact Hlu|].
  split.
  - apply Rle_trans with (1 := Hval). right. f_equal. f_equal. unfold share, iwt. rewrite Hgg, Hss. f_equal. f_equal. apply rsum_ext. intros j Hj. now rewrite Hgg, Hss.
  - intros j Hj Hne. pose proof (Hvec j Hj Hne) as H. rewrite !Hgg in H.
    rewrite !(gco_permute R_ord_laws n (es_perm es) (m_at s) v (ep_vec p) u _ W Hlp Hu) in H. exact H.
Qed.
Print Assumptions C107_converges_partial.

(** a bracket around exactly one value has a midpoint nearer to it than to any other: the first pair of the search *)
Theorem C107_bracket_partial (ho : hash_oracle R_arith) (s : system R_arith) (n : nat) (v : nat -> nat -> R_arith) (lam : nat -> R_arith) :
  eigen_ready s n -> oracle_ok ho -> gen_eigs n (k_at s) (m_at s) v lam -> exists es, eigen_new ho s = Ret es /\
  forall (rnd w : list R_arith) (lo up : R) d mus (i0 : nat),
    i0 < n -> (lo < lam i0 < up)%R -> (forall j, j < n -> j <> i0 -> (lam j <= lo \/ up <= lam j)%R) ->
    pivots_at es ((lo + up) / 2 : R)%R d -> (forall c, c < n -> vel d c <> s0) -> length rnd = n ->
    (forall i, i < n -> w !! pf (es_perm es) i = rnd !! i) ->
    let g : nat -> R := fun j => bigsum n (fun r => v r j * mv n (m_at s) (vel w) r)%A in
    g i0 <> 0%R ->
    let sq : nat -> R := fun j => bigsum n (fun r => v r j * mv n (m_at s) (fun c => v c j) r)%A in
    let e := Rabs ((lam i0 : R) - (lo + up) / 2) in
    exists fi0 p, (forall fi, fi0 <= fi -> process_one fi rnd (Searcher es [] mus) (lo : R_arith) (up : R_arith) = Ret (Searcher es [p] mus)) /\
      (Rabs ((ep_value p : R) - lam i0) <= e * (2 * rsum n (fun j => g j * g j / sq j) / (g i0 * g i0 / sq i0)) * (e / ((up - lo) / 2)) ^ 3)%R /\ (e < (up - lo) / 2)%R.
Proof.
  intros Hr Ho HG. destruct (C107_converges_partial ho s n v lam Hr Ho HG) as (es & E & H). exists es. split; [exact E|].
  intros rnd w lo up d mus i0 Hi0 Hin Hout Hp Hnz Hl Hw g Hg sq e.
  set (h := ((up - lo) / 2)%R). assert (He : (0 <= e < h)%R).
  { split; [apply Rabs_pos|]. unfold e, h. apply Rabs_def1; lra. }
  assert (Hh : (h <> 0)%R) by lra.
  assert (Hq : (0 <= e / h < 1)%R).
  { split; [apply Rmult_le_pos; [lra|left; apply Rinv_0_lt_compat; lra]|]. apply (Rmult_lt_reg_r h); [lra|]. unfold Rdiv. rewrite Rmult_assoc, Rinv_l by lra. lra. }
  destruct (H rnd w ((lo + up) / 2)%R d i0 (e / h)%R Hp Hnz Hl Hw Hi0 Hg Hq) as (fi0 & p & u & Hrun & Eu & _ & Hval & _).
  { intros j Hj _ Hne. fold e. assert (Hjh : (h <= Rabs ((lam j : R) - (lo + up) / 2))%R).
    { destruct (Hout j Hj ltac:(congruence)) as [Hj'|Hj']; unfold h; [rewrite Rabs_left1; lra|rewrite Rabs_right; lra]. }
    apply Rle_trans with (e / h * h)%R; [right; field; exact Hh|apply Rmult_le_compat_l; [apply Hq|exact Hjh]]. }
  exists fi0, p. split; [|split; [|apply He]].
  - intros fi Hfi. unfold process_one. cbn [se_sys se_pairs se_mus gso_slice]. rewrite mid_R. rewrite Hrun by exact Hfi. reflexivity.
  - assert (Ev : ep_value u = ep_value p).
    { unfold ep_permute in Eu. apply bind_ret_inv in Eu as (z & _ & Eu). injection Eu as <-. reflexivity. }
    rewrite Ev in Hval. exact Hval.
Qed.
Print Assumptions C107_bracket_partial.

(** two masses with the values 1 and 3, drawn vector (1, 0): the bracket (1/2, 2) meets the hypotheses *)
Example C107_example : exists s es d, assemble 2 (pair_ops R_arith) = Ret s /\ eigen_ready s 2 /\
  gen_eigs 2 (k_at s) (m_at s) v2 lam2 /\ eigen_new hash_id s = Ret es /\
  (1/2 < lam2 0%nat < 2)%R /\ (forall j, j < 2 -> j <> 0 -> (lam2 j <= 1/2 \/ 2 <= lam2 j)%R) /\
  pivots_at es ((1/2 + 2) / 2 : R)%R d /\ (forall c, c < 2 -> vel d c <> (0%R : R_arith)) /\
  exists w : list R_arith, (forall i, i < 2 -> w !! pf (es_perm es) i = [1%R : R_arith; 0%R : R_arith] !! i) /\
    (bigsum 2 (fun r => v2 r 0 * mv 2 (m_at s) (vel w) r)%A : R) = 1%R.
Proof.
  destruct (proj1 (C26_assembly R_arith R_field_laws 2 (pair_ops R_arith))) as (s & E & Hn & Hk & Hm & _).
  { intros o Ho. repeat (apply elem_of_cons in Ho as [->|Ho]; [cbn; lia|]). now apply elem_of_nil in Ho. }
  assert (HK : forall r c, r < 2 -> c < 2 -> k_at s r c = k2 r c /\ m_at s r c = m3 r c).
  { intros r c Hr Hc. rewrite Hk, Hm. clear -Hr Hc. unfold k2, m3, ssum, k_vals, m_vals.
    destruct r as [|[|r]]; destruct c as [|[|c]]; try lia; cbn; cbv [Nat.eqb andb app fold_left]; split; lra. }
  assert (Hr : eigen_ready s 2) by (apply (uni_ready 2 (pair_ops R_arith) s 2%R (-1)%R 1%R E); [lia|lra..|exact HK]).
  destruct (eigen_ready_es R_ord_laws hash_id s 2 Hr hash_id_ok) as (es & Ees & W & Hok0).
  destruct (uni_es 2 hash_id s 2%R (-1)%R 1%R hash_id_ok Hr HK) as (es' & Ees' & Hok). rewrite Ees in Ees'. injection Ees' as <-.
  destruct (pivots_exist R_ord_laws es 2 k2 m3 ((1/2 + 2) / 2)%R Hok) as (d & Hp & _ & _).
  exists s, es, d. split; [exact E|]. split; [exact Hr|]. split; [apply (gen_eigs_ext 2 k2 m3); [intros r c H1 H2; now apply HK..|exact gen2]|].
  split; [exact Ees|]. split; [cbn; lra|]. split; [intros [|[|j]] Hj H0; try lia; cbn; lra|]. split; [exact Hp|].
  split.
  - destruct Hp as (a & l & Ea & El).
    destruct (shifted_ret R_field_laws es 2 k2 m3 ((1/2 + 2) / 2)%R Hok) as (a' & Ea' & Wa & Hna & Hsel). rewrite Ea in Ea'. injection Ea' as <-.
    destruct (ldl_inv_all R_field_laws a Wa) as (ld & El' & HI). rewrite El in El'. injection El' as <-.
    destruct HI as (_ & _ & _ & _ & _ & H2 & H3). cbn [fst snd dg_data] in *. rewrite Hna in *.
    assert (A0 : el a 0 0 = (2 - (1/2 + 2) / 2 * 1)%R) by exact (Hsel 0 0 ltac:(lia) ltac:(lia)).
    assert (A1 : el a 1 0 = (-1 - (1/2 + 2) / 2 * 0)%R) by exact (Hsel 1 0 ltac:(lia) ltac:(lia)).
    assert (A2 : el a 1 1 = (2 - (1/2 + 2) / 2 * 1)%R) by exact (Hsel 1 1 ltac:(lia) ltac:(lia)).
    assert (Hd0 : (vel d 0 : R) = (2 - (1/2 + 2) / 2 * 1 - 0)%R).
    { rewrite (H2 0 ltac:(lia)). rewrite A0. reflexivity. }
    assert (Hl0 : (0 + el l 1 0 * vel d 0 = -1 - (1/2 + 2) / 2 * 0)%R).
    { transitivity (el a 1 0); [|exact A1]. apply (H3 0 1 ltac:(lia) ltac:(lia)). rewrite Hd0. cbn. lra. }
    assert (Hd1 : (vel d 1 : R) = (2 - (1/2 + 2) / 2 * 1 - (0 + el l 1 0 * el l 1 0 * vel d 0))%R).
    { rewrite (H2 1 ltac:(lia)). rewrite A2. reflexivity. }
    assert (Hl : (el l 1 0 : R) = (-4/3)%R) by (rewrite Hd0 in Hl0; change (carrier R_arith) with R in *; lra). rewrite Hl, Hd0 in Hd1.
    intros [|[|c]] Hc; [rewrite Hd0|rewrite Hd1|lia]; change (carrier R_arith) with R; lra.
  - destruct (permute_slice_ret 2 (es_perm es) [1%R : R_arith; 0%R : R_arith] W eq_refl) as (w & _ & _ & Hw). exists w. split; [exact Hw|].
    transitivity (bigsum (A := R_arith) 2 (vel w)).
    + apply (bigsum_ext (A := R_arith)). intros r H. unfold mv, bigsum. rewrite (proj2 (HK r 0 H ltac:(lia))), (proj2 (HK r 1 H ltac:(lia))).
      destruct r as [|[|r]]; try lia; unfold v2, m3; cbv [Nat.eqb]; cbn; lra.
    + rewrite <- (bigsum_permute R_ord_laws 2 (es_perm es) (vel w) W).
      transitivity (bigsum (A := R_arith) 2 (vel [1%R : R_arith; 0%R : R_arith])); [|cbn; lra].
      apply (bigsum_ext (A := R_arith)). intros r H. exact (vel_permuted 2 (es_perm es) [1%R : R_arith; 0%R : R_arith] w W eq_refl Hw r H).
Qed.
