(** C26 - C31: assembling and solving linear systems. *)
From Coq Require Import Floats Reals Lra.
From Verif Require Import GsProofs PropFactor PropInverse InstR InstQc InstF64.

(** the systems a program can have built before any reordering *)
Inductive sys_built {A : arith} : system A -> Prop :=
| built_asm n ops s : assemble n ops = Ret s -> sys_built s
| built_kr (k r : lm A) s : dense_built k -> dense_built r -> from_kr nzs k r = Ret s -> sys_built s.

Lemma sys_built_wf {A : arith} (FL : field_laws A) (s : system A) : sys_built s -> sys_wf s /\ sy_perm s = None.
Proof.
  intros [n ops s' E|k r s' Hk Hr E].
  - assert (D : forall o, o ∈ ops -> asm_ok n o).
    { intros o Ho. assert (Hd : asm_ok n o \/ ~ asm_ok n o) by (destruct o; cbn; lia). destruct Hd as [|Hd]; [assumption|].
      rewrite (assemble_panic FL n ops) in E by eauto. discriminate. }
    destruct (assemble_pre FL n ops D) as (s2 & E2 & W & _ & Hp & _). assert (s2 = s') as -> by congruence. auto.
  - apply dense_built_wf in Hk, Hr.
    assert (Hs : mshape k = ((mshape k).1, (mshape k).1) /\ mshape r = ((mshape k).1, 1)).
    { unfold from_kr in E. destruct (mshape k) as [a b], (mshape r) as [c d]. cbn [fst snd] in *.
      destruct (Nat.eqb_spec a b), (Nat.eqb_spec a c), (Nat.eqb_spec d 1); cbn [negb orb] in E; try discriminate. now subst. }
    destruct Hs as [Hs1 Hs2].
    destruct (from_kr_ret FL _ _ lm_laws _ _ lm_laws k r _ Hk Hr Hs1 Hs2) as (s2 & E2 & W & _ & Hp & _).
    assert (s2 = s') as -> by congruence. auto.
Qed.

(** *** C26 — assembly adds up. *)
Theorem C26_assembly (A : arith) (FL : field_laws A) (n : nat) (ops : list (asm A)) :
  ((forall o, o ∈ ops -> asm_ok n o) -> exists s, assemble n ops = Ret s /\ sy_dofs s = n /\
     (forall r c, k_at s r c = ssum (k_vals r c ops)) /\
     (forall r c, m_at s r c = ssum (m_vals r c ops)) /\
     (forall i, r_at s i = ssum (r_vals i ops))) /\
  ((exists o, o ∈ ops /\ ~ asm_ok n o) -> assemble n ops = Panic).
Proof.
  split; [|apply (assemble_panic FL)]. intros H.
  destruct (assemble_pre FL n ops H) as (s & E & _ & Hn & _ & Hk & Hm & Hr). exists s. auto.
Qed.
Print Assumptions C26_assembly.
(** the order of the additions does not matter *)
Theorem C26_order (A : arith) (FL : field_laws A) (n : nat) (ops ops' : list (asm A)) s s' :
  ops ≡ₚ ops' -> assemble n ops = Ret s -> assemble n ops' = Ret s' ->
  (forall r c, k_at s r c = k_at s' r c) /\ (forall r c, m_at s r c = m_at s' r c) /\ (forall i, r_at s i = r_at s' i).
Proof.
  intros Hp E E'.
  assert (D : forall o, o ∈ ops -> asm_ok n o).
  { intros o Ho. assert (Hd : asm_ok n o \/ ~ asm_ok n o) by (destruct o; cbn; lia). destruct Hd as [|Hd]; [assumption|].
    rewrite (assemble_panic FL n ops) in E by eauto. discriminate. }
  destruct (assemble_pre FL n ops D) as (t & Et & _ & _ & _ & Hk & Hm & Hr). assert (t = s) as -> by congruence.
  destruct (assemble_pre FL n ops') as (t' & Et' & _ & _ & _ & Hk' & Hm' & Hr'); [intros o Ho; apply D; now rewrite Hp|].
  assert (t' = s') as -> by congruence.
  split; [|split]; intros; rewrite ?Hk, ?Hk', ?Hm, ?Hm', ?Hr, ?Hr'; apply (ssum_perm FL);
    unfold k_vals, m_vals, r_vals; now rewrite Hp.
Qed.
Print Assumptions C26_order.
(** building a system from whole matrices *)
Theorem C26_from_matrices (A : arith) (FL : field_laws A) (k r : lm A) (n : nat) :
  dense_built k -> dense_built r -> mshape k = (n, n) -> mshape r = (n, 1) ->
  exists s, from_kr nzs k r = Ret s /\ sy_dofs s = n /\ (forall i j, k_at s i j = el k i j) /\
    (forall i j, m_at s i j = s0) /\ (forall i, i < n -> r_at s i = el r i 0).
Proof.
  intros Hk Hr Hs Hsr. apply dense_built_wf in Hk, Hr.
  destruct (from_kr_ret FL _ _ lm_laws _ _ lm_laws k r n Hk Hr Hs Hsr) as (s & E & _ & Hn & _ & Hm & (d & Ed & Hd & _) & (v & Ev & _ & Hv)).
  exists s. split; [exact E|]. split; [exact Hn|]. unfold k_at, m_at, r_at. rewrite Ed, Ev, Hm. auto.
Qed.
Print Assumptions C26_from_matrices.

Definition spring {A : arith} (a b : nat) (k : A) : list (asm A) :=
  [AddK a a k; AddK b b k; AddK a b (sneg k); AddK b a (sneg k)].
(** three unknowns in a chain, grounded at the first, loaded at the last; the third
    unknown is in the middle of the chain *)
Definition chain (A : arith) : list (asm A) :=
  spring 0 2 s1 ++ spring 2 1 s1 ++ [AddK 0 0 s1; AddR 1 s1; AddR 0 s0; AddR 1 s1; AddM 1 1 s1].
Example C26_example : (forall o, o ∈ chain Qc_arith -> asm_ok 3 o) /\
  exists s, assemble 3 (chain Qc_arith) = Ret s /\
    map (fun rc => k_at s rc.1 rc.2) [(0,0);(0,1);(0,2);(1,0);(1,1);(1,2);(2,0);(2,1);(2,2)]
      = map qc [2; 0; -1; 0; 1; -1; -1; -1; 2]%Z /\
    map (r_at s) [0; 1; 2] = map qc [0; 2; 0]%Z /\ m_at s 1 1 = qc 1 /\
    assemble 3 (AddK 3 0 s1 :: chain Qc_arith) = Panic.
Proof.
  split.
  - intros o Ho. repeat (apply elem_of_cons in Ho as [->|Ho]; [cbn; lia|]). now apply elem_of_nil in Ho.
  - vm_run (assemble 3 (chain Qc_arith)) s E. exists s. split; [exact E|].
    revert E. intros _. repeat split; vm_refl.
Qed.

(** *** C27 — the envelope Cholesky solver, end to end, for every outcome of hash ordering. *)
Theorem C27_solver (s : system R_arith) (ho : hash_oracle R_arith) (n : nat) :
  sys_built s -> oracle_ok ho -> sy_dofs s = n -> 2 <= n -> sy_rhs s <> None ->
  (forall i j, i < n -> j < n -> k_at s i j = k_at s j i) -> connected n (k_at s) -> posdef n (k_at s) ->
  exists x, cholesky_solver ho s = Ret (Ok x) /\ length x = n /\
    (forall i, i < n -> mv n (k_at s) (vel x) i = r_at s i) /\
    (forall y, (forall i, i < n -> mv n (k_at s) y i = r_at s i) -> forall i, i < n -> y i = vel x i).
Proof.
  intros Hb Ho Hn H2 Hr Hsym Hcon HP. destruct (sys_built_wf R_field_laws s Hb) as [W Hp].
  destruct (sy_rhs s) as [rv|] eqn:Er; [|congruence]. destruct (sy_k s) as [k|] eqn:Ek.
  - unfold k_at, r_at in *. rewrite Ek, Er in *.
    destruct (cholesky_solver_ret R_ord_laws R_sqrt_law ho s k rv n Ho W Hn Hp Ek Er H2 Hsym Hcon HP) as (x & E & Hl & Hx).
    exists x. split; [exact E|]. split; [exact Hl|]. split; [exact Hx|]. intros y Hy.
    apply (posdef_unique R_ord_laws n (el k) y (vel x) HP). intros i Hi. rewrite Hx, Hy by exact Hi. reflexivity.
  - exfalso. pose proof (Hcon 0 1 ltac:(lia) ltac:(lia)) as Hc. inversion Hc as [|x y z (_ & _ & _ & Hne) _].
    apply Hne. unfold k_at. now rewrite Ek.
Qed.
Print Assumptions C27_solver.
Definition hash_id {A : arith} : hash_oracle A := fun _ m => map_to_list m.
Definition hash_rev {A : arith} : hash_oracle A := fun t m => if Nat.even t then rev (map_to_list m) else map_to_list m.
Lemma hash_id_ok {A : arith} : oracle_ok (A := A) hash_id.
Proof. intros t m. reflexivity. Qed.
Lemma hash_rev_ok {A : arith} : oracle_ok (A := A) hash_rev.
Proof. intros t m. unfold hash_rev. destruct (Nat.even t); [symmetry; apply Permutation_rev|reflexivity]. Qed.

Ltac ssum_R := unfold ssum, k_vals; cbn; cbv [Nat.eqb andb app fold_left]; ring.
Lemma chain_k (s : system R_arith) : assemble 3 (chain R_arith) = Ret s ->
  (k_at s 0 0 = 2 /\ k_at s 0 1 = 0 /\ k_at s 0 2 = -1 /\ k_at s 1 0 = 0 /\ k_at s 1 1 = 1 /\ k_at s 1 2 = -1 /\
   k_at s 2 0 = -1 /\ k_at s 2 1 = -1 /\ k_at s 2 2 = 2)%R.
Proof.
  intros E. destruct (proj1 (C26_assembly R_arith R_field_laws 3 (chain R_arith))) as (s' & E' & _ & Hk & _).
  - intros o Ho. repeat (apply elem_of_cons in Ho as [->|Ho]; [cbn; lia|]). now apply elem_of_nil in Ho.
  - assert (s' = s) as -> by congruence. rewrite !Hk. repeat split; ssum_R.
Qed.
Example C27_example : exists s, assemble 3 (chain R_arith) = Ret s /\ sys_built s /\ sy_dofs s = 3 /\ sy_rhs s <> None /\
  (forall i j, i < 3 -> j < 3 -> k_at s i j = k_at s j i) /\ connected 3 (k_at s) /\ posdef 3 (k_at s) /\
  exists sf, assemble 3 (chain F64_arith) = Ret sf /\
    cholesky_solver hash_id sf = Ret (Ok (map fl [2; 6; 4]%float)) /\
    cholesky_solver hash_rev sf = Ret (Ok (map fl [2; 6; 4]%float)).
Proof.
  destruct (proj1 (C26_assembly R_arith R_field_laws 3 (chain R_arith))) as (s & E & Hn & _ & _ & Hrhs).
  { intros o Ho. repeat (apply elem_of_cons in Ho as [->|Ho]; [cbn; lia|]). now apply elem_of_nil in Ho. }
  exists s. split; [exact E|]. split; [now apply (built_asm 3 (chain R_arith))|]. split; [exact Hn|].
  destruct (chain_k s E) as (K00 & K01 & K02 & K10 & K11 & K12 & K20 & K21 & K22).
  split; [|split; [|split; [|split]]].
  - intros Hc. specialize (Hrhs 1). unfold r_at, ssum, r_vals in Hrhs. rewrite Hc in Hrhs. cbn in Hrhs. cbv [Nat.eqb andb app fold_left] in Hrhs. lra.
  - intros [|[|[|i]]] [|[|[|j]]] Hi Hj; try lia; try reflexivity; congruence.
  - assert (H1 : forall a b, a < 3 -> b < 3 -> a <> b -> k_at s a b = (-1)%R -> rtc (coupled 3 (k_at s)) a b).
    { intros a b Ha Hb Hne He. apply rtc_once. split; [exact Ha|]. split; [exact Hb|]. split; [exact Hne|]. rewrite He. cbn. lra. }
    assert (H02 := H1 0 2 ltac:(lia) ltac:(lia) ltac:(lia) K02). assert (H20 := H1 2 0 ltac:(lia) ltac:(lia) ltac:(lia) K20).
    assert (H12 := H1 1 2 ltac:(lia) ltac:(lia) ltac:(lia) K12). assert (H21 := H1 2 1 ltac:(lia) ltac:(lia) ltac:(lia) K21).
    intros [|[|[|i]]] [|[|[|j]]] Hi Hj; try lia; try reflexivity; try assumption.
    + etransitivity; eassumption.
    + etransitivity; eassumption.
  - intros x (i & Hi & Hx). apply R_ltb_iff. cbn [bigsum mv].
    rewrite K00, K01, K02, K10, K11, K12, K20, K21, K22. cbn. cbn in Hx.
    assert (Hq : forall a b c : R, (a <> 0 \/ b <> 0 \/ c <> 0 -> 0 < a * a + (a - c) * (a - c) + (c - b) * (c - b))%R).
    { intros a b c Habc. pose proof (Rle_0_sqr a) as Q1. pose proof (Rle_0_sqr (a - c)) as Q2. pose proof (Rle_0_sqr (c - b)) as Q3.
      unfold Rsqr in *. destruct (Req_dec a 0) as [Ha|Ha]; [|pose proof (Rsqr_pos_lt a Ha); unfold Rsqr in *; lra].
      destruct (Req_dec c 0) as [Hc|Hc].
      - assert (Hb : b <> 0%R) by tauto. assert (Hcb : (c - b <> 0)%R) by lra. pose proof (Rsqr_pos_lt _ Hcb). unfold Rsqr in *. lra.
      - assert (Hac : (a - c <> 0)%R) by lra. pose proof (Rsqr_pos_lt _ Hac). unfold Rsqr in *. lra. }
    match goal with |- (0 < ?e)%R => replace e with (x 0%nat * x 0%nat + (x 0%nat - x 2%nat) * (x 0%nat - x 2%nat) + (x 2%nat - x 1%nat) * (x 2%nat - x 1%nat))%R by ring end.
    clear E Hrhs. apply Hq. destruct i as [|[|[|i]]]; [left; exact Hx|right; left; exact Hx|right; right; exact Hx|clear -Hi; lia].
  - vm_run (assemble 3 (chain F64_arith)) sf Ef. exists sf. split; [exact Ef|]. split; vm_refl.
Qed.

(** *** C28 — refuted: systems with one unknown, or falling into unlinked parts, make the
    solver panic, whatever the hash order. *)
Theorem C28_refuted : exists (n : nat) (ops : list (asm R_arith)) s, assemble n ops = Ret s /\ sy_dofs s = n /\
  sy_rhs s <> None /\ (forall i j, k_at s i j = k_at s j i) /\ posdef n (k_at s) /\
  forall ho, oracle_ok ho -> cholesky_solver ho s = Panic.
Proof.
  set (ops := [AddK 0 0 s1; AddR 0 s1] : list (asm R_arith)).
  destruct (assemble_pre R_field_laws 1 ops) as (s & E & W & Hn & _ & Hk & _ & Hr).
  { intros o Ho. repeat (apply elem_of_cons in Ho as [->|Ho]; [cbn; lia|]). now apply elem_of_nil in Ho. }
  assert (H0 : k_at s 0 0 = 1%R) by (rewrite Hk; ssum_R).
  assert (H1 : forall i j, i <> 0 \/ j <> 0 -> k_at s i j = 0%R).
  { intros i j Hij. rewrite Hk. unfold k_vals, ops. cbn [flat_map app].
    destruct ((0 =? i) && (0 =? j)) eqn:Eb; [|reflexivity]. apply andb_true_iff in Eb as [E1 E2]. apply Nat.eqb_eq in E1, E2. lia. }
  exists 1, ops, s. split; [exact E|]. split; [exact Hn|]. split; [|split; [|split]].
  - intros Hc. specialize (Hr 0). unfold r_at, ssum, r_vals in Hr. rewrite Hc in Hr. cbn in Hr. cbv [Nat.eqb andb app fold_left] in Hr. lra.
  - intros [|i] [|j]; try reflexivity; rewrite !H1; auto.
  - intros x (i & Hi & Hx). apply R_ltb_iff. cbn [bigsum mv]. rewrite H0. cbn. cbn in Hx.
    assert (i = 0) as -> by lia. pose proof (Rsqr_pos_lt _ Hx) as Hp. unfold Rsqr in Hp. lra.
  - intros ho Ho. destruct (sy_k s) as [k|] eqn:Ek.
    + apply (cholesky_solver_small ho s k 1 Ho W Hn Ek). lia.
    + exfalso. unfold k_at in H0. rewrite Ek in H0. cbn in H0. lra.
Qed.
Print Assumptions C28_refuted.
(** any system whose unknowns fall into two parts not linked by a stored coefficient *)
Theorem C28_disconnected (A : arith) (FL : field_laws A) (s : system A) ho (k : dict A) (part : nat -> bool) :
  sys_built s -> oracle_ok ho -> sy_k s = Some k -> sy_rhs s <> None ->
  (forall r c, r < c -> is_Some (d_data k !! (r, c)) -> part r = part c) ->
  (exists i j, i < sy_dofs s /\ j < sy_dofs s /\ part i = true /\ part j = false) ->
  cholesky_solver ho s = Panic.
Proof.
  intros Hb Ho Hk Hr Hp Hij. destruct (sys_built_wf FL s Hb) as [W _]. destruct (sy_rhs s) as [rv|] eqn:Er; [|congruence].
  now apply (cholesky_solver_split ho s k rv (sy_dofs s) part).
Qed.
Print Assumptions C28_disconnected.
Theorem C28_one_unknown (A : arith) (FL : field_laws A) (s : system A) ho :
  sys_built s -> oracle_ok ho -> sy_k s <> None -> sy_dofs s <= 1 -> cholesky_solver ho s = Panic.
Proof.
  intros Hb Ho Hk H1. destruct (sys_built_wf FL s Hb) as [W _]. destruct (sy_k s) as [k|] eqn:Ek; [|congruence].
  now apply (cholesky_solver_small ho s k (sy_dofs s)).
Qed.
Print Assumptions C28_one_unknown.
(** two springs to the ground: positive definite, diagonal, refused *)
Example C28_example : exists s k, assemble 2 [AddK 0 0 (qc 1); AddK 1 1 (qc 2); AddR 0 (qc 1); AddR 1 (qc 1)] = Ret s /\
  sy_k s = Some k /\ sy_rhs s <> None /\ (forall r c, is_Some (d_data k !! (r, c)) -> (r =? 0) = (c =? 0)) /\
  dense_gauss s = Ret (Ok [qc 1; qcd 1 2]) /\ cholesky_solver hash_id s = Panic.
Proof.
  vm_run (assemble (A := Qc_arith) 2 [AddK 0 0 (qc 1); AddK 1 1 (qc 2); AddR 0 (qc 1); AddR 1 (qc 1)]) s E.
  exists s. eexists. split; [exact E|]. split; [reflexivity|]. split; [discriminate|]. split; [|split; vm_refl].
  intros r c (v & Hv). apply elem_of_map_to_list, elem_of_list_In in Hv. cbn in Hv.
  repeat (destruct Hv as [Hv|Hv]; [injection Hv as <- <- _; reflexivity|]). now destruct Hv.
Qed.

(** *** C29 — refuted once reordering was requested: the dense solver then answers in the
    new numbering and the Cholesky solver panics. *)
Theorem C29_refuted : exists (s s' : system Qc_arith) x y,
  assemble 3 (chain Qc_arith) = Ret s /\ reduce_envelope hash_id 0 s = Ret s' /\
  dense_gauss s = Ret (Ok x) /\ dense_gauss s' = Ret (Ok y) /\ x = map qc [2; 6; 4]%Z /\ y = map qc [6; 4; 2]%Z /\
  (forall ho, cholesky_solver ho s' = Panic).
Proof.
  vm_run (assemble 3 (chain Qc_arith)) s E. vm_run (reduce_envelope hash_id 0 s) s' E'.
  exists s, s', (map qc [2; 6; 4]%Z), (map qc [6; 4; 2]%Z).
  split; [exact E|]. split; [exact E'|]. split; [vm_refl|]. split; [vm_refl|]. split; [reflexivity|]. split; [reflexivity|].
  intros ho. now apply (cholesky_solver_double ho s' _ eq_refl).
Qed.
Print Assumptions C29_refuted.
(** the Cholesky solver refuses every reordered system *)
Theorem C29_double (A : arith) (s : system A) ho : sy_perm s <> None -> cholesky_solver ho s = Panic.
Proof. intros H. destruct (sy_perm s) as [p|] eqn:E; [|congruence]. now apply (cholesky_solver_double ho s p). Qed.
Print Assumptions C29_double.
(** without reordering the two direct solvers agree, where elimination meets no zero pivot *)
Theorem C29_agree (s : system R_arith) ho n :
  sys_built s -> oracle_ok ho -> sy_dofs s = n -> 2 <= n -> sy_rhs s <> None ->
  (forall i j, i < n -> j < n -> k_at s i j = k_at s j i) -> connected n (k_at s) -> posdef n (k_at s) ->
  pivots_nonzero n (k_at s) ->
  exists x, cholesky_solver ho s = Ret (Ok x) /\ dense_gauss s = Ret (Ok x).
Proof.
  intros Hb Ho Hn H2 Hr Hsym Hcon HP Hpv.
  destruct (C27_solver s ho n Hb Ho Hn H2 Hr Hsym Hcon HP) as (x & E & Hl & Hx & Hu).
  destruct (sys_built_wf R_field_laws s Hb) as [(Wk & _ & Wr) _]. unfold k_at, r_at in *.
  destruct (sy_rhs s) as [rv|] eqn:Er; [|congruence]. destruct (sy_k s) as [k|] eqn:Ek.
  - rewrite Hn in Wk, Wr. destruct Wk as [Wk Hs].
    destruct (dense_gauss_ret R_ord_laws s k rv n Wk Hs Ek Er Wr Hpv) as (y & Ey & Hly & Hy).
    exists x. split; [exact E|]. rewrite Ey. do 2 f_equal. apply vel_ext; [congruence|]. intros i Hi. apply Hu; [exact Hy|lia].
  - exfalso. pose proof (Hcon 0 1 ltac:(lia) ltac:(lia)) as Hc. inversion Hc as [|a y z (_ & _ & _ & Hne) _]. now apply Hne.
Qed.
Print Assumptions C29_agree.
(** reordering renumbers the system: coefficients and loads are those of the old numbers *)
Theorem C29_reduce (A : arith) (FL : field_laws A) (s : system A) ho t n :
  sys_built s -> oracle_ok ho -> sy_dofs s = n -> 2 <= n ->
  (forall i j, i < n -> j < n -> k_at s i j = k_at s j i) -> connected n (k_at s) ->
  exists s' p, reduce_envelope ho t s = Ret s' /\ sy_perm s' = Some p /\ perm_wf n p /\ sy_dofs s' = n /\
    (forall i j, i < n -> j < n -> k_at s' (pf p i) (pf p j) = k_at s i j) /\
    (forall i, i < n -> r_at s' (pf p i) = r_at s i).
Proof.
  intros Hb Ho Hn H2 Hsym Hcon. destruct (sys_built_wf FL s Hb) as [W Hp]. unfold k_at, r_at in *.
  destruct (sy_k s) as [k|] eqn:Ek.
  - destruct (reduce_envelope_ret ho t s k n Ho W Hn Hp Ek H2 Hsym Hcon) as (k' & m' & r' & p & E & Wp & _ & _ & Hel & Hr).
    exists (Sys n (Some k') m' r' (Some p)), p. split; [exact E|]. split; [reflexivity|]. split; [exact Wp|]. split; [reflexivity|].
    cbn. split; [intros i j Hi Hj; now apply Hel|]. destruct (sy_rhs s) as [rv|].
    + destruct Hr as (rv' & -> & _ & Hv). exact Hv.
    + now subst r'.
  - exfalso. pose proof (Hcon 0 1 ltac:(lia) ltac:(lia)) as Hc. inversion Hc as [|a y z (_ & _ & _ & Hne) _]. now apply Hne.
Qed.
Print Assumptions C29_reduce.

(** *** C30 — the relaxed Gauss-Seidel iteration (factor 1.3, tolerance 0.001).  It either
    fails or returns the sweep of some vector [u] with a relative step within the tolerance;
    the residual of the answer is then a linear function of that last step. *)
Theorem C30_stops (A : arith) (FL : field_laws A) (s : system A) ho n :
  sys_built s -> oracle_ok ho -> sy_dofs s = n -> sy_k s <> None -> sy_rhs s <> None -> gs_beta (A := A) <> s0 ->
  (forall i, i < n -> k_at s i i <> s0) ->
  gauss_seidel_solver ho s = Panic \/
  exists x u, gauss_seidel_solver ho s = Ret (Ok x) /\ length x = n /\
    sleb (sdiv (ssqrt (bigsum n (fun i => ssq (ssub (u i) (vel x i))))) (ssqrt (bigsum n (fun i => ssq (vel x i)))))
         (slit 1 1000) = true /\
    (forall i, i < n -> ssub (r_at s i) (mv n (k_at s) (vel x) i) =
       ssub (sdiv (smul (k_at s i i) (ssub (vel x i) (u i))) gs_beta)
            (bigsum n (fun c => smul (k_at s i c) (if c <? i then s0 else ssub (vel x c) (u c))))).
Proof.
  intros Hb Ho Hn Hk Hr Hbeta Hd. destruct (sys_built_wf FL s Hb) as [(Wk & _ & Wr) _]. unfold k_at, r_at in *.
  destruct (sy_rhs s) as [rv|] eqn:Er; [|congruence]. destruct (sy_k s) as [k|] eqn:Ek; [|congruence].
  rewrite Hn in Wk, Wr. destruct Wk as [Wk Hs].
  destruct (gauss_seidel_solver_ret FL ho s k rv n Ho Wk Hs Ek Er Wr Hd) as [E|(x & u & E & Hl & Hv & Ht)]; [now left|right].
  exists x, u. split; [exact E|]. split; [exact Hl|]. split; [exact Ht|]. now apply (gs_residual FL (el k) n).
Qed.
Print Assumptions C30_stops.
(** a sweep leaves [u] unchanged exactly when [u] solves the system *)
Theorem C30_fixed (A : arith) (FL : field_laws A) (k : crow A) (r u : lm A) n :
  cr_wf k -> cr_shape k = (n, n) -> dense_built r -> mshape r = (n, 1) -> dense_built u -> mshape u = (n, 1) ->
  gs_beta (A := A) <> s0 -> (forall i, i < n -> el k i i <> s0) ->
  exists x, gs_sweep k r u = Ret x /\ mshape x = (n, 1) /\
    ((forall i, i < n -> el x i 0 = el u i 0) <-> (forall i, i < n -> mv n (el k) (fun j => el u j 0) i = el r i 0)).
Proof.
  intros (S & H) Hs Hr Hsr Hu Hsu Hbeta Hd. apply dense_built_wf in Hr, Hu.
  assert (Rr : rep r n 1 (fun j _ => el r j 0)) by (eapply rep_ext; [now apply rep_self|]; intros a c _ Hc; now replace c with 0 by lia).
  assert (Ru : rep u n 1 (fun j _ => el u j 0)) by (eapply rep_ext; [now apply rep_self|]; intros a c _ Hc; now replace c with 0 by lia).
  destruct (gs_sweep_ret FL k S n r u _ _ H Hs Rr Ru) as (x & fx & E & Hx & Hv).
  { intros i Hi. apply (cr_stored k S i H), Hd, Hi. }
  exists x. split; [exact E|]. split; [apply Hx|].
  rewrite <- (gs_fixed FL (el k) n (fun j => el r j 0) (fun j => el u j 0) fx Hbeta Hd Hv).
  destruct Hx as (_ & _ & He). split; intros G i Hi; [rewrite <- (He i 0)|rewrite (He i 0)]; auto; lia.
Qed.
Print Assumptions C30_fixed.
(** 2x = 2: one sweep from 1 stays, one from 0 moves to 1.3; the whole solver in floats *)
Example C30_example : gs_beta (A := Qc_arith) <> s0 /\
  (exists x, gs_sweep (from_labeled_vals (1, 1) [((0, 0), qc 2)]) (LM 1 1 true [qc 2]) (LM 1 1 true [qc 1]) = Ret x /\ lm_data x = [qc 1]) /\
  (exists x, gs_sweep (from_labeled_vals (1, 1) [((0, 0), qc 2)]) (LM 1 1 true [qc 2]) (LM 1 1 true [qc 0]) = Ret x /\ lm_data x = [qcd 13 10]) /\
  (exists sf x, assemble 3 (chain F64_arith) = Ret sf /\ gauss_seidel_solver hash_id sf = Ret (Ok x) /\
     forallb (fun p => (fl 0.96875 <=? p.1 / p.2) && (p.1 / p.2 <=? fl 1.03125))%float (zip x (map fl [2; 6; 4]%float)) = true).
Proof.
  split; [apply qc_neq; vm_refl|]. split; [eexists; split; vm_refl|]. split; [eexists; split; vm_refl|].
  vm_run (assemble 3 (chain F64_arith)) sf Ef. exists sf. eexists. split; [exact Ef|]. split; vm_refl.
Qed.

(** *** C31 — refuted for Gauss-Seidel in floating point: 0/0 never meets the tolerance. *)
Theorem C31_refuted : exists s, assemble 1 [AddK 0 0 (fl 2); AddR 0 (fl 0)] = Ret s /\
  forall ho, oracle_ok ho -> gauss_seidel_solver ho s = Panic.
Proof.
  vm_run (assemble (A := F64_arith) 1 [AddK 0 0 (fl 2); AddR 0 (fl 0)]) s E. exists s. split; [exact E|].
  intros ho Ho. unfold gauss_seidel_solver, into_krp, s. cbn [sy_k sy_rhs sy_perm unwrap mbind out_bind d_data].
  match goal with |- context [ho 0 ?m] => assert (Hp : ho 0 m = [((0, 0), fl 2)]) end.
  { apply Permutation_singleton_r. etransitivity; [apply Ho|]. apply Permutation_refl'. vm_refl. }
  match type of Hp with ?e = _ => set (l := e) in * end. clearbody l. subst l. vm_refl.
Qed.
Print Assumptions C31_refuted.
(** the direct solvers answer zero *)
Theorem C31_direct (s : system R_arith) ho n :
  sys_built s -> oracle_ok ho -> sy_dofs s = n -> 2 <= n -> sy_rhs s <> None -> (forall i, i < n -> r_at s i = 0%R) ->
  (forall i j, i < n -> j < n -> k_at s i j = k_at s j i) -> connected n (k_at s) -> posdef n (k_at s) ->
  cholesky_solver ho s = Ret (Ok (replicate n 0%R)) /\
  (pivots_nonzero n (k_at s) -> dense_gauss s = Ret (Ok (replicate n 0%R))).
Proof.
  intros Hb Ho Hn H2 Hr H0 Hsym Hcon HP.
  destruct (C27_solver s ho n Hb Ho Hn H2 Hr Hsym Hcon HP) as (x & E & Hl & Hx & Hu).
  assert (Ez : x = replicate n (0%R : R_arith)).
  { apply vel_ext; [now rewrite replicate_length|]. intros i Hi. etransitivity; [|symmetry; exact (vel_replicate (A := R_arith) n i)].
    symmetry. apply (Hu (fun _ => 0%R)); [|lia]. intros j Hj. rewrite H0 by exact Hj. unfold mv.
    apply (bigsum_0 R_field_laws). intros c _. cbn. ring. }
  split; [rewrite E, Ez; reflexivity|]. intros Hpv.
  destruct (C29_agree s ho n Hb Ho Hn H2 Hr Hsym Hcon HP Hpv) as (y & Ey & Eg).
  rewrite Eg. assert (y = x) as -> by congruence. rewrite Ez. reflexivity.
Qed.
Print Assumptions C31_direct.
(** the chain with its loads removed *)
Example C31_example : exists s, assemble 3 (spring 0 2 (fl 1) ++ spring 2 1 (fl 1) ++ [AddK 0 0 (fl 1); AddR 1 (fl 0)]) = Ret s /\
  cholesky_solver hash_id s = Ret (Ok (map fl [0; 0; 0]%float)) /\ gauss_seidel_solver hash_id s = Panic.
Proof.
  vm_run (assemble (A := F64_arith) 3 (spring 0 2 (fl 1) ++ spring 2 1 (fl 1) ++ [AddK 0 0 (fl 1); AddR 1 (fl 0)])) s E.
  exists s. split; [exact E|]. split; vm_refl.
Qed.
