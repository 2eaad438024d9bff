(** The envelope Cholesky solver end to end in rounded arithmetic, and the rounding of IEEE
    double precision (unbounded exponents). *)
From Flocq Require Import Core Relative.
From Coq Require Import Reals Lra Lia.
From Verif Require Export RoundLL SolverProofs.
Local Close Scope R_scope.

(** ** assembled systems are well formed, for any scalars *)
Section free.
Context {A : arith}.
Lemma od_add_wf n (o : option (dict A)) loc v k : od_wf n o -> od_add n o loc v = Ret k -> dict_wf k /\ d_shape k = (n, n).
Proof.
  intros W E. destruct loc as [r c].
  assert (Hrc : r < n /\ c < n).
  { destruct (decide (r < n /\ c < n)) as [|Hno]; [assumption|]. rewrite (od_add_panic n o r c v W) in E by lia. discriminate. }
  destruct o as [k0|]; cbn [od_add] in E.
  - destruct W as [W Hs].
    destruct (index_upd_ret _ _ d_laws k0 r c (fun x => sadd x v) W) as (k' & E' & W' & Hs' & _).
    { apply in_shape_true. cbn. rewrite Hs. cbn. lia. }
    rewrite E' in E. injection E as <-. split; [exact W'|]. cbn in Hs'. congruence.
  - destruct (index_set_ret _ _ d_laws (d_zeros (A := A) (n, n)) r c v (d_zeros_wf _)) as (k' & E' & W' & Hs' & _).
    { apply in_shape_true. cbn. lia. }
    rewrite E' in E. injection E as <-. auto.
Qed.

Lemma asm_step_wf (o : asm A) s s' : sys_wf s -> sy_perm s = None -> asm_step o s = Ret s' ->
  sys_wf s' /\ sy_perm s' = None /\ sy_dofs s' = sy_dofs s.
Proof.
  intros (Wk & Wm & Wr) Hp E. destruct o as [r c v|r c v|i v]; cbn [asm_step] in E.
  - unfold add_k in E.
    assert (E' : (k ← od_add (sy_dofs s) (sy_k s) (r, c) v; Ret (Sys (sy_dofs s) (Some k) (sy_m s) (sy_rhs s) (sy_perm s))) = Ret s').
    { rewrite <- E. unfold od_add. destruct (sy_k s); reflexivity. }
    apply bind_ret_inv in E' as (k & Ek & E'). injection E' as <-. apply (od_add_wf _ _ _ _ _ Wk) in Ek. unfold sys_wf. cbn. tauto.
  - unfold add_m in E.
    assert (E' : (k ← od_add (sy_dofs s) (sy_m s) (r, c) v; Ret (Sys (sy_dofs s) (sy_k s) (Some k) (sy_rhs s) (sy_perm s))) = Ret s').
    { rewrite <- E. unfold od_add. destruct (sy_m s); reflexivity. }
    apply bind_ret_inv in E' as (k & Ek & E'). injection E' as <-. apply (od_add_wf _ _ _ _ _ Wm) in Ek. unfold sys_wf. cbn. tauto.
  - unfold add_rhs in E. destruct (sy_rhs s) as [rv|].
    + apply bind_ret_inv in E as (x & _ & E). apply bind_ret_inv in E as (rv' & Er & E). injection E as <-.
      unfold set in Er. destruct (rv !! i); [|discriminate]. injection Er as <-. unfold sys_wf. cbn. rewrite insert_length. tauto.
    + apply bind_ret_inv in E as (rv' & Er & E). injection E as <-.
      unfold set in Er. destruct (replicate (sy_dofs s) s0 !! i); [|discriminate]. injection Er as <-.
      unfold sys_wf. cbn. rewrite insert_length, replicate_length. tauto.
Qed.

Lemma assemble_wf n (ops : list (asm A)) s : assemble n ops = Ret s -> sys_wf s /\ sy_perm s = None /\ sy_dofs s = n.
Proof.
  revert s. induction ops as [|o ops IH] using rev_ind; intros s E; unfold assemble in *.
  - cbn in E. injection E as <-. repeat split.
  - rewrite foldM_app in E. apply bind_ret_inv in E as (s1 & E1 & E). cbn [foldM] in E.
    apply bind_ret_inv in E as (s2 & E2 & E). injection E as <-. destruct (IH s1 E1) as (W & Hp & Hn).
    destruct (asm_step_wf o s1 s2 W Hp E2) as (W' & Hp' & Hn'). split; [exact W'|]. split; [exact Hp'|]. congruence.
Qed.
End free.

(** ** renumbering real quadratic forms *)
Section perm.
Local Open Scope R_scope.
Lemma rsum_permute n p (f : nat -> R) : perm_wf n p -> rsum n (fun i => f (pf p i)) = rsum n f.
Proof. exact (bigsum_permute R_ord_laws n p f). Qed.

Lemma scaled_permute n p (a b : nat -> nat -> R) lam : perm_wf n p ->
  (forall r c, (r < n)%nat -> (c < n)%nat -> b (pf p r) (pf p c) = a r c) -> scaled_pd n a lam -> scaled_pd n b lam.
Proof.
  intros W Hab HP z. specialize (HP (fun i => z (pf p i))). cbn beta in HP.
  rewrite <- (rsum_permute n p (fun i => b i i * (z i * z i)) W), <- (rsum_permute n p (fun i => z i * _) W).
  rewrite (rsum_ext n _ (fun i => a i i * (z (pf p i) * z (pf p i)))) by (intros i Hi; now rewrite Hab).
  rewrite (rsum_ext n (fun i => z (pf p i) * rsum n (fun j => b (pf p i) j * z j)) (fun i => z (pf p i) * rsum n (fun j => a i j * z (pf p j)))); [exact HP|].
  intros i Hi. f_equal. rewrite <- (rsum_permute n p (fun j => b (pf p i) j * z j) W). apply rsum_ext. intros j Hj. now rewrite Hab.
Qed.

Lemma scaled_ext n (a b : nat -> nat -> R) lam : (forall r c, (r < n)%nat -> (c < n)%nat -> b r c = a r c) ->
  scaled_pd n a lam -> scaled_pd n b lam.
Proof.
  intros Hab HP z. specialize (HP z).
  rewrite (rsum_ext n (fun i => b i i * (z i * z i)) (fun i => a i i * (z i * z i))) by (intros i Hi; now rewrite Hab).
  rewrite (rsum_ext n (fun i => z i * rsum n (fun j => b i j * z j)) (fun i => z i * rsum n (fun j => a i j * z j))); [exact HP|].
  intros i Hi. f_equal. apply rsum_ext. intros j Hj. now rewrite Hab.
Qed.
End perm.

Section solver.
Context {u : R} {rnd : R -> R} (RN : rounding u rnd).
Let Hu := rn_u _ _ RN.
Local Open Scope R_scope.
Local Notation A := (Rnd_arith rnd).

Lemma solver_round ho (s : system A) (k : dict A) rv n lam : oracle_ok ho -> sys_wf s -> sy_dofs s = n -> sy_perm s = None ->
  sy_k s = Some k -> sy_rhs s = Some rv -> (2 <= n)%nat ->
  (forall r c, (r < n)%nat -> (c < n)%nat -> el k r c = el k c r) -> connected n (el k) ->
  (forall i, (i < n)%nat -> 0 < (el k i i : R)) -> scaled_pd n (fun i j => el k i j : R) lam ->
  INR n * gee u (2 * n + 4) < lam ->
  exists x, cholesky_solver ho s = Ret (Ok x) /\ length x = n /\
  exists E : nat -> nat -> R,
    (forall i, (i < n)%nat -> rsum n (fun j => ((el k i j : R) + E i j) * vel x j) = vel rv i) /\
    forall i j, (i < n)%nat -> (j < n)%nat ->
      Rabs (E i j) <= gee u (4 * n + 5) * (R_sqrt.sqrt (el k i i) * R_sqrt.sqrt (el k j j)).
Proof.
  intros Ho W Hn Hp Hk Hr H2 Hsym Hcon Hpos HP Hlam.
  destruct (reduce_envelope_ret ho 1 s k n Ho W Hn Hp Hk H2 Hsym Hcon) as (k' & m' & r' & p & Er & Wp & Wk' & Hs' & Hel & Hrr).
  rewrite Hr in Hrr. destruct Hrr as (rv' & -> & Hlr & Hvr).
  destruct W as (Wk & _ & Wr). rewrite Hk, Hn in Wk. rewrite Hr, Hn in Wr. destruct Wk as [Wk Hs].
  unfold cholesky_solver, k_envelope. rewrite Hk. cbn [unwrap mbind out_bind].
  destruct (d_envelope_spec (ho 0%nat (d_data k)) k Wk (Ho _ _)) as (env & Ee & _). rewrite Ee. cbn [mbind out_bind].
  rewrite Er. cbn [mbind out_bind]. unfold into_krp. cbn [sy_k sy_rhs sy_perm unwrap mbind out_bind option_map].
  assert (Hel' : forall r c, (r < n)%nat -> (c < n)%nat -> el k' r c = el k (pb p r) (pb p c)).
  { intros r c H3 H4. destruct (pb_lookup n p r Wp H3) as (_ & B1 & _ & B2). destruct (pb_lookup n p c Wp H4) as (_ & B3 & _ & B4).
    rewrite <- B2 at 1. rewrite <- B4 at 1. now apply Hel. }
  destruct (le_of_dict_spec (ho 4%nat (d_data k')) (ho 5%nat (d_data k')) k' n Wk' Hs' (Ho _ _) (Ho _ _)) as (m & El & Wm & Hnm & _ & Hlow & _).
  { intros r H3. destruct (pb_lookup n p r Wp H3) as (_ & B1 & _ & B2).
    assert (Hd : el k' r r <> s0).
    { rewrite Hel' by assumption. apply Rgt_not_eq, (Hpos _ B1). }
    rewrite d_el in Hd by exact Wk'. destruct (d_data k' !! (r, r)) as [v|] eqn:Ev; [|now destruct Hd].
    exists r, v. split; [lia|exact Ev]. }
  rewrite El. cbn [unwrap mbind out_bind fst snd].
  assert (Hsel : forall r c, (r < n)%nat -> (c < n)%nat -> sym_el m r c = el k' r c).
  { intros r c H3 H4. destruct (decide (c <= r)%nat) as [Hle|Hgt].
    - rewrite sym_el_lower by lia. apply Hlow. lia.
    - rewrite sym_el_sym, sym_el_lower, Hlow by lia. rewrite !Hel' by assumption.
      destruct (pb_lookup n p r Wp H3) as (_ & B1 & _). destruct (pb_lookup n p c Wp H4) as (_ & B3 & _).
      now apply Hsym. }
  destruct (chol_steps m Wm ltac:(lia)) as (l & Ec & Wl & Hnn & Hll & _). rewrite Ec. cbn [mbind out_bind].
  assert (Hpiv : forall i, (i < lev_n m)%nat -> 0 < (el l i i : R)).
  { apply (chol_success RN m l lam Wm ltac:(lia) Ec).
    - intros i Hi. rewrite Hsel by lia. rewrite Hel' by lia. destruct (pb_lookup n p i Wp ltac:(lia)) as (_ & B1 & _). now apply Hpos.
    - rewrite Hnm. apply (scaled_ext n (fun i j => el (A := A) (M := dict A) k' i j)); [intros r c H3 H4; exact (Hsel r c H3 H4)|].
      apply (scaled_permute n p (fun i j => el (A := A) (M := dict A) k i j)); [exact Wp| |exact HP]. intros r c H3 H4. now apply Hel.
    - now rewrite Hnm. }
  destruct (ll_round RN m l rv' (replicate n s0) Wm ltac:(lia) Ec) as (x & Ex & Hx & E & HE & HB).
  - intros i Hi. apply Rgt_not_eq, Hpiv, Hi.
  - congruence.
  - rewrite replicate_length. congruence.
  - rewrite Hn, Ex. cbn [mbind out_bind]. rewrite Hnm in *.
    destruct (permute_slice_ret n (invert p) x (invert_wf n p Wp)) as (y & Ey & Hy & Hye); [congruence|].
    rewrite Ey. cbn [mbind out_bind]. exists y. split; [reflexivity|]. split; [exact Hy|].
    pose proof (vel_permuted n (invert p) x y (invert_wf n p Wp) ltac:(congruence) Hye) as Hv.
    assert (Hvy : forall i, (i < n)%nat -> vel y i = vel x (pf p i)).
    { intros i Hi. destruct (pf_lookup n p i Wp Hi) as (_ & B1 & _ & B2). rewrite <- Hv by exact B1.
      f_equal. change (pf (invert p) (pf p i)) with (pb p (pf p i)). auto. }
    assert (Hkm : forall r c, (r < n)%nat -> (c < n)%nat -> sym_el m (pf p r) (pf p c) = el k r c).
    { intros r c H3 H4. destruct (pf_lookup n p r Wp H3) as (_ & B1 & _). destruct (pf_lookup n p c Wp H4) as (_ & B3 & _).
      rewrite Hsel by assumption. now apply Hel. }
    exists (fun i j => E (pf p i) (pf p j)). split.
    + intros i Hi. destruct (pf_lookup n p i Wp Hi) as (_ & B1 & _ & B2). rewrite <- Hvr by exact Hi.
      rewrite <- (HE (pf p i)) by lia.
      rewrite <- (rsum_permute n p (fun j => (sym_el m (pf p i) j + E (pf p i) j) * vel x j) Wp).
      apply rsum_ext. intros j Hj. rewrite Hvy, Hkm by assumption. reflexivity.
    + intros i j Hi Hj. destruct (pf_lookup n p i Wp Hi) as (_ & B1 & _). destruct (pf_lookup n p j Wp Hj) as (_ & B3 & _).
      rewrite <- (Hkm i i Hi Hi), <- (Hkm j j Hj Hj). now apply HB.
Qed.
End solver.

(** ** IEEE double precision with unbounded exponents *)
Definition rnd64 (x : R) : R := round radix2 (FLX_exp 53) ZnearestE x.
Definition u64 : R := bpow radix2 (-53).

Global Instance p53 : Prec_gt_0 53.
Proof. reflexivity. Qed.

Lemma rounding64 : rounding u64 rnd64.
Proof.
  constructor.
  - split; [apply bpow_ge_0|]. change 1%R with (bpow radix2 0). apply bpow_lt. lia.
  - intros x. unfold rnd64, u64.
    pose proof (relative_error_N_FLX radix2 53 p53 (fun x => negb (Z.even x)) x) as H.
    replace (bpow radix2 (-53)) with (/ 2 * bpow radix2 (-53 + 1))%R; [exact H|].
    replace (-53 + 1)%Z with (1 + -53)%Z by lia. rewrite bpow_plus. change (bpow radix2 1) with 2%R. field.
  - intros x. apply round_generic; [apply valid_rnd_N|]. apply generic_format_round; [apply FLX_exp_valid, p53|apply valid_rnd_N].
Qed.
