(** The dense solver in rounded arithmetic, on an assembled system. *)
From Coq Require Import Reals Lra Lia.
From Verif Require Export RoundTop RoundGauss.
Local Close Scope R_scope.

Lemma rsum_perm_on n sg (f : nat -> R) : perm_on n sg -> rsum n (fun i => f (sg i)) = rsum n f.
Proof.
  intros (H1 & s' & H2). unfold rsum. rewrite <- !(ssum_seq (A := R_arith)).
  rewrite <- (map_map sg f). apply (ssum_perm R_field_laws). apply Permutation_map.
  apply NoDup_Permutation.
  - apply NoDup_fmap_2_strong; [|apply NoDup_seq]. intros i j Hi Hj E. apply elem_of_seq in Hi, Hj.
    destruct (H2 i ltac:(lia)) as (_ & A1 & _). destruct (H2 j ltac:(lia)) as (_ & A2 & _). congruence.
  - apply NoDup_seq.
  - intros x. rewrite elem_of_list_fmap, elem_of_seq. split.
    + intros (i & -> & Hi). apply elem_of_seq in Hi. specialize (H1 i). lia.
    + intros Hx. destruct (H2 x ltac:(lia)) as (A0 & _ & A1). exists (s' x). split; [auto|]. apply elem_of_seq. lia.
Qed.

Section dense.
Context {u : R} {rnd : R -> R} (RN : rounding u rnd) (rnd_1 : rnd 1%R = 1%R).
Let Hu := rn_u _ _ RN.
Local Notation A := (Rnd_arith rnd).
Local Open Scope R_scope.

Lemma ssum_rnd (l : list A) : rnd (ssum l) = ssum l.
Proof.
  destruct l as [|x l _] using rev_ind; [apply (rnd_0 RN)|].
  unfold ssum. rewrite fold_left_app. cbn [fold_left]. apply (rn_idem _ _ RN).
Qed.

Lemma dense_error n (ops : list (asm A)) s :
  (forall o, o ∈ ops -> asm_ok n o) ->
  (forall o, o ∈ ops -> match o with AddK _ _ v | AddM _ _ v | AddR _ v => rnd v = v end) ->
  assemble n ops = Ret s -> (0 < n)%nat -> sy_rhs s <> None -> pivots_nonzero n (k_at s) -> INR (3 * n) * u < 1 ->
  exists x, dense_gauss s = Ret (Ok x) /\ length x = n /\
  exists sg (L U E : nat -> nat -> R), perm_on n sg /\
    (forall r q, (r < n)%nat -> (q < n)%nat -> (r < q)%nat -> L r q = 0) /\ (forall r, (r < n)%nat -> L r r <> 0) /\
    (forall r c, (r < n)%nat -> (c < r)%nat -> U r c = 0) /\ (forall r, (r < n)%nat -> U r r = 1) /\
    (forall r j, (r < n)%nat -> (j < n)%nat ->
       Rabs (rsum n (fun q => L r q * U q j) - k_at s (sg r) j) <= gam u n * rsum n (fun q => Rabs (L r q) * Rabs (U q j))) /\
    (forall r, (r < n)%nat -> rsum n (fun j => ((k_at s (sg r) j : R) + E r j) * vel x j) = r_at s (sg r)) /\
    forall r j, (r < n)%nat -> (j < n)%nat -> Rabs (E r j) <= gam u (3 * n) * rsum n (fun q => Rabs (L r q) * Rabs (U q j)).
Proof.
  intros Hok Hv Ea Hn0 Hr Hp Hn. destruct (assemble_wf n ops s Ea) as ((Wk & _ & Wr) & _ & Hdn).
  destruct (sy_rhs s) as [rv|] eqn:Er; [|congruence].
  assert (Hf : forall r c, (r < n)%nat -> (c < n)%nat -> rnd (k_at s r c) = k_at s r c).
  { destruct (assemble_free n ops) as (s2 & E2 & _ & _ & _ & Hk & _).
    { intros o Ho. specialize (Hv o Ho). destruct o; cbn in *; now rewrite Rplus_0_l. }
    { exact Hok. }
    assert (s2 = s) as -> by congruence. intros r c _ _. rewrite Hk. apply ssum_rnd. }
  destruct (sy_k s) as [k|] eqn:Ek.
  2:{ exfalso. destruct Hp as (Ms & H0 & Hs). destruct (Hs 0%nat Hn0) as (p & (Hp & _) & Hz & _). apply Hz.
      rewrite H0 by lia. unfold k_at. now rewrite Ek. }
  assert (HK : k_at s = el k) by (unfold k_at; now rewrite Ek).
  assert (HR : r_at s = vel rv) by (unfold r_at; now rewrite Er).
  rewrite HK, HR in *. rewrite Hdn in Wk, Wr. destruct Wk as [Wk Hs].
  unfold dense_gauss, into_krp. rewrite Ek, Er. cbn [unwrap mbind out_bind].
  destruct (lm_of_dict_spec k Wk) as (a & Eda & Wa & Hsa & Hea). rewrite Eda. cbn [unwrap mbind out_bind].
  destruct (lm_of_vec_ret rv n Wr) as (b & Eb & Hb). rewrite Eb. cbn [mbind out_bind fst snd].
  destruct (gausselim_error RN rnd_1 n a b (el (A := A) (M := dict A) k) (vel (A := A) rv)) as (x & E & Wx & Hsx & sg & L & U & EE & P1 & P2 & P3 & P4 & P5 & P6).
  - split; [exact Wa|]. split; [congruence|]. auto.
  - exact Hb.
  - exact Hf.
  - exact Hp.
  - exact Hn.
  - rewrite E. cbn [mbind out_bind]. rewrite (flat_ret _ _ lm_laws x Wx), Hsx. cbn [fst snd mbind out_bind].
    eexists; split; [reflexivity|]. rewrite rm_list_length. split; [lia|].
    assert (Hx : forall j, (j < n)%nat -> vel (A := A) (rm_list n 1 (el (A := A) x)) j = el (A := A) x j 0).
    { intros j Hj. apply vel_lookup. replace j with (1 * j + 0)%nat at 1 by lia. apply rm_list_lookup; lia. }
    exists sg, L, U, EE. split; [exact P1|]. split; [exact P2|]. split; [exact P3|]. split; [exact P4|]. split; [exact P5|].
    split; [|split].
    + intros r j Hr' Hj. now apply (P6 r Hr').
    + intros r Hr'. rewrite <- (proj1 (P6 r Hr')). apply rsum_ext. intros j Hj. now rewrite (Hx j Hj).
    + intros r j Hr' Hj. now apply (P6 r Hr').
Qed.

(** the distance to the exact solution, by an inverse of the matrix *)
Lemma dense_forward n (K E L U Z : nat -> nat -> R) (x xs b : nat -> R) sg g : perm_on n sg ->
  (forall r, (r < n)%nat -> rsum n (fun j => (K (sg r) j + E r j) * x j) = b (sg r)) ->
  (forall r j, (r < n)%nat -> (j < n)%nat -> Rabs (E r j) <= g * rsum n (fun q => Rabs (L r q) * Rabs (U q j))) ->
  (forall i, (i < n)%nat -> rsum n (fun j => K i j * xs j) = b i) ->
  (forall a j, (a < n)%nat -> (j < n)%nat -> rsum n (fun i => Z a i * K i j) = if (a =? j)%nat then 1 else 0) ->
  forall a, (a < n)%nat -> Rabs (x a - xs a) <=
    g * rsum n (fun r => Rabs (Z a (sg r)) * rsum n (fun j => rsum n (fun q => Rabs (L r q) * Rabs (U q j)) * Rabs (x j))).
Proof.
  intros Hsg HE HB Hxs HZ a Ha.
  assert (Ed : x a - xs a = rsum n (fun r => Z a (sg r) * - rsum n (fun j => E r j * x j))).
  { transitivity (rsum n (fun r => Z a (sg r) * rsum n (fun j => K (sg r) j * (x j - xs j)))).
    - rewrite (rsum_perm_on n sg (fun i => Z a i * rsum n (fun j => K i j * (x j - xs j))) Hsg).
      rewrite (rsum_ext n _ (fun i => rsum n (fun j => Z a i * K i j * (x j - xs j)))).
      2:{ intros i Hi. rewrite <- rsum_scale_l. apply rsum_ext. intros; ring. }
      rewrite rsum_swap. rewrite (rsum_ext n _ (fun j => if (j =? a)%nat then x a - xs a else 0)).
      2:{ intros j Hj. rewrite rsum_scale_r, HZ by assumption. rewrite Nat.eqb_sym. destruct (Nat.eqb_spec j a) as [->|]; ring. }
      rewrite (rsum_window n a (S a)); [|lia|intros i Hi; now rewrite (proj2 (Nat.eqb_neq i a)) by lia|intros i Hi; now rewrite (proj2 (Nat.eqb_neq i a)) by lia].
      replace (S a - a)%nat with 1%nat by lia. rewrite rsum_S. unfold rsum. cbn [bigsum s0 R_arith]. rewrite Nat.add_0_r, Nat.eqb_refl. rring.
    - apply rsum_ext. intros r Hr. f_equal. assert (Hs : (sg r < n)%nat) by now apply Hsg.
      pose proof (HE r Hr) as H1. rewrite <- (Hxs (sg r) Hs) in H1.
      rewrite (rsum_ext n _ (fun j => K (sg r) j * x j + E r j * x j)) in H1 by (intros; ring). rewrite rsum_add in H1.
      rewrite (rsum_ext n _ (fun j => K (sg r) j * x j - K (sg r) j * xs j)) by (intros; ring). rewrite rsum_sub. lra. }
  rewrite Ed. eapply Rle_trans; [apply rsum_abs|]. rewrite <- rsum_scale_l. apply rsum_le. intros r Hr.
  rewrite Rabs_mult, Rabs_Ropp. rewrite (Rmult_comm g), Rmult_assoc. apply Rmult_le_compat_l; [apply Rabs_pos|].
  eapply Rle_trans; [apply rsum_abs|]. rewrite <- rsum_scale_r. apply rsum_le. intros j Hj. rewrite Rabs_mult.
  eapply Rle_trans; [apply Rmult_le_compat_r; [apply Rabs_pos|now apply HB]|]. right. ring.
Qed.
End dense.
