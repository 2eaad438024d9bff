(** The relaxed Gauss-Seidel iteration: every sweep lowers the energy of the error, so the loop
    ends when it may run long enough. *)
From Coq Require Import Reals Lra Lia.
From Verif Require Export GsProofs CholProofs RoundChol.
Local Close Scope R_scope.

Section energy.
Context {A : arith} (FL : field_laws A).
Add Field Afield59 : (fl_field A FL).
Local Open Scope arith_scope.

Definition form (n : nat) (K : nat -> nat -> A) (x : nat -> A) : A := bigsum n (fun i => x i * mv n K x i).
Definition diag_form (n : nat) (K : nat -> nat -> A) (d : nat -> A) : A := bigsum n (fun i => K i i * (d i * d i)).
Definition symm (n : nat) (K : nat -> nat -> A) : Prop := forall i j, (i < n)%nat -> (j < n)%nat -> K i j = K j i.

Lemma form_parts n K d : symm n K ->
  let S := bigsum n (fun i => d i * bigsum n (fun c => K i c * (if (c <? i)%nat then 0 else d c))) in
  S + S = form n K d + diag_form n K d.
Proof.
  intros Hs S.
  set (Lo := bigsum n (fun i => bigsum n (fun c => d i * (K i c * (if (c <? i)%nat then d c else 0))))).
  set (Up := bigsum n (fun i => bigsum n (fun c => d i * (K i c * (if (i <? c)%nat then d c else 0))))).
  assert (E1 : form n K d = S + Lo).
  { unfold form, S, Lo, mv. rewrite <- (bigsum_add FL). apply bigsum_ext. intros i _.
    rewrite <- !(bigsum_scale_l FL), <- (bigsum_add FL). apply bigsum_ext. intros c _. destruct (c <? i)%nat; ring. }
  assert (E2 : Lo = Up).
  { unfold Lo, Up. rewrite (bigsum_swap FL). apply bigsum_ext. intros i Hi. apply bigsum_ext. intros c Hc.
    rewrite (Hs c i Hc Hi). destruct (i <? c)%nat; ring. }
  assert (E3 : S = diag_form n K d + Up).
  { unfold S, Up, diag_form. rewrite <- (bigsum_add FL). apply bigsum_ext. intros i Hi.
    rewrite <- (bigsum_scale_l FL).
    transitivity (bigsum n (fun c => (if (c =? i)%nat then K i i * (d i * d i) else 0) + d i * (K i c * (if (i <? c)%nat then d c else 0)))).
    - apply bigsum_ext. intros c _. destruct (Nat.ltb_spec c i), (Nat.eqb_spec c i), (Nat.ltb_spec i c); subst; try lia; ring.
    - rewrite (bigsum_add FL). f_equal. rewrite (bigsum_single FL n i) by (exact Hi || (intros c _ Hc; now rewrite (proj2 (Nat.eqb_neq c i) Hc))).
      now rewrite Nat.eqb_refl. }
  rewrite E1, E2. rewrite E3 at 1. ring.
Qed.

(** the energy of the error drops by a multiple of the squared step *)
Lemma gs_energy K n r u x z : symm n K -> gs_beta (A := A) <> 0 -> (forall i, (i < n)%nat -> K i i <> 0) ->
  (forall i, (i < n)%nat -> x i = gs_val K n r u x i) -> (forall i, (i < n)%nat -> mv n K z i = r i) ->
  form n K (fun i => u i - z i) = form n K (fun i => x i - z i) +
    ((1 + 1) / gs_beta - 1) * diag_form n K (fun i => x i - u i).
Proof.
  intros Hs Hb Hd Hx Hz. set (d := fun i => x i - u i). set (e := fun i => x i - z i).
  assert (Emv : forall i, (i < n)%nat -> mv n K e i = mv n K x i - r i).
  { intros i Hi. rewrite <- (Hz i Hi). unfold mv. rewrite <- (bigsum_sub FL). apply bigsum_ext. intros c _. unfold e. ring. }
  assert (X : bigsum n (fun i => e i * mv n K d i) = bigsum n (fun i => d i * mv n K e i)).
  { unfold mv.
    transitivity (bigsum n (fun i => bigsum n (fun c => e i * (K i c * d c)))).
    { apply bigsum_ext. intros i _. now rewrite (bigsum_scale_l FL). }
    rewrite (bigsum_swap FL). apply bigsum_ext. intros i Hi. rewrite <- (bigsum_scale_l FL). apply bigsum_ext.
    intros c Hc. rewrite (Hs c i Hc Hi). ring. }
  assert (E : form n K (fun i => u i - z i) = form n K e - (bigsum n (fun i => d i * mv n K e i) + bigsum n (fun i => d i * mv n K e i)) + form n K d).
  { rewrite <- X at 1. unfold form. rewrite <- !(bigsum_add FL), <- (bigsum_sub FL), <- (bigsum_add FL). apply bigsum_ext. intros i _.
    assert (M : mv n K (fun i => u i - z i) i = mv n K e i - mv n K d i).
    { unfold mv. rewrite <- (bigsum_sub FL). apply bigsum_ext. intros c _. unfold e, d. ring. }
    rewrite M. unfold e at 1 2 3, d at 1 3 4. unfold e, d. ring. }
  assert (R : bigsum n (fun i => d i * mv n K e i) =
    bigsum n (fun i => d i * bigsum n (fun c => K i c * (if (c <? i)%nat then 0 else d c))) - diag_form n K d / gs_beta).
  { transitivity (bigsum n (fun i => d i * bigsum n (fun c => K i c * (if (c <? i)%nat then 0 else d c)) - K i i * (d i * d i) * (1 / gs_beta))).
    - apply bigsum_ext. intros i Hi. rewrite (Emv i Hi). pose proof (gs_residual FL K n r u x Hb Hd Hx i Hi) as Er.
      replace (mv n K x i - r i) with (0 - (r i - mv n K x i)) by ring. rewrite Er. fold (d i).
      change (bigsum n (fun c => K i c * (if (c <? i)%nat then 0 else x c - u c))) with (bigsum n (fun c => K i c * (if (c <? i)%nat then 0 else d c))).
      field. exact Hb.
    - rewrite (bigsum_sub FL), (bigsum_scale_r FL). unfold diag_form. field. exact Hb. }
  pose proof (form_parts n K d Hs) as P. cbv zeta in P. rewrite E, R.
  set (Sx := bigsum n (fun i => d i * bigsum n (fun c => K i c * (if (c <? i)%nat then 0 else d c)))) in *.
  transitivity (form n K e - (Sx + Sx) + (diag_form n K d / gs_beta + diag_form n K d / gs_beta) + form n K d).
  - field. exact Hb.
  - rewrite P. field. exact Hb.
Qed.
End energy.

Section real.
Local Open Scope R_scope.
Lemma nat_above (d y : R) : 0 < d -> exists N, y < INR N * d.
Proof.
  intros Hd. exists (Z.to_nat (Z.max 0 (up (y / d)))). rewrite INR_IZR_INZ, Z2Nat.id by lia.
  destruct (archimed (y / d)) as [H _].
  assert (G : y / d < IZR (Z.max 0 (up (y / d)))) by (eapply Rlt_le_trans; [exact H|apply IZR_le; lia]).
  apply (Rmult_lt_compat_r d) in G; [|exact Hd]. unfold Rdiv in G at 1. rewrite Rmult_assoc, Rinv_l, Rmult_1_r in G by lra. exact G.
Qed.
Local Notation RA := R_arith.
Variables (n : nat) (K : nat -> nat -> RA) (r z : nat -> RA).
Hypothesis Hsym : symm n K.
Hypothesis Hpd : posdef n K.
Hypothesis Hz : forall i, (i < n)%nat -> mv n K z i = r i.
Hypothesis Hr : exists i, (i < n)%nat /\ r i <> 0.

Lemma beta_R : gs_beta (A := RA) = 13 / 10.
Proof. unfold gs_beta, slit, sz. cbn. lra. Qed.
Lemma beta_neq : gs_beta (A := RA) <> 0.
Proof. rewrite beta_R. lra. Qed.
Definition err (f : nat -> RA) : R := form n K (fun i => f i - z i).
Definition sq2 (f : nat -> RA) : R := rsum n (fun i => f i * f i).

Lemma sq2_nonneg f : 0 <= sq2 f.
Proof using n. apply rsum_nonneg. intros. apply Rle_0_sqr. Qed.
Lemma sq2_zero f : sq2 f = 0 -> forall i, (i < n)%nat -> f i = 0.
Proof using n.
  intros H i Hi. assert (G : f i * f i <= sq2 f).
  { unfold sq2. clear - Hi. revert Hi. generalize n. intros N. induction N as [|N IH]; [lia|]. intros Hi. rewrite rsum_S.
    destruct (Nat.eq_dec i N) as [->|Hne].
    - pose proof (rsum_nonneg N (fun i => f i * f i) ltac:(intros; apply Rle_0_sqr)). lra.
    - specialize (IH ltac:(lia)). pose proof (Rle_0_sqr (f N)) as Q. unfold Rsqr in Q. lra. }
  pose proof (Rle_0_sqr (f i)) as Q. unfold Rsqr in Q. apply Rsqr_0_uniq. unfold Rsqr. lra.
Qed.
Lemma form_nonneg f : 0 <= form (A := RA) n K f.
Proof.
  assert (D : forall N, (exists i, (i < N)%nat /\ f i <> (s0 : RA)) \/ forall i, (i < N)%nat -> f i = (s0 : RA)).
  { induction N as [|N [(i & Hi & Hne)|IH]]; [right; lia|left; exists i; split; [lia|exact Hne]|].
    destruct (Req_EM_T (f N) 0) as [E|E]; [right|left; exists N; split; [lia|exact E]].
    intros i Hi. destruct (Nat.eq_dec i N) as [->|]; [exact E|apply IH; lia]. }
  destruct (D n) as [H|H].
  - pose proof (Hpd f H) as P. apply R_ltb_iff in P. now left.
  - right. symmetry. unfold form. apply rsum_0. intros i Hi. rewrite (H i Hi). cbn. ring.
Qed.
Lemma diag_pos i : (i < n)%nat -> 0 < K i i.
Proof.
  intros Hi. set (f := fun j : nat => (if (j =? i)%nat then 1 else 0 : RA)).
  assert (P : lts s0 (form n K f)).
  { apply Hpd. exists i. split; [exact Hi|]. unfold f. rewrite Nat.eqb_refl. cbn. lra. }
  apply R_ltb_iff in P. unfold form in P. rewrite (bigsum_single R_field_laws n i) in P; [|exact Hi|].
  - unfold mv in P. rewrite (bigsum_single R_field_laws n i) in P; [|exact Hi|].
    + unfold f in P. rewrite Nat.eqb_refl in P. cbn in P. lra.
    + intros c _ Hc. unfold f. rewrite (proj2 (Nat.eqb_neq c i) Hc). cbn. ring.
  - intros c _ Hc. unfold f at 1. rewrite (proj2 (Nat.eqb_neq c i) Hc). cbn. ring.
Qed.
Lemma diag_min : exists m, 0 < m /\ forall i, (i < n)%nat -> m <= K i i.
Proof.
  assert (G : forall N, (N <= n)%nat -> exists m, 0 < m /\ forall i, (i < N)%nat -> m <= K i i).
  { induction N as [|N IH]; intros HN; [exists 1; split; [lra|lia]|].
    destruct (IH ltac:(lia)) as (m & Hm & H). exists (Rmin m (K N N)). split; [apply Rmin_glb_lt; [exact Hm|apply diag_pos; lia]|].
    intros i Hi. destruct (Nat.eq_dec i N) as [->|Hne]; [apply Rmin_r|].
    eapply Rle_trans; [apply Rmin_l|apply H; lia]. }
  exact (G n (le_n n)).
Qed.

Lemma sweep_energy u x : (forall i, (i < n)%nat -> x i = gs_val K n r u x i) ->
  err u = err x + 7 / 13 * diag_form (A := RA) n K (fun i => x i - u i).
Proof.
  intros Hx.
  pose proof (gs_energy R_field_laws K n r u x z Hsym beta_neq (fun i Hi => Rgt_not_eq _ _ (diag_pos i Hi)) Hx Hz) as E.
  unfold err. etransitivity; [exact E|]. rewrite beta_R. cbn. f_equal. f_equal. lra.
Qed.
Lemma diag_form_lower m f : (forall i, (i < n)%nat -> m <= K i i) -> m * sq2 f <= diag_form (A := RA) n K f.
Proof.
  intros Hm. unfold sq2, diag_form. rewrite <- rsum_scale_l. apply rsum_le. intros i Hi.
  apply Rmult_le_compat_r; [apply Rle_0_sqr|exact (Hm i Hi)].
Qed.
Lemma sweep_le u x : (forall i, (i < n)%nat -> x i = gs_val K n r u x i) -> err x <= err u.
Proof.
  intros Hx. rewrite (sweep_energy u x Hx). destruct diag_min as (m & Hm & Hmin).
  pose proof (diag_form_lower m (fun i => x i - u i) Hmin). pose proof (sq2_nonneg (fun i => x i - u i)).
  assert (0 <= m * sq2 (fun i => x i - u i)) by (apply Rmult_le_pos; lra). lra.
Qed.
Lemma sweep_lt u x : (forall i, (i < n)%nat -> x i = gs_val K n r u x i) ->
  ~ (forall i, (i < n)%nat -> mv n K u i = r i) -> err x < err u.
Proof.
  intros Hx Hu. rewrite (sweep_energy u x Hx). destruct diag_min as (m & Hm & Hmin).
  pose proof (diag_form_lower m (fun i => x i - u i) Hmin) as L.
  destruct (Rle_lt_or_eq_dec 0 _ (sq2_nonneg (fun i => x i - u i))) as [H|H].
  - assert (0 < m * sq2 (fun i => x i - u i)) by (apply Rmult_lt_0_compat; lra). lra.
  - exfalso. apply Hu.
    apply (gs_fixed R_field_laws K n r u x beta_neq (fun i Hi => Rgt_not_eq _ _ (diag_pos i Hi)) Hx).
    intros i Hi. pose proof (sq2_zero _ (eq_sym H) i Hi) as E. cbn in E. lra.
Qed.
Lemma zero_not_solution : ~ (forall i, (i < n)%nat -> mv n K (fun _ => 0) i = r i).
Proof.
  intros H. destruct Hr as (i & Hi & Hne). apply Hne. rewrite <- (H i Hi). unfold mv. apply rsum_0. intros. cbn. ring.
Qed.

(** an error below that of the zero vector keeps the vector away from zero *)
Lemma away x eta : 0 < eta -> err x <= err (fun _ => 0) - eta -> eta * eta <= 4 * sq2 r * sq2 x.
Proof.
  intros He H.
  assert (E : err x = form (A := RA) n K x - 2 * rsum n (fun i => x i * r i) + err (fun _ => 0)).
  { assert (Mz : forall i, (i < n)%nat -> mv n K (fun j => x j - z j) i = mv n K x i - r i).
    { intros i Hi. rewrite <- (Hz i Hi). unfold mv. symmetry. etransitivity; [symmetry; apply rsum_sub|].
      apply rsum_ext. intros c _. cbn. ring. }
    assert (X : rsum n (fun i => z i * mv n K x i) = rsum n (fun i => x i * r i)).
    { transitivity (rsum n (fun i => rsum n (fun c => z i * (K i c * x c)))).
      { apply rsum_ext. intros i _. rewrite rsum_scale_l. reflexivity. }
      rewrite rsum_swap. apply rsum_ext. intros i Hi. rewrite <- (Hz i Hi). unfold mv. change (@bigsum RA n) with (rsum n).
      rewrite <- rsum_scale_l. apply rsum_ext. intros c Hc. rewrite (Hsym c i Hc Hi). cbn. ring. }
    assert (Z0 : err (fun _ => 0) = rsum n (fun i => z i * r i)).
    { unfold err, form. apply rsum_ext. intros i Hi. rewrite <- (Hz i Hi). unfold mv. cbn.
      change (@bigsum RA n) with (rsum n). rewrite <- !rsum_scale_l. apply rsum_ext. intros c _. ring. }
    rewrite Z0. unfold err, form. change (@bigsum RA n) with (rsum n).
    transitivity (rsum n (fun i => x i * mv n K x i - z i * mv n K x i - x i * r i + z i * r i)).
    { apply rsum_ext. intros i Hi. rewrite (Mz i Hi). cbn. ring. }
    rewrite rsum_add, !rsum_sub, X. cbn. lra. }
  pose proof (form_nonneg x) as Q. pose proof (cauchy_sq n x r) as C. fold (sq2 x) (sq2 r) in C.
  set (p := rsum n (fun i => x i * r i)) in *. assert (Hp : eta <= 2 * p) by lra.
  assert (eta * eta <= 2 * p * (2 * p)) by (apply Rmult_le_compat; lra). lra.
Qed.

Variables (k : crow RA) (S : list ((nat * nat) * RA)) (b : lm RA).
Hypothesis Hk : cr_repr k S.
Hypothesis Hshape : cr_shape k = (n, n).
Hypothesis Hel : forall i j, (i < n)%nat -> (j < n)%nat -> el k i j = K i j.
Hypothesis Hb : rep b n 1 (fun j _ => r j).

Lemma sweep_ret u fu : rep u n 1 (fun j _ => fu j) ->
  exists x fx, gs_sweep k b u = Ret x /\ rep x n 1 (fun j _ => fx j) /\ forall i, (i < n)%nat -> fx i = gs_val K n r fu fx i.
Proof.
  intros Hu. destruct (gs_sweep_ret R_field_laws k S n b u r fu Hk Hshape Hb Hu) as (x & fx & E & Hx & Hv).
  { intros i Hi. apply (cr_stored k S i Hk). rewrite Hel by exact Hi. apply Rgt_not_eq, diag_pos, Hi. }
  exists x, fx. split; [exact E|]. split; [exact Hx|]. intros i Hi. rewrite (Hv i Hi). unfold gs_val. rewrite Hel by exact Hi.
  do 4 f_equal; [|apply (bigsum_ext (A := RA)); intros c Hc; now rewrite Hel].
  do 2 f_equal. apply (bigsum_ext (A := RA)). intros c Hc. now rewrite Hel.
Qed.

(** what the loop returns is no farther from the solution than where it started *)
Lemma loop_energy tol rounds : forall u fu x, rep u n 1 (fun j _ => fu j) -> gs_loop k b tol rounds u = Ret x ->
  exists fx, rep x n 1 (fun j _ => fx j) /\ err fx <= err fu /\
    (~ (forall i, (i < n)%nat -> mv n K fu i = r i) -> err fx < err fu).
Proof.
  induction rounds as [|rounds IH]; intros u fu x Hu E; cbn [gs_loop] in E;
    destruct (sweep_ret u fu Hu) as (y & fy & Ey & Hy & Hv); rewrite Ey in E; cbn [mbind out_bind] in E;
    apply bind_ret_inv in E as (d & _ & E); apply bind_ret_inv in E as (dn & _ & E); apply bind_ret_inv in E as (un & _ & E);
    destruct (sleb (sdiv dn un) tol).
  - injection E as <-. exists fy. split; [exact Hy|]. split; [exact (sweep_le fu fy Hv)|exact (sweep_lt fu fy Hv)].
  - discriminate.
  - injection E as <-. exists fy. split; [exact Hy|]. split; [exact (sweep_le fu fy Hv)|exact (sweep_lt fu fy Hv)].
  - destruct (IH y fy x Hy E) as (fx & Hx & H1 & _). exists fx. split; [exact Hx|].
    pose proof (sweep_le fu fy Hv). split; [lra|]. intros Hn. pose proof (sweep_lt fu fy Hv Hn). lra.
Qed.

Lemma test_false (x y : nat -> RA) (tol : RA) : 0 < tol -> 0 < sq2 x ->
  sleb (sdiv (vnorm (A := RA) n y) (vnorm (A := RA) n x)) tol = false -> tol * tol * sq2 x < sq2 y.
Proof.
  intros Ht Hx E. unfold sleb in E. apply orb_false_iff in E as [E1 E2].
  unfold vnorm in *. change (@bigsum RA n (fun i => ssq (y i))) with (sq2 y) in *. change (@bigsum RA n (fun i => ssq (x i))) with (sq2 x) in *.
  cbn in E1, E2. assert (L : tol < R_sqrt.sqrt (sq2 y) / R_sqrt.sqrt (sq2 x)).
  { destruct (Rtotal_order (R_sqrt.sqrt (sq2 y) / R_sqrt.sqrt (sq2 x)) tol) as [H|[H|H]]; [|  |exact H].
    - apply R_ltb_iff in H. congruence.
    - apply R_eqb_iff in H. congruence. }
  pose proof (R_sqrt.sqrt_lt_R0 _ Hx) as Sx. pose proof (R_sqrt.sqrt_sqrt _ (Rlt_le _ _ Hx)) as Qx.
  pose proof (R_sqrt.sqrt_sqrt _ (sq2_nonneg y)) as Qy.
  apply (Rmult_lt_compat_r _ _ _ Sx) in L. unfold Rdiv in L. rewrite Rmult_assoc, Rinv_l, Rmult_1_r in L by lra.
  set (sx := R_sqrt.sqrt (sq2 x)) in *. set (sy := R_sqrt.sqrt (sq2 y)) in *.
  assert (P : 0 <= tol * sx) by (apply Rmult_le_pos; lra).
  assert (tol * sx * (tol * sx) < sy * sy) by (apply Rmult_le_0_lt_compat; lra).
  rewrite <- Qx, <- Qy. lra.
Qed.

Section bound.
Variables (tol : RA) (eta m : R).
Hypothesis Htol : 0 < tol.
Hypothesis Heta : 0 < eta.
Hypothesis Hm : 0 < m.
Hypothesis Hmin : forall i, (i < n)%nat -> m <= K i i.

Lemma r_pos : 0 < sq2 r.
Proof.
  destruct (Rle_lt_or_eq_dec 0 _ (sq2_nonneg r)) as [H|H]; [exact H|exfalso].
  destruct Hr as (i & Hi & Hne). apply Hne. exact (sq2_zero r (eq_sym H) i Hi).
Qed.
Definition drop : R := 7 / 13 * (m * (tol * tol * (eta * eta / (4 * sq2 r)))).
Lemma drop_pos : 0 < drop.
Proof.
  pose proof r_pos. unfold drop. apply Rmult_lt_0_compat; [lra|]. apply Rmult_lt_0_compat; [exact Hm|].
  apply Rmult_lt_0_compat; [now apply Rmult_lt_0_compat|]. apply Rdiv_lt_0_compat; [now apply Rmult_lt_0_compat|lra].
Qed.

Lemma loop_ends rounds : forall u fu, rep u n 1 (fun j _ => fu j) -> err fu <= err (fun _ => 0) - eta ->
  err fu < (INR rounds + 1) * drop -> exists x, gs_loop k b tol rounds u = Ret x.
Proof.
  induction rounds as [|rounds IH]; intros u fu Hu He Hlt; cbn [gs_loop];
    destruct (sweep_ret u fu Hu) as (y & fy & Ey & Hy & Hv); rewrite Ey; cbn [mbind out_bind];
    destruct (rep_sub u y n fu fy Hu Hy) as (d & Ed & Hdf); rewrite Ed; cbn [mbind out_bind];
    rewrite (frobenius_col d n _ Hdf), (frobenius_col y n _ Hy); cbn [mbind out_bind];
    destruct (sleb _ tol) eqn:Et; try (eexists; reflexivity);
    pose proof (sweep_energy fu fy Hv) as En; pose proof (sweep_le fu fy Hv) as Hle;
    pose proof (diag_form_lower m (fun i => fy i - fu i) Hmin) as Hlow;
    pose proof (away fy eta Heta ltac:(lra)) as Haw; pose proof r_pos as Hrp;
    assert (Hx2 : eta * eta / (4 * sq2 r) <= sq2 fy)
      by (apply (Rmult_le_reg_r (4 * sq2 r)); [lra|]; unfold Rdiv; rewrite Rmult_assoc, Rinv_l, Rmult_1_r by lra; lra);
    assert (Hx0 : 0 < eta * eta / (4 * sq2 r)) by (apply Rdiv_lt_0_compat; [now apply Rmult_lt_0_compat|lra]);
    pose proof (test_false fy _ tol Htol ltac:(lra) Et) as Hd;
    assert (Hsq : sq2 (fun j => ssub (fu j) (fy j)) = sq2 (fun i => fy i - fu i))
      by (apply rsum_ext; intros i _; cbn; ring);
    rewrite Hsq in Hd;
    assert (Htt : tol * tol * (eta * eta / (4 * sq2 r)) <= tol * tol * sq2 fy)
      by (apply Rmult_le_compat_l; [apply Rle_0_sqr|exact Hx2]);
    assert (Hmm : m * (tol * tol * (eta * eta / (4 * sq2 r))) <= m * sq2 (fun i => fy i - fu i))
      by (apply Rmult_le_compat_l; lra);
    assert (Hdr : err fy + drop <= err fu) by (unfold drop; lra).
  - exfalso. pose proof (form_nonneg (fun i => fy i - z i)) as Q. fold (err fy) in Q. cbn in Hlt. lra.
  - apply (IH y fy Hy); [lra|]. rewrite S_INR in Hlt. lra.
Qed.
End bound.

Lemma gauss_seidel_ends (tol : RA) : 0 < tol -> exists N, forall mi, (N <= mi)%nat -> exists x, gauss_seidel k b tol mi = Ret x.
Proof.
  intros Htol. destruct diag_min as (m & Hm & Hmin).
  assert (R0 : rep (A := RA) (lm_zeros (n, 1%nat)) n 1 (fun j _ => s0)) by apply rep_zeros.
  destruct (sweep_ret _ _ R0) as (y & fy & Ey & Hy & Hv).
  pose proof (sweep_lt _ fy Hv zero_not_solution) as Hlt. set (e0 := err (fun _ => s0)) in *.
  set (eta := e0 - err fy). assert (Heta : 0 < eta) by (unfold eta; lra).
  pose proof (drop_pos tol eta m Htol Heta Hm) as Hdp. set (dl := drop tol eta m) in *.
  destruct (nat_above dl e0 Hdp) as [N HN]. exists N. intros mi Hmi. unfold gauss_seidel.
  rewrite Hshape. cbn [fst snd]. rewrite Nat.eqb_refl. cbn [assert_ mbind out_bind].
  destruct Hb as (Wb & Hsb & Heb). cbn in Hsb. injection Hsb as H1 H2. rewrite H1, H2, !Nat.eqb_refl. cbn [assert_ mbind out_bind].
  cbn [gs_loop]. rewrite Ey. cbn [mbind out_bind].
  destruct (rep_sub _ y n _ fy R0 Hy) as (d & Ed & Hdf). rewrite Ed. cbn [mbind out_bind].
  rewrite (frobenius_col d n _ Hdf), (frobenius_col y n _ Hy). cbn [mbind out_bind].
  destruct (sleb _ tol); [eexists; reflexivity|].
  apply (loop_ends tol eta m Htol Heta Hm Hmin mi y fy Hy).
  - change (err (fun _ => 0)) with e0. unfold eta. lra.
  - fold dl.
    apply le_INR in Hmi. assert (INR N * dl <= INR mi * dl) by (apply Rmult_le_compat_r; lra). lra.
Qed.
End real.

(** positive definite systems have solutions *)
Section solvable.
Context {A : arith} (OL : ord_laws A).
Let FL : field_laws A := ol_field A OL.
Add Field Afield60 : (fl_field A FL).
Local Open Scope arith_scope.
Lemma posdef_solve n : forall (K : nat -> nat -> A), posdef n K -> forall r : nat -> A, exists z, forall i, (i < n)%nat -> mv n K z i = r i.
Proof.
  induction n as [|n IH]; intros K HP r; [exists (fun _ => 0); lia|].
  assert (HPn : posdef n K).
  { intros x (i & Hi & Hne). set (y := fun j => if (j <? n)%nat then x j else 0).
    assert (E : bigsum (S n) (fun i => y i * mv (S n) K y i) = bigsum n (fun i => x i * mv n K x i)).
    { cbn [bigsum]. assert (Yn : y n = 0) by (unfold y; now rewrite Nat.ltb_irrefl).
      rewrite Yn. transitivity (bigsum n (fun i => y i * mv (S n) K y i)); [ring|]. apply bigsum_ext. intros c Hc. unfold mv. cbn [bigsum]. rewrite Yn.
      unfold y at 1. rewrite (proj2 (Nat.ltb_lt c n) Hc). f_equal.
      transitivity (bigsum n (fun k => K c k * y k)); [ring|]. apply bigsum_ext. intros k Hk. unfold y. now rewrite (proj2 (Nat.ltb_lt k n) Hk). }
    rewrite <- E. apply HP. exists i. split; [lia|]. unfold y. now rewrite (proj2 (Nat.ltb_lt i n) Hi). }
  destruct (IH K HPn (fun i => K i n)) as (w & Hw). destruct (IH K HPn r) as (y & Hy).
  set (s := K n n - bigsum n (fun k => K n k * w k)).
  assert (Hs : s <> 0).
  { set (x := fun j => if (j <? n)%nat then 0 - w j else 1).
    assert (Xn : x n = 1) by (unfold x; now rewrite Nat.ltb_irrefl).
    assert (M : forall i, mv (S n) K x i = K i n - bigsum n (fun k => K i k * w k)).
    { intros i. unfold mv. cbn [bigsum]. rewrite Xn.
      transitivity (0 - bigsum n (fun k => K i k * w k) + K i n * 1); [f_equal|ring].
      transitivity (bigsum n (fun k => 0 - K i k * w k)).
      - apply bigsum_ext. intros k Hk. unfold x. rewrite (proj2 (Nat.ltb_lt k n) Hk). ring.
      - rewrite (bigsum_sub FL), (bigsum_0 FL n (fun _ => 0)) by reflexivity. reflexivity. }
    assert (P : lts 0 (bigsum (S n) (fun i => x i * mv (S n) K x i))).
    { apply HP. exists n. split; [lia|]. rewrite Xn. apply (one_neq_0 OL). }
    cbn [bigsum] in P. rewrite (bigsum_0 FL), Xn, M in P.
    - intros E. unfold s in E. rewrite E in P. apply (lts_irr OL (0 : A)). replace (0 : A) with (0 + 1 * 0 : A) at 2 by ring. exact P.
    - intros i Hi. rewrite M. pose proof (Hw i Hi) as Ew. unfold mv in Ew. rewrite Ew. ring. }
  set (t := (r n - bigsum n (fun k => K n k * y k)) / s).
  exists (fun j => if (j <? n)%nat then y j - t * w j else t).
  assert (M : forall i, mv (S n) K (fun j => if (j <? n)%nat then y j - t * w j else t) i =
    bigsum n (fun k => K i k * y k) - t * bigsum n (fun k => K i k * w k) + K i n * t).
  { intros i. unfold mv. cbn [bigsum]. rewrite Nat.ltb_irrefl. f_equal.
    rewrite <- (bigsum_scale_l FL), <- (bigsum_sub FL). apply bigsum_ext. intros k Hk. rewrite (proj2 (Nat.ltb_lt k n) Hk). ring. }
  intros i Hi. rewrite M. destruct (Nat.eq_dec i n) as [->|Hne].
  - transitivity (bigsum n (fun k => K n k * y k) + s * t); [unfold s; ring|]. unfold t. field. exact Hs.
  - pose proof (Hw i ltac:(lia)) as Ew. pose proof (Hy i ltac:(lia)) as Ey. unfold mv in Ew, Ey. rewrite Ew, Ey. ring.
Qed.
End solvable.

(** ** the functions of the program *)
Section program.
Lemma col_rep {A : arith} (m : lm A) n : lm_wf m -> mshape m = (n, 1%nat) -> rep m n 1 (fun j _ => el m j 0).
Proof. intros W H. eapply rep_ext; [now apply rep_self|]. intros a c _ Hc. now replace c with 0%nat by lia. Qed.

Lemma sweep_identity {A : arith} (FL : field_laws A) (k : crow A) (r u : lm A) n (z : nat -> A) :
  cr_wf k -> cr_shape k = (n, n) -> lm_wf r -> mshape r = (n, 1%nat) -> lm_wf u -> mshape u = (n, 1%nat) ->
  gs_beta (A := A) <> s0 -> (forall i, (i < n)%nat -> el k i i <> s0) -> symm n (el k) ->
  (forall i, (i < n)%nat -> mv n (el k) z i = el r i 0) ->
  exists x, gs_sweep k r u = Ret x /\ mshape x = (n, 1%nat) /\
    form n (el k) (fun i => ssub (el u i 0) (z i)) =
    sadd (form n (el k) (fun i => ssub (el x i 0) (z i)))
         (smul (ssub (sdiv (sadd s1 s1) gs_beta) s1) (diag_form n (el k) (fun i => ssub (el x i 0) (el u i 0)))).
Proof.
  intros (S & H) Hs Wr Hsr Wu Hsu Hbeta Hd Hsym Hz.
  destruct (gs_sweep_ret FL k S n r u _ _ H Hs (col_rep r n Wr Hsr) (col_rep u n Wu Hsu)) as (x & fx & E & Hx & Hv).
  { intros i Hi. apply (cr_stored k S i H), Hd, Hi. }
  exists x. split; [exact E|]. split; [apply Hx|]. destruct Hx as (_ & _ & He).
  pose proof (gs_energy FL (el k) n _ (fun j => el u j 0) fx z Hsym Hbeta Hd Hv Hz) as G. rewrite G. f_equal; [|f_equal].
  - unfold form, mv. apply bigsum_ext. intros i Hi. rewrite (He i 0%nat) by lia. f_equal. apply bigsum_ext. intros c Hc. now rewrite (He c 0%nat) by lia.
  - unfold diag_form. apply bigsum_ext. intros i Hi. now rewrite (He i 0%nat) by lia.
Qed.

Lemma seidel_ends (k : crow R_arith) (r : lm R_arith) n (tol : R_arith) :
  cr_wf k -> cr_shape k = (n, n) -> lm_wf r -> mshape r = (n, 1%nat) -> symm n (el k) -> posdef n (el k) ->
  (exists i, (i < n)%nat /\ el r i 0 <> 0%R) -> (0 < tol)%R ->
  exists N, forall limit, (N <= limit)%nat -> exists x, gauss_seidel k r tol limit = Ret x.
Proof.
  intros (S & H) Hs Wr Hsr Hsym Hpd Hne Ht. destruct (posdef_solve R_ord_laws n (el k) Hpd (fun i => el r i 0)) as (z & Hz).
  exact (gauss_seidel_ends n (el k) (fun j => el r j 0) z Hsym Hpd Hz Hne k S r H Hs (fun _ _ _ _ => eq_refl) (col_rep r n Wr Hsr) tol Ht).
Qed.

Lemma seidel_closer (k : crow R_arith) (r x : lm R_arith) n (z : nat -> R_arith) (tol : R_arith) limit :
  cr_wf k -> cr_shape k = (n, n) -> lm_wf r -> mshape r = (n, 1%nat) -> symm n (el k) -> posdef n (el k) ->
  (forall i, (i < n)%nat -> mv n (el k) z i = el r i 0) -> (exists i, (i < n)%nat /\ el r i 0 <> 0%R) ->
  gauss_seidel k r tol limit = Ret x ->
  mshape x = (n, 1%nat) /\ (form n (el k) (fun i => ssub (el x i 0) (z i)) < form n (el k) z)%R.
Proof.
  intros (S & H) Hs Wr Hsr Hsym Hpd Hz Hne E. unfold gauss_seidel in E.
  apply bind_ret_inv in E as (_ & _ & E). apply bind_ret_inv in E as (_ & _ & E). apply bind_ret_inv in E as (_ & _ & E).
  rewrite Hs in E. cbn [fst] in E.
  destruct (loop_energy n (el k) (fun j => el r j 0) z Hsym Hpd Hz k S r H Hs (fun _ _ _ _ => eq_refl) (col_rep r n Wr Hsr) tol _ _ (fun _ => s0) x (rep_zeros n 1) E)
    as (fx & Hx & _ & Hlt).
  destruct Hx as (_ & Hsx & He). split; [exact Hsx|].
  specialize (Hlt (zero_not_solution n (el k) (fun j => el r j 0) Hne)).
  eapply Rle_lt_trans; [|eapply Rlt_le_trans; [exact Hlt|]].
  - right. unfold err, form, mv. apply (bigsum_ext (A := R_arith)). intros i Hi. rewrite (He i 0%nat) by lia. cbn. f_equal.
    apply (bigsum_ext (A := R_arith)). intros c Hc. now rewrite (He c 0%nat) by lia.
  - right. unfold err, form, mv. apply (bigsum_ext (A := R_arith)). intros i Hi. cbn.
    change (@bigsum R_arith n) with (rsum n). rewrite <- !rsum_scale_l. apply rsum_ext. intros c _. ring.
Qed.

(** the residual of an accepted answer *)
Lemma seidel_residual (k : crow R_arith) (r x : lm R_arith) n (tol : R_arith) limit :
  cr_wf k -> cr_shape k = (n, n) -> lm_wf r -> mshape r = (n, 1%nat) -> (forall i, (i < n)%nat -> el k i i <> 0%R) ->
  (0 < tol)%R -> gauss_seidel k r tol limit = Ret x -> (exists i, (i < n)%nat /\ el x i 0 <> 0%R) ->
  forall i, (i < n)%nat ->
    (Rabs (el r i 0 - mv n (el k) (fun j => el x j 0%nat) i) <=
     tol * (R_sqrt.sqrt (rsum n (fun c => el k i c * el k i c)) * R_sqrt.sqrt (rsum n (fun c => el x c 0%nat * el x c 0%nat))))%R.
Proof.
  intros Wk Hs Wr Hsr Hd Ht E (i0 & Hi0 & Hne) i Hi.
  destruct (gauss_seidel_ret R_field_laws k n r (fun j => el r j 0) tol limit Wk Hs (col_rep r n Wr Hsr) Hd) as [F|(x' & fx & fu & E' & Hx & Hv & Htest)]; [congruence|].
  assert (x' = x) as -> by congruence. destruct Hx as (_ & _ & He).
  pose proof (gs_residual R_field_laws (el k) n (fun j => el r j 0) fu fx beta_neq Hd Hv i Hi) as G.
  assert (M : mv n (el k) (fun j => el x j 0%nat) i = mv n (el k) fx i).
  { unfold mv. apply (bigsum_ext (A := R_arith)). intros c Hc. now rewrite (He c 0%nat) by lia. }
  rewrite M. rewrite beta_R in G. cbn in G. rewrite G. clear G M.
  set (d := fun c => (fx c - fu c)%R). set (K := el k).
  assert (B : (Rabs (K i i * d i / (13 / 10) - rsum n (fun c => K i c * (if (c <? i)%nat then 0 else d c))) <= rsum n (fun c => Rabs (K i c) * Rabs (d c)))%R).
  { replace (K i i * d i / (13 / 10) - rsum n (fun c => K i c * (if (c <? i)%nat then 0 else d c)))%R
      with (rsum n (fun c => (if (c =? i)%nat then K i i * d i / (13 / 10) else 0) - K i c * (if (c <? i)%nat then 0 else d c)))%R.
    - eapply Rle_trans; [apply rsum_abs|]. apply rsum_le. intros c _. rewrite <- Rabs_mult.
      destruct (Nat.eqb_spec c i) as [->|Hc].
      + rewrite Nat.ltb_irrefl. replace (K i i * d i / (13 / 10) - K i i * d i)%R with (- (3 / 13) * (K i i * d i))%R by field.
        rewrite (Rabs_mult (- (3 / 13))). rewrite Rabs_Ropp, (Rabs_pos_eq (3 / 13)) by lra. pose proof (Rabs_pos (K i i * d i)). lra.
      + destruct (c <? i)%nat.
        * rewrite Rmult_0_r, Rminus_0_r, Rabs_R0. apply Rabs_pos.
        * unfold Rminus. rewrite Rplus_0_l, Rabs_Ropp. apply Rle_refl.
    - rewrite rsum_sub. f_equal. unfold rsum. rewrite (bigsum_single R_field_laws n i); [|exact Hi|].
      + now rewrite Nat.eqb_refl.
      + intros c _ Hc. now rewrite (proj2 (Nat.eqb_neq c i) Hc). }
  eapply Rle_trans; [exact B|]. eapply Rle_trans; [apply cauchy_abs|].
  assert (X : rsum n (fun c => el x c 0%nat * el x c 0%nat)%R = rsum n (fun c => fx c * fx c)%R).
  { apply rsum_ext. intros c Hc. now rewrite (He c 0%nat) by lia. }
  rewrite X. set (kk := R_sqrt.sqrt (rsum n (fun c => K i c * K i c)%R)). set (xx := R_sqrt.sqrt (rsum n (fun c => fx c * fx c)%R)).
  assert (Hxx : (0 < xx)%R).
  { apply R_sqrt.sqrt_lt_R0. destruct (Rle_lt_or_eq_dec 0 (rsum n (fun c => fx c * fx c)%R)) as [L|L]; [apply rsum_nonneg; intros; apply Rle_0_sqr|exact L|].
    exfalso. apply Hne. rewrite (He i0 0%nat) by lia. exact (sq2_zero n fx (eq_sym L) i0 Hi0). }
  assert (T : (R_sqrt.sqrt (rsum n (fun c => d c * d c)) <= tol * xx)%R).
  { assert (D : rsum n (fun c => d c * d c)%R = @bigsum R_arith n (fun c => ssq (ssub (fu c) (fx c)))) by (apply rsum_ext; intros c _; unfold d; cbn; ring).
    rewrite D. unfold vnorm in Htest. change (@bigsum R_arith n (fun c => ssq (fx c))) with (rsum n (fun c => fx c * fx c)%R) in Htest.
    set (dd := @bigsum R_arith n (fun c => ssq (ssub (fu c) (fx c)))) in *. cbn in Htest. fold xx in Htest.
    unfold sleb in Htest. cbn in Htest.
    assert (L : (R_sqrt.sqrt dd / xx <= tol)%R).
    { apply orb_true_iff in Htest as [H|H]; [apply R_ltb_iff in H; now left|apply R_eqb_iff in H; now right]. }
    apply (Rmult_le_compat_r xx) in L; [|lra]. unfold Rdiv in L. rewrite Rmult_assoc, Rinv_l, Rmult_1_r in L by lra. exact L. }
  replace (tol * (kk * xx))%R with (kk * (tol * xx))%R by ring. apply Rmult_le_compat_l; [apply R_sqrt.sqrt_pos|exact T].
Qed.
End program.
