(** Convergence of inverse iteration: the iteration in eigencoordinates. *)
From Coq Require Import Reals Lra Lia.
From Verif Require Quad.
From Verif Require Export EigTop PropFactor Round.
Local Close Scope R_scope.

(** component of [y] along column [j] *)
Definition gco {A : arith} (n : nat) (v : nat -> nat -> A) (y : nat -> A) (j : nat) : A := bigsum n (fun r => smul (v r j) (y r)).
(** square of the m-norm of column [j] *)
Definition nrm {A : arith} (n : nat) (m v : nat -> nat -> A) (j : nat) : A := gco n v (mv n m (fun c => v c j)) j.

Section coords.
Context {A : arith} (OL : ord_laws A).
Let FL : field_laws A := ol_field A OL.
Add Field Afield62 : (fl_field A FL).
Local Open Scope arith_scope.

Lemma nrm_neq0 n (k m v : nat -> nat -> A) lam j : gen_eigs n k m v lam -> (j < n)%nat -> nrm n m v j <> 0.
Proof. intros (_ & _ & H) Hj E. specialize (H j Hj). unfold nrm, gco in E. rewrite E in H. now apply (lts_irr OL) in H. Qed.

Lemma mv_comb n (b v : nat -> nat -> A) (c : nat -> A) r :
  mv n b (fun r => bigsum n (fun j => v r j * c j)) r = bigsum n (fun j => c j * mv n b (fun r => v r j) r).
Proof.
  unfold mv. transitivity (bigsum n (fun q => bigsum n (fun j => c j * (b r q * v q j)))).
  - apply bigsum_ext. intros q _. rewrite <- (bigsum_scale_l FL). apply bigsum_ext. intros; ring.
  - rewrite (bigsum_swap FL). apply bigsum_ext. intros j _. now rewrite (bigsum_scale_l FL).
Qed.

(** the components of a combination *)
Lemma gco_comb n (k m v : nat -> nat -> A) lam (c x : nat -> A) i : gen_eigs n k m v lam -> (i < n)%nat ->
  (forall r, (r < n)%nat -> x r = bigsum n (fun j => v r j * c j)) -> gco n v (mv n m x) i = c i * nrm n m v i.
Proof.
  intros (_ & Ho & _) Hi Hx. unfold gco.
  rewrite (bigsum_ext _ (fun r => bigsum n (fun j => c j * (v r i * mv n m (fun r => v r j) r)))).
  2:{ intros r Hr. rewrite (mv_ext n m x (fun r => bigsum n (fun j => v r j * c j)) r Hx), mv_comb, <- (bigsum_scale_l FL). apply bigsum_ext. intros; ring. }
  rewrite (bigsum_swap FL). rewrite (bigsum_single FL n i); [|exact Hi|].
  - rewrite (bigsum_scale_l FL). reflexivity.
  - intros j Hj Hne. rewrite (bigsum_scale_l FL), Ho by auto. ring.
Qed.

(** the eigenvectors span the space *)
Lemma eig_span n (k m v : nat -> nat -> A) lam (x : nat -> A) : gen_eigs n k m v lam ->
  exists c : nat -> A, forall r, (r < n)%nat -> x r = bigsum n (fun j => v r j * c j).
Proof.
  intros HG. destruct (kernel OL (S n) (map (fun r j => if (j =? n)%nat then x r else v r j) (seq 0 n)) (seq 0 (S n))) as (c & (j0 & Hj0 & Hc0) & _ & Hc).
  { apply NoDup_seq. } { intros p Hp. apply elem_of_seq in Hp. lia. } { rewrite map_length, !seq_length. lia. }
  assert (Hrow : forall r, (r < n)%nat -> bigsum n (fun j => v r j * c j) + x r * c n = 0).
  { intros r Hr. rewrite <- (Hc (fun j => if (j =? n)%nat then x r else v r j)).
    - cbn [bigsum]. rewrite Nat.eqb_refl. f_equal. apply bigsum_ext. intros j Hj. now rewrite (proj2 (Nat.eqb_neq j n)) by lia.
    - apply elem_of_list_fmap. exists r. split; [reflexivity|]. apply elem_of_seq. lia. }
  destruct (seqb (c n) 0) eqn:En.
  - apply (fl_eqb A FL) in En. exfalso.
    assert (Hz : forall i, (i < n)%nat -> c i = 0).
    { intros i Hi. pose proof (gco_comb n k m v lam c (fun _ => 0) i HG Hi) as H.
      assert (E0 : c i * nrm n m v i = 0).
      { rewrite <- H.
        - unfold gco. apply (bigsum_0 FL). intros r _. unfold mv. rewrite (bigsum_0 FL); [ring|]. intros; ring.
        - intros r Hr. specialize (Hrow r Hr). rewrite En in Hrow. transitivity (bigsum n (fun j => v r j * c j) + x r * 0); [now rewrite Hrow|ring]. }
      apply (mul_eq_0 OL) in E0 as [E0|E0]; [exact E0|]. now apply (nrm_neq0 n k m v lam i HG Hi) in E0. }
    apply Hc0. destruct (Nat.eq_dec j0 n) as [->|]; [exact En|apply Hz; lia].
  - assert (Hn0 : c n <> 0) by (intros E; apply (fl_eqb A FL) in E; congruence).
    exists (fun j => - (c j / c n)). intros r Hr. specialize (Hrow r Hr).
    transitivity (- (1 / c n) * bigsum n (fun j => v r j * c j)).
    + set (t := bigsum n _) in *. assert (Et : t = - (x r * c n)) by (transitivity (t + x r * c n - x r * c n); [ring|rewrite Hrow; ring]).
      rewrite Et. field. exact Hn0.
    + rewrite <- (bigsum_scale_l FL). apply bigsum_ext. intros j _. field. exact Hn0.
Qed.

(** the euclidean product of [x] and [y] by components *)
Lemma eig_dot n (k m v : nat -> nat -> A) lam (x y : nat -> A) : gen_eigs n k m v lam ->
  bigsum n (fun r => x r * y r) = bigsum n (fun j => gco n v (mv n m x) j * gco n v y j / nrm n m v j).
Proof.
  intros HG. destruct (eig_span n k m v lam x HG) as (c & Hc).
  transitivity (bigsum n (fun j => c j * gco n v y j)).
  - rewrite (bigsum_ext _ (fun r => bigsum n (fun j => c j * (v r j * y r)))).
    + rewrite (bigsum_swap FL). apply bigsum_ext. intros j _. now rewrite (bigsum_scale_l FL).
    + intros r Hr. rewrite Hc by exact Hr. rewrite <- (bigsum_scale_r FL). apply bigsum_ext. intros; ring.
  - apply bigsum_ext. intros j Hj. rewrite (gco_comb n k m v lam c x j HG Hj Hc). field. now apply (nrm_neq0 n k m v lam).
Qed.

Lemma gco_sym n (b v : nat -> nat -> A) (x : nat -> A) j : (forall r c, (r < n)%nat -> (c < n)%nat -> b r c = b c r) ->
  gco n v (mv n b x) j = bigsum n (fun r => mv n b (fun c => v c j) r * x r).
Proof.
  intros Hs. unfold gco, mv.
  rewrite (bigsum_ext _ (fun r => bigsum n (fun c => v r j * (b r c * x c)))) by (intros; now rewrite (bigsum_scale_l FL)).
  rewrite (bigsum_swap FL). apply bigsum_ext. intros c Hc. rewrite <- (bigsum_scale_r FL). apply bigsum_ext. intros r Hr. rewrite (Hs r c Hr Hc). ring.
Qed.

(** solving with the shifted matrix divides every component by its distance to the shift *)
Lemma gco_step n (k m a v : nat -> nat -> A) lam mu (x y : nat -> A) j : gen_eigs n k m v lam ->
  (forall r c, (r < n)%nat -> (c < n)%nat -> k r c = k c r) -> (forall r c, (r < n)%nat -> (c < n)%nat -> m r c = m c r) ->
  (forall r c, (r < n)%nat -> (c < n)%nat -> a r c = k r c - mu * m r c) -> (j < n)%nat ->
  (forall r, (r < n)%nat -> mv n a x r = y r) -> gco n v y j = (lam j - mu) * gco n v (mv n m x) j.
Proof.
  intros (He & _ & _) Ks Ms Ha Hj Hy.
  transitivity (gco n v (mv n k x) j - mu * gco n v (mv n m x) j).
  { unfold gco. rewrite <- (bigsum_scale_l FL), <- (bigsum_sub FL). apply bigsum_ext. intros r Hr. rewrite <- Hy by exact Hr.
    replace (mv n a x r) with (mv n k x r - mu * mv n m x r); [ring|].
    unfold mv. rewrite <- (bigsum_scale_l FL), <- (bigsum_sub FL). apply bigsum_ext. intros c Hc. rewrite Ha by assumption. ring. }
  rewrite (gco_sym n k v x j Ks), (gco_sym n m v x j Ms).
  rewrite (bigsum_ext (fun r => mv n k (fun c => v c j) r * x r) (fun r => lam j * (mv n m (fun c => v c j) r * x r))) by (intros r Hr; rewrite He by assumption; ring).
  rewrite (bigsum_scale_l FL). ring.
Qed.
End coords.

(** ** the exact course of the loop *)
Local Open Scope R_scope.
Lemma sleb_R (x y : R) : sleb (A := R_arith) x y = true <-> x <= y.
Proof.
  unfold sleb. cbn. unfold R_ltb, R_eqb. destruct (Rlt_dec x y); [split; [lra|reflexivity]|].
  destruct (Req_EM_T x y); cbn; split; try lra; try discriminate; reflexivity.
Qed.
Lemma inv_tol_R : (inv_tol (A := R_arith) : R) = / 1000000.
Proof. unfold inv_tol, slit. rewrite !Quad.sz_IZR. change (IZR 1 / IZR 1000000 = / 1000000). lra. Qed.

Section run.
Context (n : nat) (k m v : nat -> nat -> R_arith) (lam : nat -> R_arith) (HG : gen_eigs n k m v lam).
Implicit Types (g : nat -> R) (mu : R).

(** weight of component [j] of the start, and the quotients the loop forms *)
Definition iwt (g0 : nat -> R) (j : nat) : R := g0 j * g0 j / (nrm n m v j : R).
Definition inum (mu : R) (g0 : nat -> R) (i : nat) : R := rsum n (fun j => iwt g0 j * / ((lam j : R) - mu) ^ (2 * i + 1)).
Definition iden (mu : R) (g0 : nat -> R) (i : nat) : R := rsum n (fun j => iwt g0 j * / ((lam j : R) - mu) ^ (2 * i + 2)).
Definition irho (mu : R) (g0 : nat -> R) (i : nat) : R := inum mu g0 i / iden mu g0 i.
Definition istop (mu : R) (g0 : nat -> R) (i : nat) : Prop :=
  match i with 0%nat => False | S j => Rabs ((irho mu g0 i - irho mu g0 j) / irho mu g0 i) <= / 1000000 end.

Lemma nrm_pos j : (j < n)%nat -> 0 < (nrm n m v j : R).
Proof. intros Hj. destruct HG as (_ & _ & H). specialize (H j Hj). apply R_ltb_iff in H. exact H. Qed.
Lemma iwt_nonneg g0 j : (j < n)%nat -> 0 <= iwt g0 j.
Proof. intros Hj. apply Rmult_le_pos; [apply Rle_0_sqr|]. left. apply Rinv_0_lt_compat. now apply nrm_pos. Qed.
Lemma iwt_pos g0 j : (j < n)%nat -> g0 j <> 0 -> 0 < iwt g0 j.
Proof. intros Hj H. apply Rmult_lt_0_compat; [now apply Rsqr_pos_lt|]. apply Rinv_0_lt_compat. now apply nrm_pos. Qed.

Lemma even_pow_pos x i : x <> 0 -> 0 < x ^ (2 * i + 2).
Proof. intros H. replace (2 * i + 2)%nat with (2 * (i + 1))%nat by lia. rewrite pow_mult. apply pow_lt. cbn. rewrite Rmult_1_r. now apply Rsqr_pos_lt. Qed.

Lemma rsum_ge_one (f : nat -> R) j : (j < n)%nat -> (forall i, (i < n)%nat -> 0 <= f i) -> f j <= rsum n f.
Proof.
  intros Hj Hf. clear HG. revert Hj Hf. induction n as [|q IH]; intros Hj Hf; [lia|]. rewrite rsum_S. destruct (Nat.eq_dec j q) as [->|].
  - pose proof (rsum_nonneg q f ltac:(intros; apply Hf; lia)). lra.
  - assert (f j <= rsum q f) by (apply IH; [lia|intros; apply Hf; lia]). specialize (Hf q ltac:(lia)). lra.
Qed.

Lemma iden_ge mu g0 i j : (forall c, (c < n)%nat -> (lam c : R) <> mu) -> (j < n)%nat -> iwt g0 j * / ((lam j : R) - mu) ^ (2 * i + 2) <= iden mu g0 i.
Proof.
  intros Hmu Hj. apply (rsum_ge_one (fun j => iwt g0 j * / ((lam j : R) - mu) ^ (2 * i + 2)) j Hj). intros c Hc.
  apply Rmult_le_pos; [now apply iwt_nonneg|]. left. apply Rinv_0_lt_compat, even_pow_pos. specialize (Hmu c Hc). lra.
Qed.
Lemma iden_pos mu g0 i : (forall c, (c < n)%nat -> (lam c : R) <> mu) -> (exists j, (j < n)%nat /\ g0 j <> 0) -> 0 < iden mu g0 i.
Proof.
  intros Hmu (j & Hj & H). apply Rlt_le_trans with (2 := iden_ge mu g0 i j Hmu Hj).
  apply Rmult_lt_0_compat; [now apply iwt_pos|]. apply Rinv_0_lt_compat, even_pow_pos. specialize (Hmu j Hj). lra.
Qed.

Context (es : esys R_arith) (mu : R) (a : lenv R_arith) (l : lenv R_arith) (d : dg R_arith) (Hes : es_ok es n k m)
  (Ea : shifted (es_k es) (es_m es) (mu : R_arith) = Ret a) (El : cholesky_envelope_no_root a = Ret (l, d))
  (Hnz : forall c, (c < n)%nat -> vel (dg_data d) c <> (0 : R_arith)).

(** one solve *)
Lemma solve_shifted (y : list R_arith) : length y = n ->
  exists x, solve_ldl l d y (replicate n (0 : R_arith)) = Ret x /\ length x = n /\
    forall j, (j < n)%nat -> gco n v (vel y) j = (((lam j : R) - mu) * (gco n v (mv n m (vel x)) j : R) : R_arith).
Proof.
  intros Hy.
  destruct (shifted_ret R_field_laws es n k m mu Hes) as (a' & Ea' & Wa & Hn & Hsel). rewrite Ea in Ea'. injection Ea' as <-.
  destruct (ldl_inv_all R_field_laws a Wa) as (ld & El' & HI). rewrite El in El'. injection El' as <-.
  pose proof HI as (Wl & _ & Hnl & Hd & H1 & _ & _). cbn [fst snd] in *.
  destruct Hes as [Hdo Wk Hk Wm Hm Wf Hf Hen Ek Ef Em Ks Ms].
  assert (Htab : forall r c, (r < n)%nat -> (c < n)%nat -> ldl_table n (el l) (vel (dg_data d)) r c = ssub (k r c) (smul (mu : R_arith) (m r c))).
  { intros r c Hr Hc. rewrite <- Hsel by assumption. rewrite <- Hn. apply (ldl_block R_field_laws a (l, d) (lev_n a) HI); cbn; try lia.
    intros c' Hc' _. apply Hnz. lia. }
  destruct (solve_ldl_ret R_field_laws l d y (replicate n (0 : R_arith)) Wl) as (xb & Exb & Hxb & Hxe); try (rewrite ?replicate_length; congruence).
  { intros i Hi. rewrite H1 by congruence. apply (one_neq_0 R_ord_laws). }
  { intros i Hi. apply Hnz. congruence. }
  rewrite Hnl, Hn in *. exists xb. split; [exact Exb|]. split; [exact Hxb|]. intros j Hj.
  apply (gco_step R_ord_laws n k m (ldl_table n (el l) (vel (dg_data d))) v lam mu (vel xb) (vel y) j HG Ks Ms); [exact Htab|exact Hj|exact Hxe].
Qed.

(** the shift is no eigenvalue *)
Lemma shift_off j : (j < n)%nat -> (lam j : R) <> mu.
Proof.
  intros Hj E. destruct (solve_shifted (map (mv n m (fun c => v c j)) (seq 0 n))) as (x & _ & _ & H); [now rewrite map_length, seq_length|].
  specialize (H j Hj). apply (nrm_neq0 R_ord_laws n k m v lam j HG Hj). unfold nrm. transitivity (gco n v (vel (map (mv n m (fun c => v c j)) (seq 0 n))) j).
  - apply bigsum_ext. intros r Hr. now rewrite vel_map_seq.
  - rewrite H, E. cbn. ring.
Qed.

Lemma inv_loop_run g0 : (exists j, (j < n)%nat /\ g0 j <> 0) ->
  forall fi i old x y t, length x = n -> length y = n -> t <> 0 ->
  (forall j, (j < n)%nat -> (gco n v (vel y) j : R) = t * g0 j * / ((lam j : R) - mu) ^ i) ->
  old = match i with 0%nat => None | S i' => Some (irho mu g0 i' : R_arith) end ->
  (inv_loop fi n l d (es_m es) (mu : R_arith) old x y = Fuel /\ forall i', (i <= i' < i + fi)%nat -> ~ istop mu g0 i') \/
  exists i' p t', inv_loop fi n l d (es_m es) (mu : R_arith) old x y = Ret p /\ (i <= i' < i + fi)%nat /\ istop mu g0 i' /\
    (forall i'', (i <= i'' < i')%nat -> ~ istop mu g0 i'') /\
    length (ep_vec p) = n /\ (ep_value p : R) = irho mu g0 i' + mu /\ t' <> 0 /\
    forall j, (j < n)%nat -> (gco n v (mv n m (vel (ep_vec p))) j : R) = t' * g0 j * / ((lam j : R) - mu) ^ (S i').
Proof.
  intros Hg0. induction fi as [|fi IH]; intros i old x y t Hx Hy Ht Hgy Hold.
  { left. split; [reflexivity|]. intros i' Hi'. lia. }
  cbn [inv_loop]. pose proof shift_off as Hoff.
  destruct (solve_shifted y Hy) as (xb & Exb & Hxb & Hgx). change (s0 : R_arith) with (0 : R_arith). rewrite Exb. cbn [mbind out_bind].
  destruct Hes as [Hdo Wk Hk Wm Hm Wf Hf Hen Ek Ef Em Ks Ms].
  destruct (be_mul_vec_spec R_field_laws (es_m es) xb (replicate n (0 : R_arith)) Wm) as (yb & Eyb & Hyb & Hye); try (rewrite ?replicate_length; congruence).
  rewrite Eyb. cbn [mbind out_bind]. rewrite Hm in *.
  assert (Hye' : forall i, (i < n)%nat -> vel yb i = mv n m (vel xb) i).
  { intros q Hq. rewrite Hye by exact Hq. apply bigsum_ext. intros c Hc. now rewrite Em. }
  assert (Hgm : forall j, (j < n)%nat -> (gco n v (mv n m (vel xb)) j : R) = t * g0 j * / ((lam j : R) - mu) ^ (S i)).
  { intros j Hj. specialize (Hgx j Hj). specialize (Hgy j Hj). rewrite Hgy in Hgx. specialize (Hoff j Hj).
    apply (Rmult_eq_reg_l ((lam j : R) - mu)); [|lra]. rewrite <- Hgx. cbn [Rpow_def.pow]. field. split; [apply pow_nonzero; lra|lra]. }
  assert (Hgb : forall j, (j < n)%nat -> (gco n v (vel yb) j : R) = t * g0 j * / ((lam j : R) - mu) ^ (S i)).
  { intros j Hj. rewrite <- Hgm by exact Hj. unfold gco. apply (bigsum_ext (A := R_arith)). intros r Hr. now rewrite Hye'. }
  assert (Hd1 : (dot xb y : R) = t * t * inum mu g0 i).
  { rewrite (dot_vel xb y n Hxb Hy), (eig_dot R_ord_laws n k m v lam (vel xb) (vel y) HG). unfold inum. rewrite <- rsum_scale_l.
    apply rsum_ext. intros j Hj. change (@carrier R_arith) with R. pose proof (nrm_pos j Hj) as Hp. specialize (Hoff j Hj).
    change ((gco n v (mv n m (vel xb)) j : R) * (gco n v (vel y) j : R) / (nrm n m v j : R) = t * t * (iwt g0 j * / ((lam j : R) - mu) ^ (2 * i + 1))).
    rewrite (Hgm j Hj), (Hgy j Hj). unfold iwt. replace (2 * i + 1)%nat with (i + S i)%nat by lia. rewrite pow_add. field.
    repeat split; try (apply pow_nonzero); lra. }
  assert (Hd2 : (dot xb yb : R) = t * t * iden mu g0 i).
  { rewrite (dot_vel xb yb n Hxb Hyb), (eig_dot R_ord_laws n k m v lam (vel xb) (vel yb) HG). unfold iden. rewrite <- rsum_scale_l.
    apply rsum_ext. intros j Hj. change (@carrier R_arith) with R. pose proof (nrm_pos j Hj) as Hp. specialize (Hoff j Hj).
    change ((gco n v (mv n m (vel xb)) j : R) * (gco n v (vel yb) j : R) / (nrm n m v j : R) = t * t * (iwt g0 j * / ((lam j : R) - mu) ^ (2 * i + 2))).
    rewrite (Hgm j Hj), (Hgb j Hj). unfold iwt. replace (2 * i + 2)%nat with (S i + S i)%nat by lia. rewrite pow_add. field.
    repeat split; try (apply pow_nonzero); lra. }
  pose proof (iden_pos mu g0 i Hoff Hg0) as Hden.
  assert (Htt : 0 < t * t) by (now apply Rsqr_pos_lt).
  assert (Hq : 0 < (dot xb yb : R)) by (rewrite Hd2; now apply Rmult_lt_0_compat).
  assert (Hrho : (sdiv (dot xb y) (dot xb yb) : R) = irho mu g0 i).
  { change ((dot xb y : R) / (dot xb yb : R) = irho mu g0 i). rewrite Hd1, Hd2. unfold irho. field. split; lra. }
  set (mag := (ssqrt (dot xb yb) : R)). assert (Hmag : 0 < mag) by (apply sqrt_lt_R0; exact Hq).
  rewrite Hrho.
  assert (Hsc : forall z : list R_arith, (forall r, (r < n)%nat -> vel z r = ((vel yb r : R) / mag : R_arith)) ->
    forall j, (j < n)%nat -> (gco n v (vel z) j : R) = t / mag * g0 j * / ((lam j : R) - mu) ^ (S i)).
  { intros z Hz j Hj. transitivity ((gco n v (vel yb) j : R) * / mag).
    - unfold gco. change (rsum n (fun r => (v r j : R) * (vel z r : R)) = rsum n (fun r => (v r j : R) * (vel yb r : R)) * / mag).
      rewrite <- rsum_scale_r. apply rsum_ext. intros r Hr. rewrite Hz by exact Hr. unfold Rdiv. ring.
    - rewrite Hgb by exact Hj. unfold Rdiv. ring. }
  assert (Htm : t / mag <> 0) by (unfold Rdiv; apply Rmult_integral_contrapositive_currified; [exact Ht|apply Rinv_neq_0_compat; lra]).
  assert (Hdec : (match old with Some r => sleb (sabs (sdiv (ssub (irho mu g0 i : R_arith) r) (irho mu g0 i : R_arith))) inv_tol | None => false end) = true <-> istop mu g0 i).
  { destruct i as [|i0]; subst old; [split; [discriminate|intros []]|]. cbn [istop]. rewrite <- inv_tol_R. apply sleb_R. }
  match goal with |- context [if ?b then _ else _] => destruct b eqn:Eb end.
  - right. rewrite (scaled_ret n xb x) by assumption. cbn [mbind out_bind].
    eexists i, _, (t / mag). split; [reflexivity|]. cbn [ep_vec ep_value]. split; [lia|]. split; [now apply Hdec|].
    split; [intros; lia|]. split; [now rewrite map_length, seq_length|]. split; [reflexivity|]. split; [exact Htm|].
    intros j Hj. rewrite <- (Hsc (map (fun r => (mv n m (vel xb) r : R) / mag : R_arith) (seq 0 n))); [|intros r Hr; rewrite vel_map_seq by exact Hr; now rewrite Hye'|exact Hj].
    unfold gco. apply (bigsum_ext (A := R_arith)). intros r Hr. f_equal. rewrite (vel_map_seq (A := R_arith)) by exact Hr. unfold mv.
    change (rsum n (fun c => (m r c : R) * (vel (map (fun i1 => ((vel xb i1 : R) / mag : R_arith)) (seq 0 n)) c : R)) = rsum n (fun c => (m r c : R) * (vel xb c : R)) * / mag).
    rewrite <- rsum_scale_r. apply rsum_ext. intros c Hc. rewrite (vel_map_seq (A := R_arith)) by exact Hc. unfold Rdiv. ring.
  - assert (Hns : ~ istop mu g0 i) by (intros H; apply Hdec in H; congruence).
    rewrite (scaled_ret n yb y) by assumption. cbn [mbind out_bind].
    destruct (IH (S i) (Some (irho mu g0 i : R_arith)) x (map (fun r => ((vel yb r : R) / mag : R_arith)) (seq 0 n)) (t / mag)) as [(HF & Hno)|(i' & p & t' & Ep & Hi' & Hst & Hbef & Hrest)];
      [exact Hx|now rewrite map_length, seq_length|exact Htm| |reflexivity| |].
    + intros j Hj. apply Hsc; [|exact Hj]. intros r Hr. now rewrite (vel_map_seq (A := R_arith)).
    + left. split; [exact HF|]. intros i' Hi'. destruct (Nat.eq_dec i' i) as [->|]; [exact Hns|apply Hno; lia].
    + right. exists i', p, t'. split; [exact Ep|]. split; [lia|]. split; [exact Hst|]. split; [|exact Hrest].
      intros i'' Hi''. destruct (Nat.eq_dec i'' i) as [->|]; [exact Hns|apply Hbef; lia].
Qed.
End run.

(** ** convergence *)
Section conv.
Context (n : nat) (k m v : nat -> nat -> R_arith) (lam : nat -> R_arith) (HG : gen_eigs n k m v lam).
Context (mu : R) (Hoff : forall c, (c < n)%nat -> (lam c : R) <> mu) (g : nat -> R) (i0 : nat) (Hi0 : (i0 < n)%nat) (Hg : g i0 <> 0).

(** every other value with a share in the start is farther from the shift, by the factor 1/q *)
Definition apart (q : R) : Prop := forall j, (j < n)%nat -> g j <> 0 -> (lam j : R) <> lam i0 -> Rabs ((lam i0 : R) - mu) <= q * Rabs ((lam j : R) - mu).
Definition share : R := 2 * rsum n (iwt n m v g) / iwt n m v g i0.

Lemma apart_exists : (forall j, (j < n)%nat -> g j <> 0 -> (lam j : R) = lam i0 \/ Rabs ((lam i0 : R) - mu) < Rabs ((lam j : R) - mu)) ->
  exists q, 0 <= q < 1 /\ apart q.
Proof.
  intros H. enough (Hq : forall p, (p <= n)%nat -> exists q, 0 <= q < 1 /\ forall j, (j < p)%nat -> g j <> 0 -> (lam j : R) <> lam i0 -> Rabs ((lam i0 : R) - mu) <= q * Rabs ((lam j : R) - mu)).
  { destruct (Hq n ltac:(lia)) as (q & H1 & H2). exists q. split; [exact H1|exact H2]. }
  induction p as [|p IH]; intros Hp; [exists 0; split; [lra|intros; lia]|].
  destruct IH as (q & Hq & Hj); [lia|].
  assert (Hp0 : 0 < Rabs ((lam p : R) - mu)) by (apply Rabs_pos_lt; specialize (Hoff p ltac:(lia)); lra).
  destruct (Req_EM_T (g p) 0) as [E|Hne]; [|destruct (H p ltac:(lia) Hne) as [E|Hlt]].
  - exists q. split; [exact Hq|]. intros j Hjp Hgj. destruct (Nat.eq_dec j p) as [->|]; [congruence|]. apply Hj; [lia|exact Hgj].
  - exists q. split; [exact Hq|]. intros j Hjp Hgj Hl. destruct (Nat.eq_dec j p) as [->|]; [congruence|]. apply Hj; [lia|exact Hgj|exact Hl].
  - set (r := Rabs ((lam i0 : R) - mu) / Rabs ((lam p : R) - mu)).
    assert (Hr : 0 <= r < 1).
    { unfold r. split; [apply Rmult_le_pos; [apply Rabs_pos|left; now apply Rinv_0_lt_compat]|].
      apply (Rmult_lt_reg_r (Rabs ((lam p : R) - mu))); [exact Hp0|]. unfold Rdiv. rewrite Rmult_assoc, Rinv_l by lra. lra. }
    exists (Rmax q r). split; [split; [apply Rle_trans with q; [lra|apply Rmax_l]|now apply Rmax_lub_lt]|].
    intros j Hjp Hgj Hl. destruct (Nat.eq_dec j p) as [->|].
    + apply Rle_trans with (r * Rabs ((lam p : R) - mu)).
      * right. unfold r, Rdiv. rewrite Rmult_assoc, Rinv_l by lra. ring.
      * apply Rmult_le_compat_r; [lra|apply Rmax_r].
    + apply Rle_trans with (q * Rabs ((lam j : R) - mu)); [apply Hj; [lia|exact Hgj|exact Hl]|]. apply Rmult_le_compat_r; [apply Rabs_pos|apply Rmax_l].
Qed.

Lemma share_nonneg : 0 <= share.
Proof.
  unfold share. apply Rmult_le_pos; [apply Rmult_le_pos; [lra|apply rsum_nonneg; intros; now apply (iwt_nonneg n k m v lam HG)]|].
  left. apply Rinv_0_lt_compat. now apply (iwt_pos n k m v lam HG).
Qed.

Lemma rho_err q i : 0 <= q <= 1 -> apart q -> Rabs (irho n m v lam mu g i - ((lam i0 : R) - mu)) <= Rabs ((lam i0 : R) - mu) * share * q ^ (2 * i + 1).
Proof.
  intros Hq Hap. set (nu := fun j => (lam j : R) - mu).
  assert (Hnu : forall j, (j < n)%nat -> nu j <> 0) by (intros j Hj; specialize (Hoff j Hj); unfold nu; lra).
  assert (Hnp : forall j, (j < n)%nat -> 0 < Rabs (nu j)) by (intros j Hj; now apply Rabs_pos_lt, Hnu).
  pose proof (iwt_pos n k m v lam HG g i0 Hi0 Hg) as Hw.
  assert (Hden : 0 < iden n m v lam mu g i) by (apply (iden_pos n k m v lam HG); [exact Hoff|eauto]).
  assert (Hge : iwt n m v g i0 * / Rabs (nu i0) ^ (2 * i + 2) <= iden n m v lam mu g i).
  { apply Rle_trans with (2 := iden_ge n k m v lam HG mu g i i0 Hoff Hi0). right. fold (nu i0). f_equal. f_equal.
    rewrite RPow_abs. apply Rabs_right. left. apply even_pow_pos. now apply Hnu. }
  assert (Hnum : Rabs (inum n m v lam mu g i - nu i0 * iden n m v lam mu g i) <= 2 * rsum n (iwt n m v g) * (q ^ (2 * i + 1) * / Rabs (nu i0) ^ (2 * i + 1))).
  { unfold inum, iden. rewrite <- rsum_scale_l, <- rsum_sub. apply Rle_trans with (1 := rsum_abs _ _).
    rewrite <- rsum_scale_l, <- rsum_scale_r. apply rsum_le. intros j Hj. fold (nu j).
    pose proof (iwt_nonneg n k m v lam HG g j Hj) as Hwj. pose proof (Hnu j Hj) as Hj0. pose proof (Hnp j Hj) as Hjp.
    assert (Hrhs : 0 <= q ^ (2 * i + 1) * / Rabs (nu i0) ^ (2 * i + 1)).
    { apply Rmult_le_pos; [apply pow_le; lra|]. left. apply Rinv_0_lt_compat, pow_lt. now apply Hnp. }
    replace (iwt n m v g j * / nu j ^ (2 * i + 1) - nu i0 * (iwt n m v g j * / nu j ^ (2 * i + 2))) with (iwt n m v g j * ((nu j - nu i0) * / nu j ^ (2 * i + 2))).
    2:{ replace (2 * i + 2)%nat with (S (2 * i + 1)) by lia. cbn [Rpow_def.pow]. field. split; [now apply pow_nonzero|exact Hj0]. }
    destruct (Req_EM_T (g j) 0) as [Eg|Hgj].
    { replace (iwt n m v g j) with 0 by (unfold iwt; rewrite Eg; unfold Rdiv; ring). rewrite Rmult_0_l, Rabs_R0. lra. }
    rewrite Rabs_mult, (Rabs_right (iwt n m v g j)) by lra. rewrite (Rmult_comm 2), Rmult_assoc. apply Rmult_le_compat_l; [exact Hwj|].
    destruct (Req_EM_T (lam j : R) (lam i0)) as [E|Hne].
    { replace (nu j - nu i0) with 0 by (unfold nu; lra). rewrite Rmult_0_l, Rabs_R0. lra. }
    specialize (Hap j Hj Hgj Hne). fold (nu i0) (nu j) in Hap.
    assert (Hsm : Rabs (nu i0) <= Rabs (nu j)).
    { apply Rle_trans with (1 := Hap). rewrite <- (Rmult_1_l (Rabs (nu j))) at 2. apply Rmult_le_compat_r; lra. }
    assert (Hdf : Rabs (nu j - nu i0) <= 2 * Rabs (nu j)).
    { unfold Rminus. apply Rle_trans with (1 := Rabs_triang _ _). rewrite Rabs_Ropp. lra. }
    assert (Hpw : Rabs (nu i0) ^ (2 * i + 1) <= q ^ (2 * i + 1) * Rabs (nu j) ^ (2 * i + 1)).
    { rewrite <- Rpow_mult_distr. apply pow_incr. split; [apply Rabs_pos|exact Hap]. }
    pose proof (pow_lt (Rabs (nu j)) (2 * i + 1) Hjp) as Hpj. pose proof (pow_lt (Rabs (nu i0)) (2 * i + 1) (Hnp i0 Hi0)) as Hpi.
    rewrite Rabs_mult, (Rabs_right (/ nu j ^ (2 * i + 2))) by (apply Rle_ge; left; apply Rinv_0_lt_compat, even_pow_pos, Hj0).
    apply Rle_trans with (2 * Rabs (nu j) * / nu j ^ (2 * i + 2)).
    { apply Rmult_le_compat_r; [left; apply Rinv_0_lt_compat, even_pow_pos, Hj0|exact Hdf]. }
    replace (nu j ^ (2 * i + 2)) with (Rabs (nu j) * Rabs (nu j) ^ (2 * i + 1)).
    2:{ change (Rabs (nu j) ^ S (2 * i + 1) = nu j ^ (2 * i + 2)). replace (S (2 * i + 1)) with (2 * i + 2)%nat by lia. rewrite RPow_abs. apply Rabs_right. left. apply even_pow_pos, Hj0. }
    replace (2 * Rabs (nu j) * / (Rabs (nu j) * Rabs (nu j) ^ (2 * i + 1))) with (2 * / Rabs (nu j) ^ (2 * i + 1)) by (field; split; lra).
    apply Rmult_le_compat_l; [lra|].
    apply (Rmult_le_reg_r (Rabs (nu j) ^ (2 * i + 1) * Rabs (nu i0) ^ (2 * i + 1))); [now apply Rmult_lt_0_compat|].
    replace (/ Rabs (nu j) ^ (2 * i + 1) * (Rabs (nu j) ^ (2 * i + 1) * Rabs (nu i0) ^ (2 * i + 1))) with (Rabs (nu i0) ^ (2 * i + 1)) by (field; lra).
    replace (q ^ (2 * i + 1) * / Rabs (nu i0) ^ (2 * i + 1) * (Rabs (nu j) ^ (2 * i + 1) * Rabs (nu i0) ^ (2 * i + 1))) with (q ^ (2 * i + 1) * Rabs (nu j) ^ (2 * i + 1)) by (field; lra).
    exact Hpw. }
  fold (nu i0). unfold irho.
  replace (inum n m v lam mu g i / iden n m v lam mu g i - nu i0) with ((inum n m v lam mu g i - nu i0 * iden n m v lam mu g i) / iden n m v lam mu g i) by (field; lra).
  unfold Rdiv at 1. rewrite Rabs_mult, (Rabs_right (/ iden n m v lam mu g i)) by (apply Rle_ge; left; now apply Rinv_0_lt_compat).
  apply (Rmult_le_reg_r (iden n m v lam mu g i)); [exact Hden|]. rewrite Rmult_assoc, Rinv_l, Rmult_1_r by lra.
  apply Rle_trans with (1 := Hnum).
  pose proof (pow_lt (Rabs (nu i0)) (2 * i + 1) (Hnp i0 Hi0)) as Hpi. pose proof (Hnp i0 Hi0) as Hni.
  apply Rle_trans with (Rabs (nu i0) * share * q ^ (2 * i + 1) * (iwt n m v g i0 * / Rabs (nu i0) ^ (2 * i + 2))).
  - right. unfold share. replace (2 * i + 2)%nat with (S (2 * i + 1)) by lia. cbn [Rpow_def.pow]. field. repeat split; lra.
  - apply Rmult_le_compat_l; [|exact Hge]. apply Rmult_le_pos; [apply Rmult_le_pos; [lra|apply share_nonneg]|apply pow_le; lra].
Qed.

(** the loop's test is met from some point on *)
Lemma stops q : 0 <= q < 1 -> apart q -> exists i1, forall i, (i1 <= i)%nat -> istop n m v lam mu g (S i).
Proof.
  intros Hq Hap. pose proof share_nonneg as Hs. set (nu := Rabs ((lam i0 : R) - mu)).
  assert (Hnu : 0 < nu) by (apply Rabs_pos_lt; specialize (Hoff i0 Hi0); lra).
  destruct (pow_lt_1_zero q ltac:(rewrite Rabs_right; lra) (/ (8000000 * (share + 1)))) as (N & HN); [apply Rinv_0_lt_compat; lra|].
  exists N. intros i Hi.
  assert (He : forall j, (i <= j)%nat -> Rabs (irho n m v lam mu g j - ((lam i0 : R) - mu)) <= nu * / 8000000).
  { intros j Hj. apply Rle_trans with (1 := rho_err q j ltac:(lra) Hap). fold nu. rewrite Rmult_assoc. apply Rmult_le_compat_l; [lra|].
    specialize (HN (2 * j + 1)%nat ltac:(lia)). rewrite Rabs_right in HN by (apply Rle_ge, pow_le; lra).
    apply Rle_trans with ((share + 1) * / (8000000 * (share + 1))); [|right; field; lra].
    apply Rmult_le_compat; [exact Hs|apply pow_le; lra|lra|lra]. }
  pose proof (He i ltac:(lia)) as H1. pose proof (He (S i) ltac:(lia)) as H2. cbn [istop].
  set (r1 := irho n m v lam mu g i) in *. set (r2 := irho n m v lam mu g (S i)) in *. set (c := (lam i0 : R) - mu) in *.
  assert (Hr2 : nu - nu * / 8000000 <= Rabs r2).
  { pose proof (Rabs_triang_inv c (c - r2)) as Ht. replace (c - (c - r2)) with r2 in Ht by ring. rewrite (Rabs_minus_sym c r2) in Ht. fold nu in Ht. lra. }
  assert (Hd : Rabs (r2 - r1) <= nu * / 4000000).
  { replace (r2 - r1) with ((r2 - c) + - (r1 - c)) by ring. apply Rle_trans with (1 := Rabs_triang _ _). rewrite Rabs_Ropp. lra. }
  assert (Hr20 : 0 < Rabs r2) by lra.
  unfold Rdiv. rewrite Rabs_mult. rewrite Rabs_inv. apply (Rmult_le_reg_r (Rabs r2)); [exact Hr20|].
  rewrite Rmult_assoc, Rinv_l, Rmult_1_r by lra. lra.
Qed.
End conv.

Lemma inv_loop_mono {A : arith} (n : nat) (l : lenv A) d m mu p fi : forall old x y, inv_loop fi n l d m mu old x y = Ret p ->
  forall fi', (fi <= fi')%nat -> inv_loop fi' n l d m mu old x y = Ret p.
Proof.
  induction fi as [|fi IH]; intros old x y H fi' Hf; [discriminate|]. destruct fi' as [|fi']; [lia|]. cbn [inv_loop] in *.
  destruct (solve_ldl l d y (replicate n s0)) as [xb| | |]; try discriminate. cbn [mbind out_bind] in *.
  destruct (be_mul_vec m xb (replicate n s0)) as [yb| | |]; try discriminate. cbn [mbind out_bind] in *.
  match goal with |- context [if ?b then _ else _] => destruct b end; [exact H|].
  match goal with |- context [scaled ?a ?b ?c ?d'] => destruct (scaled a b c d') as [y'| | |] end; try discriminate. cbn [mbind out_bind] in *.
  apply IH; [exact H|lia].
Qed.

(** ** inverse_iterate *)
Lemma inverse_iterate_conv (es : esys R_arith) n k m v lam (mu : R) d rnd eigs x i0 q :
  es_ok es n k m -> gen_eigs n k m v lam -> pivots_at es (mu : R_arith) d -> (forall c, (c < n)%nat -> vel d c <> (0 : R_arith)) ->
  (match eigs with Some e => gram_schmidt (es_m es) e rnd | None => Ret rnd end) = Ret x -> length x = n ->
  let g : nat -> R := gco n v (mv n m (vel x)) in
  (i0 < n)%nat -> g i0 <> 0 -> 0 <= q < 1 -> apart n lam mu g i0 q ->
  exists fi0 p, (forall fi, (fi0 <= fi)%nat -> inverse_iterate fi rnd (es_k es) (es_m es) (mu : R_arith) eigs = Ret p) /\ length (ep_vec p) = n /\
    Rabs ((ep_value p : R) - lam i0) <= Rabs ((lam i0 : R) - mu) * share n m v g i0 * q ^ 3 /\
    forall j, (j < n)%nat -> (lam j : R) <> lam i0 ->
      Rabs (gco n v (mv n m (vel (ep_vec p))) j) * Rabs (g i0) <= q ^ 2 * Rabs (g j) * Rabs (gco n v (mv n m (vel (ep_vec p))) i0).
Proof.
  intros Hes HG (a & l & Ea & El) Hnz Ex Hx g Hi0 Hg Hq Hap. pose proof Hes as [Hdo Wk Hk Wm Hm Wf Hf Hen Ek Ef Em Ks Ms].
  pose proof (shift_off n k m v lam HG es mu a l (DG d) Hes Ea El Hnz) as Hoff.
  destruct (stops n k m v lam HG mu Hoff g i0 Hi0 Hg q Hq Hap) as (i1 & Hst).
  destruct (be_mul_vec_spec R_field_laws (es_m es) x (replicate n (0 : R_arith)) Wm) as (y & Ey & Hy & Hye); try (rewrite ?replicate_length; congruence).
  rewrite Hm in *.
  assert (Hgy : forall j, (j < n)%nat -> (gco n v (vel y) j : R) = 1 * g j * / ((lam j : R) - mu) ^ 0).
  { intros j Hj. transitivity (g j); [|cbn; field]. unfold g, gco. apply (bigsum_ext (A := R_arith)). intros r Hr. rewrite Hye by exact Hr. f_equal.
    apply bigsum_ext. intros c Hc. now rewrite Em. }
  assert (Hrun : forall fi, inverse_iterate fi rnd (es_k es) (es_m es) (mu : R_arith) eigs = inv_loop fi n l (DG d) (es_m es) (mu : R_arith) None x y).
  { intros fi. unfold inverse_iterate. rewrite (proj2 (Nat.eqb_eq _ _)) by congruence. cbn [assert_ mbind out_bind].
    rewrite Ea. cbn [mbind out_bind]. rewrite El. cbn [mbind out_bind fst snd]. rewrite Ex. cbn [mbind out_bind]. rewrite Hk.
    change (s0 : R_arith) with (0 : R_arith). rewrite Ey. reflexivity. }
  destruct (inv_loop_run n k m v lam HG es mu a l (DG d) Hes Ea El Hnz g ltac:(eauto) (S (S i1)) 0 None x y 1 Hx Hy ltac:(lra) Hgy eq_refl)
    as [(_ & Hno)|(i & p & t & Ep & Hi & Hsi & _ & Hlp & Hval & Ht & Hgp)].
  { exfalso. apply (Hno (S i1) ltac:(lia)). apply Hst. lia. }
  exists (S (S i1)), p. split; [intros fi Hfi; rewrite Hrun; exact (inv_loop_mono n l (DG d) (es_m es) _ p (S (S i1)) None x y Ep fi Hfi)|].
  split; [exact Hlp|].
  assert (Hi1 : (1 <= i)%nat) by (destruct i; [destruct Hsi|lia]).
  assert (Hsh : 0 <= share n m v g i0) by (now apply (share_nonneg n k m v lam HG)).
  split.
  - rewrite Hval. replace (irho n m v lam mu g i + mu - (lam i0 : R)) with (irho n m v lam mu g i - ((lam i0 : R) - mu)) by ring.
    apply Rle_trans with (1 := rho_err n k m v lam HG mu Hoff g i0 Hi0 Hg q i ltac:(lra) Hap).
    apply Rmult_le_compat_l; [apply Rmult_le_pos; [apply Rabs_pos|exact Hsh]|].
    replace (2 * i + 1)%nat with (3 + (2 * i - 2))%nat by lia. rewrite pow_add. rewrite <- (Rmult_1_r (q ^ 3)) at 2.
    apply Rmult_le_compat_l; [apply pow_le; lra|]. rewrite <- (pow1 (2 * i - 2)). apply pow_incr. lra.
  - intros j Hj Hne. rewrite (Hgp j Hj), (Hgp i0 Hi0). rewrite !Rabs_mult, !Rabs_inv, <- !RPow_abs.
    assert (Hj0 : 0 < Rabs ((lam j : R) - mu)) by (apply Rabs_pos_lt; specialize (Hoff j Hj); lra).
    assert (Hi00 : 0 < Rabs ((lam i0 : R) - mu)) by (apply Rabs_pos_lt; specialize (Hoff i0 Hi0); lra).
    destruct (Req_EM_T (g j) 0) as [E|Hgj]; [rewrite E, Rabs_R0; lra|]. specialize (Hap j Hj Hgj Hne).
    set (a0 := Rabs ((lam i0 : R) - mu)) in *. set (aj := Rabs ((lam j : R) - mu)) in *.
    enough (Hz : / aj ^ S i <= q ^ 2 * / a0 ^ S i).
    { apply Rle_trans with (Rabs t * Rabs (g j) * Rabs (g i0) * / aj ^ S i); [right; ring|].
      apply Rle_trans with (Rabs t * Rabs (g j) * Rabs (g i0) * (q ^ 2 * / a0 ^ S i)); [|right; ring].
      apply Rmult_le_compat_l; [|exact Hz]. repeat apply Rmult_le_pos; apply Rabs_pos. }
    pose proof (pow_lt aj (S i) Hj0) as P1. pose proof (pow_lt a0 (S i) Hi00) as P2.
    apply (Rmult_le_reg_r (aj ^ S i * a0 ^ S i)); [now apply Rmult_lt_0_compat|].
    replace (/ aj ^ S i * (aj ^ S i * a0 ^ S i)) with (a0 ^ S i) by (field; lra).
    replace (q ^ 2 * / a0 ^ S i * (aj ^ S i * a0 ^ S i)) with (q ^ 2 * aj ^ S i) by (field; lra).
    apply Rle_trans with ((q * aj) ^ S i); [apply pow_incr; lra|]. rewrite Rpow_mult_distr. apply Rmult_le_compat_r; [lra|].
    replace (S i) with (2 + (i - 1))%nat by lia. rewrite pow_add. rewrite <- (Rmult_1_r (q ^ 2)) at 2.
    apply Rmult_le_compat_l; [apply pow_le; lra|]. rewrite <- (pow1 (i - 1)). apply pow_incr. lra.
Qed.

(** components do not depend on the numbering *)
Lemma gco_permute {A : arith} (OL : ord_laws A) n p (m v : nat -> nat -> A) (x w : list A) j : perm_wf n p -> length x = n ->
  (forall i, (i < n)%nat -> w !! pf p i = x !! i) ->
  gco n (fun r j => v (pf p r) j) (mv n (fun r c => m (pf p r) (pf p c)) (vel x)) j = gco n v (mv n m (vel w)) j.
Proof.
  intros W Hl Hw. unfold gco. rewrite <- (bigsum_permute OL n p (fun r => smul (v r j) (mv n m (vel w) r)) W). apply bigsum_ext. intros r Hr. cbn beta. f_equal.
  rewrite <- (mv_permute OL n p m (vel w) r W). apply mv_ext. intros c Hc. symmetry. now apply (vel_permuted n p x w W Hl Hw).
Qed.
Lemma nrm_permute {A : arith} (OL : ord_laws A) n p (m v : nat -> nat -> A) j : perm_wf n p ->
  nrm n (fun r c => m (pf p r) (pf p c)) (fun r j => v (pf p r) j) j = nrm n m v j.
Proof.
  intros W. unfold nrm, gco. rewrite <- (bigsum_permute OL n p (fun r => smul (v r j) (mv n m (fun c => v c j) r)) W). apply bigsum_ext. intros r Hr. cbn beta. f_equal.
  now rewrite <- (mv_permute OL n p m (fun c => v c j) r W).
Qed.
