(** The Cholesky solver in rounded arithmetic: backward error, success and forward error. *)
From Coq Require Import Reals Lra Lia.
From Verif Require Export RoundChol.
Local Close Scope R_scope.

(** [a] exceeds [lam] times its own diagonal as a quadratic form over the first [n] indices *)
Definition scaled_pd (n : nat) (a : nat -> nat -> R) (lam : R) : Prop :=
  forall z : nat -> R, (lam * rsum n (fun i => a i i * (z i * z i)) <=
    rsum n (fun i => z i * rsum n (fun j => a i j * z j)))%R.

Section gram.
Context (u : R) (Hu : (0 <= u < 1)%R).
Local Open Scope R_scope.

Lemma sqrt_row n N (f : nat -> R) (t : nat -> R) : (forall q, (q < n)%nat -> ecnt u N (t q)) ->
  R_sqrt.sqrt (rsum n (fun q => f q * f q)) * R_sqrt.sqrt ((1 - u) ^ N) <= R_sqrt.sqrt (rsum n (fun q => f q * f q * t q)).
Proof.
  intros Ht. rewrite <- sqrt_mult_alt by (apply rsum_nonneg; intros; apply Rle_0_sqr). apply sqrt_le_1_alt.
  rewrite <- rsum_scale_r. apply rsum_le. intros q Hq. apply Rmult_le_compat_l; [apply Rle_0_sqr|]. apply (Ht q Hq).
Qed.

Lemma gram_bound n M N (f g e s t : nat -> R) : (forall q, (q < n)%nat -> ecnt u N (s q)) -> (forall q, (q < n)%nat -> ecnt u N (t q)) ->
  (forall q, (q < n)%nat -> Rabs (e q) <= gee u M) ->
  Rabs (rsum n (fun q => f q * g q * e q)) <=
  gee u (M + N) * (R_sqrt.sqrt (rsum n (fun q => f q * f q * s q)) * R_sqrt.sqrt (rsum n (fun q => g q * g q * t q))).
Proof.
  intros Hs Ht He. pose proof (gee_nonneg u Hu M) as GM. pose proof (gee_nonneg u Hu N) as GN.
  apply Rle_trans with (gee u M * rsum n (fun q => Rabs (f q) * Rabs (g q))).
  { apply Rle_trans with (1 := rsum_abs _ _). rewrite <- rsum_scale_l. apply rsum_le. intros q Hq. rewrite !Rabs_mult.
    rewrite (Rmult_comm (gee u M)). apply Rmult_le_compat_l; [|auto]. apply Rmult_le_pos; apply Rabs_pos. }
  pose proof (cauchy_abs n f g) as C. pose proof (sqrt_row n N f s Hs) as Bf. pose proof (sqrt_row n N g t Ht) as Bg.
  set (F := R_sqrt.sqrt (rsum n (fun q => f q * f q))) in *. set (G := R_sqrt.sqrt (rsum n (fun q => g q * g q))) in *.
  set (F' := R_sqrt.sqrt (rsum n (fun q => f q * f q * s q))) in *. set (G' := R_sqrt.sqrt (rsum n (fun q => g q * g q * t q))) in *.
  pose proof (pw_pos u Hu N) as Pp. set (p := (1 - u) ^ N) in *.
  assert (0 <= F) by apply sqrt_pos. assert (0 <= G) by apply sqrt_pos.
  assert (0 <= F') by apply sqrt_pos. assert (0 <= G') by apply sqrt_pos.
  assert (FG : F * G * p <= F' * G').
  { assert (Hp : R_sqrt.sqrt p * R_sqrt.sqrt p = p) by (apply sqrt_def; lra).
    replace (F * G * p) with ((F * R_sqrt.sqrt p) * (G * R_sqrt.sqrt p)) by (rewrite <- Hp at 3; ring).
    pose proof (sqrt_pos p). apply Rmult_le_compat; try assumption; apply Rmult_le_pos; assumption. }
  assert (FG' : F * G <= F' * G' * / p).
  { apply (Rmult_le_reg_r p); [assumption|]. replace (F' * G' * / p * p) with (F' * G') by (field; lra). lra. }
  assert (GG : gee u M * / p <= gee u (M + N)).
  { unfold gee in *. rewrite pow_add, Rinv_mult. fold p. fold p in GN. set (v := / (1 - u) ^ M) in *. set (w := / p) in *. nra. }
  apply Rle_trans with (gee u M * (F' * G' * / p)).
  - apply Rmult_le_compat_l; [assumption|]. lra.
  - replace (gee u M * (F' * G' * / p)) with ((gee u M * / p) * (F' * G')) by ring.
    apply Rmult_le_compat_r; [|assumption]. now apply Rmult_le_pos.
Qed.
End gram.

Section abs.
Local Open Scope R_scope.
Lemma scaled_le1 n (a : nat -> nat -> R) lam : (0 < n)%nat -> 0 < a 0%nat 0%nat -> scaled_pd n a lam -> lam <= 1.
Proof.
  intros Hn H0 HP. specialize (HP (fun i => if (i =? 0)%nat then 1 else 0)).
  assert (G : forall f : nat -> R, rsum n (fun i => (if (i =? 0)%nat then 1 else 0) * f i) = f 0%nat).
  { intros f. rewrite (rsum_window n 0 1) by (try lia; intros i Hi; try lia; rewrite (proj2 (Nat.eqb_neq i 0)) by lia; ring).
    rewrite Nat.sub_0_r, rsum_S. unfold rsum. cbn [bigsum s0 R_arith Nat.add]. rewrite Nat.eqb_refl. ring. }
  cbn beta in HP. rewrite G in HP. set (e := fun i : nat => if (i =? 0)%nat then 1 else 0) in *.
  assert (He : forall i, e i * e i = e i) by (intros i; unfold e; destruct (i =? 0)%nat; ring).
  assert (E1 : rsum n (fun i => a i i * (e i * e i)) = a 0%nat 0%nat).
  { rewrite <- (G (fun i => a i i)). apply rsum_ext. intros i _. rewrite He. unfold e. ring. }
  assert (E2 : rsum n (fun j => a 0%nat j * e j) = a 0%nat 0%nat).
  { rewrite <- (G (fun i => a 0%nat i)). apply rsum_ext. intros i _. unfold e. ring. }
  unfold e in HP, E1, E2. rewrite E1 in HP. rewrite E2 in HP.
  apply (Rmult_le_reg_r (a 0%nat 0%nat)); [exact H0|]. lra.
Qed.

(** if a bordered factor has no room for its last pivot, the matrix is not definite enough *)
Lemma no_pivot r (a l : nat -> nat -> R) (d : nat -> R) g lam : 0 <= g ->
  (forall t, (t < r)%nat -> l t t <> 0) -> (forall c t, (c < t)%nat -> (t < r)%nat -> l c t = 0) ->
  (forall i, (i <= r)%nat -> 0 <= d i) -> 0 < d r ->
  (forall i j, (i <= r)%nat -> (j <= r)%nat -> Rabs (a i j - rsum r (fun t => l i t * l j t)) <= g * (d i * d j)) ->
  (forall z, lam * rsum (S r) (fun i => d i * d i * (z i * z i)) <= rsum (S r) (fun i => z i * rsum (S r) (fun j => a i j * z j))) ->
  INR (S r) * g < lam -> False.
Proof.
  intros Hg Hd Hl Hdp Hdr He HP Hlam.
  destruct (upper_exists (A := R_arith) R_field_laws r (fun t q => l q t) (fun t => l r t) Hd) as (y & Hy0).
  set (z := fun i => if (i =? r)%nat then -1 else y i).
  assert (Hzr : z r = -1) by (unfold z; now rewrite Nat.eqb_refl).
  assert (Hzy : forall i, (i < r)%nat -> z i = y i) by (intros i Hi; unfold z; now rewrite (proj2 (Nat.eqb_neq i r)) by lia).
  (* the columns of the factor annihilate z *)
  assert (Hcol : forall t, (t < r)%nat -> rsum (S r) (fun i => l i t * z i) = 0).
  { intros t Ht. rewrite rsum_S, Hzr. specialize (Hy0 t Ht).
    rewrite (rsum_ext r _ (fun i => l i t * y i)) by (intros; rewrite Hzy by assumption; reflexivity).
    rewrite (rsum_window r t r) by (try lia; intros c Hc; try lia; rewrite Hl by lia; ring).
    change (rsum (r - t) (fun i => l (t + i)%nat t * y (t + i)%nat) = l r t) in Hy0. rewrite Hy0. ring. }
  assert (Hgram : rsum (S r) (fun i => z i * rsum (S r) (fun j => rsum r (fun t => l i t * l j t) * z j)) = 0).
  { apply rsum_0. intros i Hi.
    rewrite (rsum_ext (S r) _ (fun j => rsum r (fun t => l i t * (l j t * z j)))).
    2:{ intros j Hj. rewrite <- rsum_scale_r. apply rsum_ext. intros; ring. }
    rewrite rsum_swap, rsum_0; [ring|]. intros t Ht. rewrite rsum_scale_l, Hcol by assumption. ring. }
  specialize (HP z).
  assert (Hq : rsum (S r) (fun i => z i * rsum (S r) (fun j => a i j * z j)) =
     rsum (S r) (fun i => z i * rsum (S r) (fun j => (a i j - rsum r (fun t => l i t * l j t)) * z j))).
  { rewrite <- (Rplus_0_r (rsum (S r) (fun i => z i * rsum (S r) (fun j => (_ - _) * z j)))). rewrite <- Hgram.
    rewrite <- rsum_add. apply rsum_ext. intros i Hi. rewrite <- Rmult_plus_distr_l. f_equal. rewrite <- rsum_add.
    apply rsum_ext. intros j Hj. ring. }
  pose proof (form_bound (S r) g (fun i j => a i j - rsum r (fun t => l i t * l j t)) d z z Hg) as B.
  specialize (B ltac:(intros; apply He; lia) ltac:(intros; apply Hdp; lia)). cbn beta in B. rewrite <- Hq in B.
  pose proof (Rle_abs (rsum (S r) (fun i => z i * rsum (S r) (fun j => a i j * z j)))) as B'.
  pose proof (sum_sq (S r) (fun i => d i * z i)) as Q. cbn beta in Q.
  set (Sig := rsum (S r) (fun i => d i * z i * (d i * z i))) in *.
  rewrite (rsum_ext (S r) (fun i => d i * d i * (z i * z i)) (fun i => d i * z i * (d i * z i))) in HP by (intros; ring).
  fold Sig in HP.
  assert (Hsig : 0 < Sig).
  { unfold Sig. rewrite rsum_S, Hzr. assert (0 <= rsum r (fun i => d i * z i * (d i * z i))) by (apply rsum_nonneg; intros; apply Rle_0_sqr).
    assert (0 < d r * d r) by now apply Rmult_lt_0_compat. lra. }
  pose proof (Rmult_le_compat_l g _ _ Hg Q) as Q'.
  assert (0 < (lam - INR (S r) * g) * Sig) by (apply Rmult_lt_0_compat; lra).
  lra.
Qed.
End abs.

Section solve.
Context {u : R} {rnd : R -> R} (RN : rounding u rnd).
Let Hu := rn_u _ _ RN.
Local Open Scope R_scope.
Local Notation A := (Rnd_arith rnd).
Implicit Types (a l : lenv A).
Local Notation ent := (el (A := A) (M := lenv A)).
Local Notation sym a := (fun r c : nat => sym_el (A := A) a r c : R).

(** ** backward error *)
Lemma ll_round a l (b x0 : list A) : le_wf a -> (0 < lev_n a)%nat -> cholesky_envelope a = Ret l ->
  (forall i, (i < lev_n a)%nat -> (ent l i i : R) <> 0) -> length b = lev_n a -> length x0 = lev_n a ->
  exists x, solve_ll l b x0 = Ret x /\ length x = lev_n a /\
  exists E : nat -> nat -> R,
    (forall i, (i < lev_n a)%nat -> rsum (lev_n a) (fun j => (sym a i j + E i j) * vel x j) = vel b i) /\
    forall i j, (i < lev_n a)%nat -> (j < lev_n a)%nat ->
      Rabs (E i j) <= gee u (4 * lev_n a + 5) * (R_sqrt.sqrt (sym a i i) * R_sqrt.sqrt (sym a j j)).
Proof.
  intros Wa Hn0 Ec Hd Hb Hx0. destruct (chol_round RN a l Wa Hn0 Ec Hd) as (T3 & HT3 & E3).
  destruct (chol_steps a Wa Hn0) as (l' & E' & W & Hnn & Hn & _). rewrite Ec in E'. injection E' as <-.
  unfold solve_ll. cbn [mshape le_like fst]. rewrite <- Hn in *. set (n := lev_n l) in *.
  rewrite (proj2 (Nat.eqb_eq _ _)) by congruence. cbn [assert_ mbind out_bind].
  rewrite (proj2 (Nat.eqb_eq _ _)) by congruence. cbn [assert_ mbind out_bind].
  destruct (le_solve_round RN l b W Hb Hd) as (y & Ey & Hy & T1 & HT1 & Hye). fold n in Ey. rewrite Ey. cbn [mbind out_bind].
  destruct (le_solve_t_round RN l y x0 W Hy Hx0 Hd) as (x & Ex & Hx & T2 & HT2 & Hxe).
  exists x. split; [exact Ex|]. split; [exact Hx|]. fold n in HT1, Hye, HT2, Hxe.
  exists (fun i j => rsum n (fun q => ent l i q * ent l j q * (T1 i q * T2 j q - T3 i j q))). split.
  - intros i Hi. rewrite <- (Hye i Hi).
    transitivity (rsum n (fun j => rsum n (fun q => ent l i q * T1 i q * (ent l j q * T2 j q * vel x j)))).
    + apply rsum_ext. intros j Hj. rewrite (E3 i j Hi Hj). rewrite <- rsum_add, <- rsum_scale_r. apply rsum_ext. intros q _. rring.
    + rewrite rsum_swap. apply rsum_ext. intros q Hq. rewrite rsum_scale_l. rewrite Hxe by assumption. reflexivity.
  - intros i j Hi Hj. rewrite (E3 i i Hi Hi), (E3 j j Hj Hj).
    replace (4 * n + 5)%nat with ((3 * n + 3) + (n + 2))%nat by lia. apply (gram_bound u Hu).
    + intros q Hq. now apply HT3.
    + intros q Hq. now apply HT3.
    + intros q Hq. replace (3 * n + 3)%nat with ((n + 1 + n) + (n + 2))%nat by lia. apply (ecnt_diff u Hu).
      * apply (ecnt_mul u Hu); [apply (ecnt_mono u Hu (2 `max` i)); [lia|auto]|].
        apply (ecnt_mono u Hu (n - q)); [lia|auto].
      * now apply HT3.
Qed.

(** ** success *)
Lemma chol_success a l lam : le_wf a -> (0 < lev_n a)%nat -> cholesky_envelope a = Ret l ->
  (forall i, (i < lev_n a)%nat -> 0 < sym a i i) -> scaled_pd (lev_n a) (sym a) lam ->
  INR (lev_n a) * gee u (2 * lev_n a + 4) < lam ->
  forall i, (i < lev_n a)%nat -> 0 < (ent l i i : R).
Proof.
  intros Wa Hn0 Ec Hpos HP Hlam.
  destruct (chol_steps a Wa Hn0) as (l' & E' & W & Hnn & Hn & Heq). rewrite Ec in E'. injection E' as <-.
  set (n := lev_n a) in *.
  assert (Hlam1 : lam <= 1).
  { apply (scaled_le1 n (sym a)); auto. }
  intros i. induction i as [r IH] using lt_wf_ind. intros Hr.
  destruct (chol_diag RN a l r Wa W Hnn Hn Hr (Heq r Hr)) as (tr & Htr & [[Hneg _]|(Hgood & _)]); [exfalso|exact Hgood].
  assert (IH' : forall t, (t < r)%nat -> (ent l t t : R) <> 0) by (intros t Ht; apply Rgt_not_eq, IH; lia).
  set (sg := rsum r (fun q => ent l r q * ent l r q * tr q)) in *.
  assert (Hsg : sym a r r <= sg) by (cbn beta; rewrite sym_el_lower by lia; lra).
  pose proof (Hpos r Hr) as Har. cbn beta in Har, Hsg.
  set (a' := fun i j => if (i =? r)%nat && (j =? r)%nat then sg else sym a i j).
  (* the entries of a' from the rows computed so far *)
  assert (HT : forall i j, (i <= r)%nat -> (j <= r)%nat -> exists t : nat -> R,
     (forall q, (q < r)%nat -> ecnt u (n + 2) (t q)) /\ a' i j = rsum r (fun q => ent l i q * ent l j q * t q)).
  { assert (Hoff : forall i j, (j < i)%nat -> (i <= r)%nat -> exists t : nat -> R,
       (forall q, (q < r)%nat -> ecnt u (n + 2) (t q)) /\ (ent a i j : R) = rsum r (fun q => ent l i q * ent l j q * t q)).
    { intros i j Hji Hi. destruct (chol_off RN a l i j Wa W Hnn Hn ltac:(lia) (Heq i ltac:(lia))) as (t & Et & Ht); [apply IH'; lia|].
      exists (fun q => if (q <=? j)%nat then t q else 1). split.
      - intros q Hq. destruct (Nat.leb_spec q j); [|apply (ecnt_1 u Hu)]. apply (ecnt_mono u Hu (2 `max` j)); [lia|auto].
      - rewrite Et. rewrite (rsum_window r 0 (S j)) by (try lia; intros q Hq; try lia; rewrite (el_right l j q) by (assumption || lia); cbn [s0 Rnd_arith]; rring).
        rewrite Nat.sub_0_r. apply rsum_ext. intros q Hq. rewrite (proj2 (Nat.leb_le _ _)) by lia. reflexivity. }
    intros i j Hi Hj. destruct (Nat.lt_trichotomy i j) as [Hij|[<-|Hij]].
    - destruct (Hoff j i Hij Hj) as (t & Ht & Et). exists t. split; [exact Ht|]. unfold a'.
      rewrite (proj2 (Nat.eqb_neq i r)) by lia. cbn [andb]. rewrite sym_el_sym, sym_el_lower by lia. rewrite Et. apply rsum_ext. intros; rring.
    - unfold a'. rewrite andb_diag. destruct (Nat.eqb_spec i r) as [->|Hne].
      + exists tr. split; [|reflexivity]. intros q Hq. apply (ecnt_mono u Hu r); [lia|auto].
      + destruct (chol_diag RN a l i Wa W Hnn Hn ltac:(lia) (Heq i ltac:(lia))) as (t & Ht & [[_ K]|(_ & K1 & K2)]).
        { exfalso. apply (IH' i); [lia|exact K]. }
        exists (fun q => if (q <=? i)%nat then t q else 1). split.
        * intros q Hq. destruct (Nat.leb_spec q i); [|apply (ecnt_1 u Hu)].
          destruct (decide (q = i)) as [->|]; [apply (ecnt_mono u Hu 3); [lia|assumption]|]. apply (ecnt_mono u Hu i); [lia|]. apply Ht. lia.
        * rewrite sym_el_lower by lia. rewrite K2.
          rewrite (rsum_window r 0 (S i)) by (try lia; intros q Hq; try lia; rewrite (el_right l i q) by (assumption || lia); cbn [s0 Rnd_arith]; rring).
          rewrite Nat.sub_0_r. apply rsum_ext. intros q Hq. rewrite (proj2 (Nat.leb_le _ _)) by lia. reflexivity.
    - destruct (Hoff i j Hij Hi) as (t & Ht & Et). exists t. split; [exact Ht|]. unfold a'.
      rewrite (proj2 (Nat.eqb_neq j r)) by lia. rewrite andb_false_r. rewrite sym_el_lower by lia. exact Et. }
  apply (no_pivot r a' (fun i q => ent l i q) (fun i => R_sqrt.sqrt (a' i i)) (gee u (2 * n + 4)) lam).
  - apply (gee_nonneg u Hu).
  - exact IH'.
  - intros c t Hct _. exact (el_right l c t W Hct).
  - intros. apply sqrt_pos.
  - apply sqrt_lt_R0. unfold a'. rewrite Nat.eqb_refl. cbn [andb]. lra.
  - intros i j Hi Hj. destruct (HT i j Hi Hj) as (t & Ht & Et). destruct (HT i i Hi Hi) as (ti & Hti & Eti).
    destruct (HT j j Hj Hj) as (tj & Htj & Etj). rewrite Et, Eti, Etj.
    rewrite <- rsum_sub. rewrite (rsum_ext r _ (fun q => ent l i q * ent l j q * (t q - 1))) by (intros; rring).
    replace (2 * n + 4)%nat with ((n + 2) + (n + 2))%nat by lia. apply (gram_bound u Hu); try assumption.
    intros q Hq. apply (ecnt_gee u Hu). auto.
  - intros z. set (zc := fun i => if (i <=? r)%nat then z i else 0).
    specialize (HP zc).
    assert (Hz0 : forall i, (S r <= i < n)%nat -> zc i = 0) by (intros i Hi; unfold zc; now rewrite (proj2 (Nat.leb_gt i r)) by lia).
    assert (Hz1 : forall i, (i <= r)%nat -> zc i = z i) by (intros i Hi; unfold zc; now rewrite (proj2 (Nat.leb_le i r)) by lia).
    rewrite (rsum_window n 0 (S r)) in HP by (try lia; intros i Hi; try lia; rewrite Hz0 by lia; ring).
    rewrite (rsum_window n 0 (S r) (fun i => zc i * _)) in HP by (try lia; intros i Hi; try lia; rewrite Hz0 by lia; ring).
    rewrite Nat.sub_0_r in HP. cbn [Nat.add] in HP.
    rewrite (rsum_ext (S r) (fun i => sym_el (A := A) a i i * (zc i * zc i)) (fun i => sym a i i * (z i * z i))) in HP by (intros i Hi; rewrite Hz1 by lia; reflexivity).
    rewrite (rsum_ext (S r) (fun i => zc i * rsum n (fun j => sym_el (A := A) a i j * zc j)) (fun i => z i * rsum (S r) (fun j => sym a i j * z j))) in HP.
    2:{ intros i Hi. rewrite Hz1 by lia. f_equal.
        rewrite (rsum_window n 0 (S r)) by (try lia; intros j Hj; try lia; rewrite Hz0 by lia; ring).
        rewrite Nat.sub_0_r. cbn [Nat.add]. apply rsum_ext. intros j Hj. now rewrite Hz1 by lia. }
    (* the last diagonal entry is raised on both sides *)
    set (dl := sg - sym a r r).
    assert (Hd0 : 0 <= dl) by (unfold dl; cbn beta; lra).
    assert (E1 : rsum (S r) (fun i => R_sqrt.sqrt (a' i i) * R_sqrt.sqrt (a' i i) * (z i * z i)) = rsum (S r) (fun i => sym a i i * (z i * z i)) + dl * (z r * z r)).
    { rewrite !rsum_S.
      rewrite (rsum_ext r (fun i => R_sqrt.sqrt (a' i i) * R_sqrt.sqrt (a' i i) * (z i * z i)) (fun i => sym a i i * (z i * z i))).
      2:{ intros i Hi. unfold a'. rewrite (proj2 (Nat.eqb_neq i r)) by lia. cbn [andb]. rewrite sqrt_def; [reflexivity|]. apply Rlt_le, (Hpos i). lia. }
      unfold a'. rewrite Nat.eqb_refl. cbn [andb]. rewrite sqrt_def by lra. unfold dl. cbn beta. rring. }
    assert (E2 : rsum (S r) (fun i => z i * rsum (S r) (fun j => a' i j * z j)) = rsum (S r) (fun i => z i * rsum (S r) (fun j => sym a i j * z j)) + dl * (z r * z r)).
    { rewrite !(rsum_S r (fun i => z i * _)).
      rewrite (rsum_ext r (fun i => z i * rsum (S r) (fun j => a' i j * z j)) (fun i => z i * rsum (S r) (fun j => sym a i j * z j))).
      2:{ intros i Hi. f_equal. apply rsum_ext. intros j Hj. unfold a'. now rewrite (proj2 (Nat.eqb_neq i r)) by lia. }
      rewrite !(rsum_S r (fun j => _ * z j)). 
      rewrite (rsum_ext r (fun j => a' r j * z j) (fun j => sym a r j * z j)).
      2:{ intros j Hj. unfold a'. rewrite (proj2 (Nat.eqb_neq j r)) by lia. now rewrite andb_false_r. }
      unfold a' at 1. rewrite Nat.eqb_refl. cbn [andb]. unfold dl. cbn beta. rring. }
    rewrite E1, E2. pose proof (Rle_0_sqr (z r)) as Q. unfold Rsqr in Q.
    assert (lam * (dl * (z r * z r)) <= dl * (z r * z r)).
    { rewrite <- (Rmult_1_l (dl * (z r * z r))) at 2. apply Rmult_le_compat_r; [|assumption]. now apply Rmult_le_pos. }
    lra.
  - apply Rle_lt_trans with (INR n * gee u (2 * n + 4)); [|exact Hlam].
    apply Rmult_le_compat_r; [apply (gee_nonneg u Hu)|]. apply le_INR. lia.
Qed.
End solve.

(** ** forward error: solutions of a perturbed definite system *)
Section forward.
Local Open Scope R_scope.
Definition dnorm (n : nat) (a : nat -> nat -> R) (x : nat -> R) : R :=
  R_sqrt.sqrt (rsum n (fun i => a i i * (x i * x i))).

Lemma forward_bound n (a e : nat -> nat -> R) (x xs b : nat -> R) g lam : 0 <= g -> 0 < lam ->
  (forall i, (i < n)%nat -> 0 < a i i) -> scaled_pd n a lam ->
  (forall i j, (i < n)%nat -> (j < n)%nat -> Rabs (e i j) <= g * (R_sqrt.sqrt (a i i) * R_sqrt.sqrt (a j j))) ->
  (forall i, (i < n)%nat -> rsum n (fun j => (a i j + e i j) * x j) = b i) ->
  (forall i, (i < n)%nat -> rsum n (fun j => a i j * xs j) = b i) ->
  dnorm n a (fun i => x i - xs i) <= INR n * g / lam * dnorm n a x.
Proof.
  intros Hg Hlam Hpos HP He Hx Hxs.
  set (z := fun i => x i - xs i).
  assert (Haz : forall i, (i < n)%nat -> rsum n (fun j => a i j * z j) = - rsum n (fun j => e i j * x j)).
  { intros i Hi. specialize (Hx i Hi). specialize (Hxs i Hi).
    rewrite (rsum_ext n _ (fun j => a i j * x j + e i j * x j)) in Hx by (intros; ring). rewrite rsum_add in Hx.
    rewrite (rsum_ext n _ (fun j => a i j * x j - a i j * xs j)) by (intros; unfold z; ring). rewrite rsum_sub. lra. }
  set (d := fun i => R_sqrt.sqrt (a i i)).
  assert (Hdd : forall v : nat -> R, rsum n (fun i => a i i * (v i * v i)) = rsum n (fun i => d i * v i * (d i * v i))).
  { intros v. apply rsum_ext. intros i Hi. unfold d. rewrite <- (sqrt_def (a i i)) at 1 by (apply Rlt_le; auto). ring. }
  specialize (HP z). cbn beta in HP.
  rewrite (rsum_ext n (fun i => z i * rsum n (fun j => a i j * z j)) (fun i => - (1) * (z i * rsum n (fun j => e i j * x j)))) in HP
    by (intros i Hi; rewrite Haz by assumption; ring).
  rewrite rsum_scale_l in HP.
  pose proof (form_bound n g e d z x Hg He ltac:(intros; apply sqrt_pos)) as B.
  set (Q := rsum n (fun i => z i * rsum n (fun j => e i j * x j))) in *.
  pose proof (Rle_abs (- Q)) as BQ. rewrite Rabs_Ropp in BQ.
  unfold dnorm. rewrite (Hdd x), (Hdd z). rewrite (Hdd z) in HP.
  pose proof (cauchy_sq n (fun _ => 1) (fun i => Rabs (d i * z i))) as Cz.
  assert (Sq : forall v, rsum n (fun i => Rabs (d i * v i)) <= R_sqrt.sqrt (INR n) * R_sqrt.sqrt (rsum n (fun i => d i * v i * (d i * v i)))).
  { intros v. pose proof (sum_sq n (fun i => d i * v i)) as S. cbn beta in S.
    rewrite <- sqrt_mult_alt by apply pos_INR.
    rewrite <- (sqrt_square (rsum n (fun i => Rabs (d i * v i)))) by (apply rsum_nonneg; intros; apply Rabs_pos).
    now apply sqrt_le_1_alt. }
  set (Zn := rsum n (fun i => d i * z i * (d i * z i))) in *.
  set (Xn := rsum n (fun i => d i * x i * (d i * x i))).
  pose proof (Sq z) as Sz. pose proof (Sq x) as Sx. change (fun i => d i * z i * (d i * z i)) with (fun i => d i * z i * (d i * z i)) in Sz.
  fold Zn in Sz. fold Xn in Sx.
  assert (HZ : 0 <= Zn) by (apply rsum_nonneg; intros; apply Rle_0_sqr).
  set (sz := R_sqrt.sqrt Zn) in *. set (sx := R_sqrt.sqrt Xn) in *. set (sn := R_sqrt.sqrt (INR n)) in *.
  assert (Hsz : sz * sz = Zn) by now apply sqrt_def. assert (Hsn : sn * sn = INR n) by (apply sqrt_def, pos_INR).
  assert (0 <= sz) by apply sqrt_pos. assert (0 <= sx) by apply sqrt_pos. assert (0 <= sn) by apply sqrt_pos.
  assert (P : rsum n (fun i => Rabs (d i * z i)) * rsum n (fun j => Rabs (d j * x j)) <= (sn * sz) * (sn * sx)).
  { apply Rmult_le_compat; try assumption; apply rsum_nonneg; intros; apply Rabs_pos. }
  pose proof (Rmult_le_compat_l g _ _ Hg P) as P'.
  assert (K : lam * (sz * sz) <= INR n * g * sx * sz) by (rewrite Hsz, <- Hsn; lra).
  destruct (Req_dec sz 0) as [->|Hne].
  - apply Rmult_le_pos; [|assumption]. apply Rmult_le_pos; [apply Rmult_le_pos; [apply pos_INR|assumption]|].
    apply Rlt_le, Rinv_0_lt_compat; assumption.
  - assert (0 < sz) by lra. apply (Rmult_le_reg_r (lam * sz)); [now apply Rmult_lt_0_compat|].
    replace (INR n * g / lam * sx * (lam * sz)) with (INR n * g * sx * sz) by (field; lra).
    replace (sz * (lam * sz)) with (lam * (sz * sz)) by ring. exact K.
Qed.
End forward.
