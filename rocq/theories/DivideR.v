(** Dividing a boundary segment over the real numbers. *)
From Coq Require Import Reals Lra.
From Verif Require Export BoundsProofs InstR.
Local Open Scope nat_scope.

Section total.
Context {A : arith} (g : geo A).
Lemma divide_total (b : bound A) s h : s ∈ b_set b ->
  if (div_low g (vget b s.1) (vget b s.2) h =? div_num g (vget b s.1) (vget b s.2) h)%Z
  then divide_segment g b s h = Panic else exists b', divide_segment g b s h = Ret b'.
Proof.
  intros Hs. unfold divide_segment, is_segment. rewrite bool_decide_eq_true_2 by exact Hs. cbn [assert_ mbind out_bind]. cbv zeta.
  fold (div_num g (vget b s.1) (vget b s.2) h). fold (div_low g (vget b s.1) (vget b s.2) h).
  destruct (_ =? _)%Z; [reflexivity|].
  destruct (take_attr (b_forces b) s) as [fs f]. destruct (take_attr (b_dcons b) s) as [ds c].
  fold (div_leg g (vget b s.1) (vget b s.2) h). fold (div_step f c (div_leg g (vget b s.1) (vget b s.2) h)).
  match goal with |- context [foldM _ (seq 0 ?k) (?b0, ?i, ?q)] => destruct (div_loop f c (div_leg g (vget b s.1) (vget b s.2) h) k 0 b0 i q) as (np' & ->) end.
  cbn [mbind out_bind]. eauto.
Qed.
Lemma poly_total (b : bound A) poly : (forall a c p q, g_meet g a c p q = false) -> poly <> [] -> exists r, store_polygon g b poly = Ret r.
Proof.
  intros Hg Hp. destruct poly as [|p poly]; [contradiction|].
  assert (I : forall b p q s, intersects g b p q s = false).
  { intros b' p' q' s'. unfold intersects. apply not_true_iff_false. intros H. apply existsb_exists in H as (x & _ & H). rewrite Hg, andb_false_r in H. discriminate. }
  unfold store_polygon. fold (poly_step g). cbn [store_vertex vertex_new].
  assert (L : forall l st, exists r, foldM (poly_step g) l st = Ret r).
  { clear -I. induction l as [|x l IH]; intros [[b0 prev] ids]; cbn [foldM]; [eauto|].
    assert (P : exists st, poly_step g x (b0, prev, ids) = Ret st).
    { unfold poly_step. cbn [store_vertex vertex_new]. unfold store_base_segment. rewrite I. cbn [mbind out_bind]. eauto. }
    destruct P as (st & ->). apply IH. }
  match goal with |- context [foldM _ _ ?st] => destruct (L poly st) as ([[b1 prev] ids] & ->) end. cbn [mbind out_bind].
  unfold store_base_segment. rewrite I. cbn [mbind out_bind]. eauto.
Qed.
End total.

Local Open Scope R_scope.
Local Notation sqrt := R_sqrt.sqrt (only parsing).
Ltac req := match goal with |- @eq _ ?x ?y => change (@eq R x y) end; cbn [fst snd sadd ssub smul sdiv R_arith].
Lemma sz_R z : sz (A := R_arith) z = IZR z.
Proof.
  assert (P : forall p, InitialRing.gen_phiPOS (1 : R) Rplus Rmult p = IZR (Z.pos p)).
  { induction p as [p IH|p IH|]; [| |reflexivity].
    - rewrite Pos2Z.inj_xI, plus_IZR, mult_IZR, <- IH. destruct p; cbn; ring.
    - rewrite Pos2Z.inj_xO, mult_IZR, <- IH. destruct p; cbn; ring. }
  destruct z as [|p|p]; [reflexivity|exact (P p)|].
  change (- InitialRing.gen_phiPOS (1 : R) Rplus Rmult p = IZR (Z.neg p)). rewrite P.
  change (Z.neg p) with (- Z.pos p)%Z. now rewrite opp_IZR.
Qed.

Definition floor_ok (g : geo R_arith) : Prop := forall x : R, IZR (g_floor g x) <= x < IZR (g_floor g x) + 1.
(** a number of equal pieces of length within the limits *)
Definition piece_count (d h : R) (n : Z) : Prop := (0 < n)%Z /\ h <= d / IZR n < sqrt 3 * h.
Definition rdist (p q : xy R_arith) : R := sqrt ((fst p - fst q) * (fst p - fst q) + (snd p - snd q) * (snd p - snd q)).

Lemma IZR_lt_le (x y : Z) : IZR x < IZR y + 1 -> (x <= y)%Z.
Proof. intros H. apply Z.lt_succ_r. apply lt_IZR. rewrite succ_IZR. exact H. Qed.

Section divide.
Variable g : geo R_arith.
Hypothesis Fl : floor_ok g.
Variables (a c : xy R_arith) (h : R).
Hypothesis Hh : 0 < h.
Let d := rdist a c.

Lemma dist_R (p q : xy R_arith) : xy_dist p q = rdist p q.
Proof. reflexivity. Qed.
Lemma s3_pos : 0 < sqrt 3.
Proof. apply sqrt_lt_R0. lra. Qed.
Lemma low_R : div_low g a c h = g_floor g (d / (h * sqrt 3)).
Proof. unfold div_low. rewrite sz_R. reflexivity. Qed.
Lemma num_R : div_num g a c h = g_floor g (d / h).
Proof. reflexivity. Qed.

Lemma count_num : div_low g a c h <> div_num g a c h <-> exists n, piece_count d h n.
Proof.
  pose proof s3_pos as S3. rewrite low_R, num_R. set (lo := g_floor g (d / (h * sqrt 3))). set (hi := g_floor g (d / h)).
  pose proof (Fl (d / (h * sqrt 3))) as [L1 L2]. pose proof (Fl (d / h)) as [U1 U2]. fold lo in L1, L2. fold hi in U1, U2.
  assert (Hd : 0 <= d) by apply sqrt_pos.
  assert (S1 : 1 < sqrt 3) by (rewrite <- sqrt_1 at 1; apply sqrt_lt_1; lra).
  assert (Mono : d / (h * sqrt 3) <= d / h).
  { unfold Rdiv. apply Rmult_le_compat_l; [exact Hd|]. apply Rinv_le_contravar; [exact Hh|]. rewrite <- (Rmult_1_r h) at 1. apply Rmult_le_compat_l; lra. }
  assert (Hlh : (lo <= hi)%Z) by (apply IZR_lt_le; lra).
  split.
  - intros Hne. assert (Hlt : (lo < hi)%Z) by lia. exists hi.
    assert (Hlo : (0 <= lo)%Z).
    { apply IZR_lt_le. apply Rle_lt_trans with (d / (h * sqrt 3)); [|lra]. apply Rmult_le_pos; [exact Hd|]. left. apply Rinv_0_lt_compat. apply Rmult_lt_0_compat; lra. }
    split; [lia|]. assert (Hn : 0 < IZR hi) by (apply IZR_lt; lia). split.
    + apply (Rmult_le_reg_r (IZR hi)); [exact Hn|]. replace (d / IZR hi * IZR hi) with d by (field; lra).
      apply (Rmult_le_reg_r (/ h)); [now apply Rinv_0_lt_compat|]. replace (h * IZR hi * / h) with (IZR hi) by (field; lra). exact U1.
    + apply (Rmult_lt_reg_r (IZR hi)); [exact Hn|]. replace (d / IZR hi * IZR hi) with d by (field; lra).
      assert (Hk : d / (h * sqrt 3) < IZR hi).
      { apply Rlt_le_trans with (IZR lo + 1); [exact L2|]. rewrite <- succ_IZR. apply IZR_le. lia. }
      apply (Rmult_lt_compat_r (h * sqrt 3)) in Hk; [|apply Rmult_lt_0_compat; lra].
      replace (d / (h * sqrt 3) * (h * sqrt 3)) with d in Hk by (field; lra). lra.
  - intros (n & Hn & P1 & P2) Heq. assert (Hn' : 0 < IZR n) by (now apply IZR_lt).
    assert (A1 : IZR n <= d / h).
    { apply (Rmult_le_reg_r h); [exact Hh|]. replace (d / h * h) with d by (field; lra).
      apply (Rmult_le_compat_r (IZR n)) in P1; [|lra]. replace (d / IZR n * IZR n) with d in P1 by (field; lra). lra. }
    assert (A2 : d / (h * sqrt 3) < IZR n).
    { apply (Rmult_lt_reg_r (h * sqrt 3)); [apply Rmult_lt_0_compat; lra|]. replace (d / (h * sqrt 3) * (h * sqrt 3)) with d by (field; lra).
      apply (Rmult_lt_compat_r (IZR n)) in P2; [|lra]. replace (d / IZR n * IZR n) with d in P2 by (field; lra). lra. }
    assert (B1 : (n <= hi)%Z) by (apply IZR_lt_le; lra).
    assert (B2 : (lo < n)%Z) by (apply lt_IZR; lra). lia.
Qed.

Lemma num_count : div_low g a c h <> div_num g a c h -> piece_count d h (div_num g a c h).
Proof.
  intros Hne. pose proof s3_pos as S3. rewrite low_R, num_R in *. set (lo := g_floor g (d / (h * sqrt 3))) in *. set (hi := g_floor g (d / h)) in *.
  pose proof (Fl (d / (h * sqrt 3))) as [L1 L2]. pose proof (Fl (d / h)) as [U1 U2]. fold lo in L1, L2. fold hi in U1, U2.
  assert (Hd : 0 <= d) by apply sqrt_pos.
  assert (S1 : 1 < sqrt 3) by (rewrite <- sqrt_1 at 1; apply sqrt_lt_1; lra).
  assert (Mono : d / (h * sqrt 3) <= d / h).
  { unfold Rdiv. apply Rmult_le_compat_l; [exact Hd|]. apply Rinv_le_contravar; [exact Hh|]. rewrite <- (Rmult_1_r h) at 1. apply Rmult_le_compat_l; lra. }
  assert (Hlh : (lo <= hi)%Z) by (apply IZR_lt_le; lra). assert (Hlt : (lo < hi)%Z) by lia.
  assert (Hlo : (0 <= lo)%Z).
  { apply IZR_lt_le. apply Rle_lt_trans with (d / (h * sqrt 3)); [|lra]. apply Rmult_le_pos; [exact Hd|]. left. apply Rinv_0_lt_compat. apply Rmult_lt_0_compat; lra. }
  split; [lia|]. assert (Hn : 0 < IZR hi) by (apply IZR_lt; lia). split.
  + apply (Rmult_le_reg_r (IZR hi)); [exact Hn|]. replace (d / IZR hi * IZR hi) with d by (field; lra).
    apply (Rmult_le_reg_r (/ h)); [now apply Rinv_0_lt_compat|]. replace (h * IZR hi * / h) with (IZR hi) by (field; lra). exact U1.
  + apply (Rmult_lt_reg_r (IZR hi)); [exact Hn|]. replace (d / IZR hi * IZR hi) with d by (field; lra).
    assert (Hk : d / (h * sqrt 3) < IZR hi).
    { apply Rlt_le_trans with (IZR lo + 1); [exact L2|]. rewrite <- succ_IZR. apply IZR_le. lia. }
    apply (Rmult_lt_compat_r (h * sqrt 3)) in Hk; [|apply Rmult_lt_0_compat; lra].
    replace (d / (h * sqrt 3) * (h * sqrt 3)) with d in Hk by (field; lra). lra.
Qed.

Lemma leg_R (n := div_num g a c h) : (0 < n)%Z -> d <> 0 -> div_leg g a c h = ((fst c - fst a) / IZR n, (snd c - snd a) / IZR n).
Proof.
  intros Hn Hd. assert (Hn' : IZR n <> 0) by (apply not_0_IZR; lia). unfold div_leg. rewrite sz_R, dist_R. fold d. fold n. unfold xy_scale, xy_unit.
  assert (E : xy_norm (xy_sub c a) = d).
  { unfold xy_norm, xy_sub, d, rdist, ssq. cbn. f_equal. req. ring. }
  rewrite E. unfold xy_sub. cbn [fst snd ssub smul sdiv R_arith]. f_equal; req; field; auto.
Qed.
End divide.

(** the i-th point, a + i/n (c - a) *)
Definition along_R (a c : xy R_arith) (n : Z) (i : nat) : xy R_arith :=
  (fst a + INR i / IZR n * (fst c - fst a), snd a + INR i / IZR n * (snd c - snd a)).
Lemma steps_lookup (p leg : xy R_arith) k i : (i < k)%nat ->
  steps p leg k !! i = Some ((fst p + INR i * fst leg, snd p + INR i * snd leg) : xy R_arith).
Proof.
  revert p i; induction k as [|k IH]; intros p i Hi; [lia|]. destruct i as [|i]; cbn [steps lookup list_lookup].
  - cbn [INR]. destruct p as [px py]. cbn [fst snd]. do 2 f_equal; req; lra.
  - change (list_lookup i (steps (xy_add p leg) leg k)) with (steps (xy_add p leg) leg k !! i). rewrite IH by lia. rewrite S_INR. unfold xy_add. cbn [fst snd sadd R_arith]. do 2 f_equal; req; lra.
Qed.
Lemma along_dist a c n i : (0 < n)%Z -> rdist (along_R a c n i) (along_R a c n (S i)) = rdist a c / IZR n.
Proof.
  intros Hn. assert (Hn' : 0 < IZR n) by (now apply IZR_lt). unfold rdist, along_R. cbn [fst snd]. rewrite S_INR.
  match goal with |- sqrt ?x = _ => replace x with (((fst a - fst c) * (fst a - fst c) + (snd a - snd c) * (snd a - snd c)) * (/ IZR n * / IZR n)) by (field; lra) end.
  rewrite sqrt_mult_alt by (apply Rplus_le_le_0_compat; apply Rle_0_sqr). rewrite sqrt_square by (left; now apply Rinv_0_lt_compat). reflexivity.
Qed.

(** where the vertices of the pieces are *)
Lemma divide_positions (g : geo R_arith) b s h b' : floor_ok g -> 0 < h -> (s.1 < length (b_pts b))%nat -> (s.2 < length (b_pts b))%nat ->
  divide_segment g b s h = Ret b' ->
  let n := div_num g (vget b s.1) (vget b s.2) h in let vs := s.1 :: seq (length (b_pts b)) (Z.to_nat (n - 1)) ++ [s.2] in
  piece_count (rdist (vget b s.1) (vget b s.2)) h n /\
  length vs = S (Z.to_nat n) /\
  forall i v, vs !! i = Some v -> vget b' v = along_R (vget b s.1) (vget b s.2) n i.
Proof.
  intros Fl Hh H1 H2 E. apply divide_ret in E as (Hs & Hne & ->). cbv zeta.
  set (a := vget b s.1) in *. set (c := vget b s.2) in *. pose proof (num_count g Fl a c h Hh Hne) as Pc. set (n := div_num g a c h) in *.
  destruct Pc as [Hn [Pl Pu]]. assert (Hn' : 0 < IZR n) by (now apply IZR_lt).
  assert (Hd : rdist a c <> 0).
  { intros Z. rewrite Z in Pl. unfold Rdiv in Pl. lra. }
  split; [split; [exact Hn|split; [exact Pl|exact Pu]]|]. split.
  { cbn [length]. rewrite app_length, seq_length. cbn [length]. lia. }
  set (k := Z.to_nat (n - 1)). rewrite (leg_R g a c h Hn Hd). fold n.
  assert (Old : forall (pts' : list (xy R_arith)) v, (v < length (b_pts b))%nat -> nth v (b_pts b ++ pts') ((s0, s0) : xy R_arith) = vget b v).
  { intros pts' v Hv. unfold vget. now apply app_nth1. }
  intros i v Hv. unfold vget at 1. cbn [b_pts]. destruct i as [|i].
  - cbn in Hv. injection Hv as <-. rewrite Old by exact H1. fold a. unfold along_R. cbn [INR]. assert (K : forall x y : R, x = x + 0 / IZR n * y) by (intros; field; lra).
    rewrite <- (K (fst a)), <- (K (snd a)). apply surjective_pairing.
  - change ((seq (length (b_pts b)) k ++ [s.2]) !! i = Some v) in Hv. destruct (Nat.lt_ge_cases i k) as [Hi|Hi].
    + rewrite lookup_app_l in Hv by (rewrite seq_length; exact Hi). apply lookup_seq in Hv as [-> _].
      rewrite app_nth2 by lia. replace (length (b_pts b) + i - length (b_pts b))%nat with i by lia.
      apply nth_lookup_Some. rewrite steps_lookup by exact Hi. unfold along_R, xy_add. cbn [fst snd sadd R_arith]. rewrite S_INR. do 2 f_equal; req; field; lra.
    + rewrite lookup_app_r in Hv by (rewrite seq_length; exact Hi). rewrite seq_length in Hv.
      destruct (i - k)%nat as [|j] eqn:Ej; [|destruct j; discriminate]. injection Hv as <-. rewrite Old by exact H2. fold c.
      assert (Ei : INR (S i) = IZR n).
      { rewrite INR_IZR_INZ. f_equal. unfold k in *. lia. }
      unfold along_R. rewrite Ei. assert (K : forall x y : R, y = x + IZR n / IZR n * (y - x)) by (intros; field; lra).
      rewrite <- (K (fst a) (fst c)), <- (K (snd a) (snd c)). apply surjective_pairing.
Qed.
