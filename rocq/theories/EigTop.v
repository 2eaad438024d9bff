(** The eigenvalue search in the numbering of the caller's system. *)
From Coq Require Import Reals Lra.
From Verif Require Export EigRepeat PropSolve.

(** an entry is present in the hash map, whatever its value *)
Definition stored {A : arith} (o : option (dict A)) (r c : nat) : Prop :=
  exists d v, o = Some d /\ d_data d !! (r, c) = Some v.

(** symmetric, connected, with mass everywhere and no mass coupling outside the stiffness pattern *)
Definition eigen_ready {A : arith} (s : system A) (n : nat) : Prop :=
  sys_built s /\ sy_dofs s = n /\ 2 <= n /\
  (forall i j, i < n -> j < n -> k_at s i j = k_at s j i) /\
  (forall i j, i < n -> j < n -> m_at s i j = m_at s j i) /\
  connected n (k_at s) /\
  (forall i, i < n -> stored (sy_m s) i i) /\
  (forall i j, stored (sy_m s) i j -> stored (sy_k s) i j).

Lemma el_stored {A : arith} (d : dict A) r c : dict_wf d -> el d r c <> s0 -> exists v, d_data d !! (r, c) = Some v.
Proof.
  intros W H. destruct (d_data d !! (r, c)) as [v|] eqn:E; [eauto|]. exfalso. apply H. unfold el. cbn. unfold d_get.
  rewrite E. now destruct (d_in d (r, c)).
Qed.

Section top.
Context {A : arith} (OL : ord_laws A).
Let FL : field_laws A := ol_field A OL.
Add Field Afield31 : (fl_field A FL).
Local Open Scope arith_scope.

Lemma eigen_ready_es ho (s : system A) n : eigen_ready s n -> oracle_ok ho ->
  exists es, eigen_new ho s = Ret es /\ perm_wf n (es_perm es) /\
    es_ok es n (fun r c => k_at s (pf (es_perm es) r) (pf (es_perm es) c))
               (fun r c => m_at s (pf (es_perm es) r) (pf (es_perm es) c)).
Proof.
  intros (Hb & Hn & H2 & Hk & Hm & Hc & Hst & Hpat) Ho. destruct (sys_built_wf FL s Hb) as [W Hp].
  destruct (Hst 0%nat ltac:(lia)) as (md & v0 & Emd & Ev0). destruct (Hpat 0%nat 0%nat) as (kd & w0 & Ekd & _).
  { exists md, v0. auto. }
  unfold k_at, m_at in *. rewrite Ekd, Emd in *.
  destruct (eigen_new_ret ho s kd md n Ho W Hn Hp Ekd Emd H2 Hk Hm Hc) as (es & p & E & Wp & Hep & Hok).
  - intros r Hr. destruct (Hst r Hr) as (d & v & E & Hv). injection E as <-. eauto.
  - intros r c (v & Hv). destruct (Hpat r c) as (d & w & E & Hw). { exists md, v. auto. } injection E as <-. eauto.
  - exists es. split; [exact E|]. rewrite Hep. split; [now apply invert_wf|]. exact Hok.
Qed.

Lemma mv_permute n p (a : nat -> nat -> A) (x : nat -> A) r : perm_wf n p ->
  mv n (fun r c => a (pf p r) (pf p c)) (fun c => x (pf p c)) r = mv n a x (pf p r).
Proof. intros W. unfold mv. now rewrite <- (bigsum_permute OL n p (fun c => a (pf p r) c * x c) W). Qed.

Lemma gen_eigs_permute n p (k m v : nat -> nat -> A) lam : perm_wf n p -> gen_eigs n k m v lam ->
  gen_eigs n (fun r c => k (pf p r) (pf p c)) (fun r c => m (pf p r) (pf p c)) (fun r j => v (pf p r) j) lam.
Proof.
  intros W (H1 & H2 & H3).
  assert (HM : forall a j r, mv n (fun r c => a (pf p r) (pf p c)) (fun c => v (pf p c) j) r = mv n a (fun c => v c j) (pf p r)).
  { intros a j r. apply (mv_permute n p a (fun c => v c j) r W). }
  split; [|split].
  - intros j r Hj Hr. rewrite !HM. apply H1; [exact Hj|]. apply (pf_lookup n p r W Hr).
  - intros i j Hi Hj Hne. rewrite <- (H2 i j Hi Hj Hne).
    rewrite <- (bigsum_permute OL n p (fun r => v r i * mv n m (fun c => v c j) r) W). apply bigsum_ext. intros r _. now rewrite HM.
  - intros j Hj. specialize (H3 j Hj). rewrite <- (bigsum_permute OL n p (fun r => v r j * mv n m (fun c => v c j) r) W) in H3.
    erewrite bigsum_ext; [exact H3|]. intros r _. cbn beta. now rewrite HM.
Qed.

Lemma posdef_pf n p (m : nat -> nat -> A) : perm_wf n p -> posdef n m -> posdef n (fun r c => m (pf p r) (pf p c)).
Proof.
  intros W HP. apply (posdef_permute OL n (invert p) m); [now apply invert_wf| |exact HP].
  intros r c Hr Hc. cbn beta. change (pf (invert p)) with (pb p).
  destruct (pb_lookup n p r W Hr) as (_ & _ & _ & ->). now destruct (pb_lookup n p c W Hc) as (_ & _ & _ & ->).
Qed.

Lemma quad_permute n p (a : nat -> nat -> A) (v w : list A) : perm_wf n p -> length v = n ->
  (forall i, (i < n)%nat -> w !! pf p i = v !! i) ->
  bigsum n (fun i => vel w i * mv n a (vel w) i)
  = bigsum n (fun i => vel v i * mv n (fun r c => a (pf p r) (pf p c)) (vel v) i).
Proof.
  intros W Hl Hw. rewrite <- (bigsum_permute OL n p (fun i => vel w i * mv n a (vel w) i) W). apply bigsum_ext. intros i Hi. cbn beta.
  assert (Hv : forall i, (i < n)%nat -> vel w (pf p i) = vel v i) by (intros j Hj; now apply (vel_permuted n p v w W Hl Hw)).
  rewrite Hv by exact Hi. f_equal. rewrite <- (mv_permute n p a (vel w) i W). apply mv_ext. intros j Hj. now apply Hv.
Qed.
End top.

(** ** distinct real numbers are separated *)
Local Open Scope R_scope.
Lemma min_pos (l : list R) : (forall x, x ∈ l -> 0 < x) -> exists d, 0 < d /\ forall x, x ∈ l -> d <= x.
Proof.
  induction l as [|x l IH]; intros H.
  - exists 1. split; [lra|]. intros x Hx. now apply elem_of_nil in Hx.
  - destruct IH as (d & Hd & Hl); [intros y Hy; apply H; now right|]. assert (Hx : 0 < x) by (apply H; left).
    exists (Rmin d x). split; [now apply Rmin_glb_lt|]. intros y Hy. apply elem_of_cons in Hy as [->|Hy]; [apply Rmin_r|].
    apply Rle_trans with d; [apply Rmin_l|now apply Hl].
Qed.

Lemma separated n (lam : nat -> R) : (forall i j, (i < n)%nat -> (j < n)%nat -> i <> j -> lam i <> lam j) ->
  exists d, 0 < d /\ forall i j, (i < n)%nat -> (j < n)%nat -> i <> j -> lam i <= lam j -> lam i + d <= lam j.
Proof.
  intros H. destruct (min_pos (List.flat_map (fun i => List.flat_map (fun j => if decide (i = j) then [] else [Rabs (lam i - lam j)]) (seq 0 n)) (seq 0 n))) as (d & Hd & Hm).
  - intros x Hx. apply elem_of_list_In, in_flat_map in Hx as (i & Hi & Hx). apply in_flat_map in Hx as (j & Hj & Hx).
    apply in_seq in Hi, Hj. destruct (decide (i = j)) as [->|Hne]; [destruct Hx|]. destruct Hx as [<-|[]].
    apply Rabs_pos_lt. specialize (H i j ltac:(lia) ltac:(lia) Hne). lra.
  - exists d. split; [exact Hd|]. intros i j Hi Hj Hne Hle.
    assert (Hin : Rabs (lam i - lam j) ∈ List.flat_map (fun i => List.flat_map (fun j => if decide (i = j) then [] else [Rabs (lam i - lam j)]) (seq 0 n)) (seq 0 n)).
    { apply elem_of_list_In, in_flat_map. exists i. split; [apply in_seq; lia|]. apply in_flat_map. exists j. split; [apply in_seq; lia|].
      rewrite decide_False by exact Hne. now left. }
    apply Hm in Hin. rewrite Rabs_left1 in Hin by lra. lra.
Qed.

Lemma pow2_R d : (pow2 (A := R_arith) d : R) = 2 ^ d.
Proof. induction d as [|d IH]; [reflexivity|]. change (pow2 (A := R_arith) d + pow2 (A := R_arith) d = 2 * 2 ^ d). rewrite IH. lra. Qed.

Lemma les_R (x y : R) : les (A := R_arith) x y <-> x <= y.
Proof. unfold les. cbn. unfold R_ltb. destruct (Rlt_dec y x); split; intros; try lra; try congruence; reflexivity. Qed.

Lemma bracket_terminates es n lam fi rnd lo up :
  (forall i j, (i < n)%nat -> (j < n)%nat -> i <> j -> lam i <> lam j) -> (lo < up) ->
  (forall mu, probe (A := R_arith) lo up mu -> eigenvalues_under es mu = Ret (count_below n lam mu)) ->
  (S (count_below n lam lo) < count_below n lam up)%nat ->
  exists depth0, forall depth s, (depth0 <= depth)%nat -> se_sys s = es ->
    process_eigenrange fi depth rnd s (RMany (A := R_arith) lo up (count_below n lam lo) (count_below n lam up))
    = process_eigenrange fi depth0 rnd s (RMany (A := R_arith) lo up (count_below n lam lo) (count_below n lam up)).
Proof.
  intros Hd Hlt Hc Hm. destruct (separated n lam Hd) as (delta & Hdel & Hsep).
  destruct (Pow_x_infinity 2 ltac:(rewrite Rabs_right; lra) ((up - lo) / delta)) as (N & HN).
  exists N. intros depth s HNd Hs.
  apply (process_stable R_ord_laws es n lam delta fi rnd); auto.
  - intros i j Hi' Hj Hne Hle. apply les_R. apply Hsep; auto. now apply les_R.
  - now apply R_ltb_iff.
  - apply les_R. rewrite pow2_R. specialize (HN N ltac:(lia)). rewrite Rabs_right in HN by (apply Rle_ge, pow_le; lra).
    change (up - lo <= delta * 2 ^ N). apply Rge_le in HN. apply (Rmult_le_compat_l delta) in HN; [|lra].
    replace (delta * ((up - lo) / delta)) with (up - lo) in HN by (field; lra). exact HN.
Qed.

(** ** two masses with the values 1 and 3; halving (0, 7) never meets the zero pivot at 2 *)
Definition k2 (r c : nat) : R_arith := if (r =? c)%nat then 2 else -1.
Definition lam2 (j : nat) : R_arith := match j with 0%nat => 1 | _ => 3 end.
Definition v2 (r j : nat) : R_arith := match j, r with 0%nat, _ => 1 | _, 0%nat => 1 | _, _ => -1 end.
Lemma gen2 : gen_eigs 2 k2 m3 v2 lam2.
Proof.
  split; [|split].
  - intros j r Hj Hr. destruct j as [|[|j]]; destruct r as [|[|r]]; try lia; cbn; unfold k2, m3, lam2, v2; cbv [Nat.eqb]; cbn; lra.
  - intros i j Hi Hj Hne. destruct i as [|[|i]]; destruct j as [|[|j]]; try lia; cbn; unfold k2, m3, lam2, v2; cbv [Nat.eqb]; cbn; lra.
  - intros j Hj. destruct j as [|[|j]]; try lia; apply R_ltb_iff; cbn; unfold k2, m3, lam2, v2; cbv [Nat.eqb]; cbn; lra.
Qed.

Lemma probe_dyadic (lo up mu : R_arith) : probe lo up mu -> forall a d, (lo : R) = 7 * IZR a / 2 ^ d -> (up : R) = 7 * IZR (a + 1) / 2 ^ d ->
  exists b e, (mu : R) = 7 * IZR (2 * b + 1) / 2 ^ (S e).
Proof.
  induction 1 as [lo up|lo up mu H IH|lo up mu H IH]; intros a d Hlo Hup;
    assert (Hp : 2 ^ d <> 0) by (apply pow_nonzero; lra);
    assert (Hmid : (mid_val lo up : R) = 7 * IZR (2 * a + 1) / 2 ^ (S d)).
  1, 3, 5: rewrite mid_R, Hlo, Hup, !plus_IZR, mult_IZR; change (2 ^ S d) with (2 * 2 ^ d); field; exact Hp.
  - eauto.
  - apply (IH (2 * a)%Z (S d)); [|exact Hmid]. rewrite Hlo, mult_IZR. change (2 ^ S d) with (2 * 2 ^ d). field. exact Hp.
  - apply (IH (2 * a + 1)%Z (S d)); [exact Hmid|]. rewrite Hup, !plus_IZR, mult_IZR. change (2 ^ S d) with (2 * 2 ^ d). field. exact Hp.
Qed.

Lemma probe_not_two (mu : R) : probe (A := R_arith) 0 7 mu -> mu <> 2.
Proof.
  intros H E. destruct (probe_dyadic 0 7 mu H 0%Z 0%nat) as (b & e & Hb); [change (2 ^ 0) with 1; lra|change (2 ^ 0) with 1; change (0 + 1)%Z with 1%Z; lra|].
  rewrite E in Hb. assert (Hp : 2 ^ S e <> 0) by (apply pow_nonzero; lra).
  assert (Hz : IZR (2 * 2 ^ Z.of_nat (S e)) = IZR (7 * (2 * b + 1))).
  { rewrite !mult_IZR, <- pow_IZR. transitivity (7 * IZR (2 * b + 1) / 2 ^ S e * 2 ^ S e); [rewrite <- Hb; ring|field; exact Hp]. }
  apply eq_IZR in Hz. lia.
Qed.

Lemma gen_eigs_ext {A : arith} n (k m k' m' v : nat -> nat -> A) lam :
  (forall r c, (r < n)%nat -> (c < n)%nat -> k' r c = k r c) -> (forall r c, (r < n)%nat -> (c < n)%nat -> m' r c = m r c) ->
  gen_eigs n k m v lam -> gen_eigs n k' m' v lam.
Proof.
  intros Hk Hm (H1 & H2 & H3).
  assert (HM : forall j r, (r < n)%nat -> mv n m' (fun c => v c j) r = mv n m (fun c => v c j) r).
  { intros j r Hr. apply bigsum_ext. intros c Hc. now rewrite Hm. }
  split; [|split].
  - intros j r Hj Hr. rewrite HM by exact Hr. rewrite <- H1 by assumption. apply bigsum_ext. intros c Hc. now rewrite Hk.
  - intros i j Hi Hj Hne. rewrite <- (H2 i j Hi Hj Hne). apply bigsum_ext. intros r Hr. now rewrite HM.
  - intros j Hj. specialize (H3 j Hj). erewrite bigsum_ext; [exact H3|]. intros r Hr. cbn beta. now rewrite HM.
Qed.

(** ** systems in which every pair of unknowns is coupled in the same way *)
Definition uni (a b : R) (r c : nat) : R_arith := if (r =? c)%nat then a else b.

Lemma uni_ready n ops (s : system R_arith) a b m : assemble n ops = Ret s -> (2 <= n)%nat -> a <> 0 -> b <> 0 -> m <> 0 ->
  (forall r c, (r < n)%nat -> (c < n)%nat -> k_at s r c = uni a b r c /\ m_at s r c = uni m 0 r c) -> eigen_ready s n.
Proof.
  intros E H2 Ha Hb0 Hm0 HK.
  assert (Hb : sys_built s) by now apply (built_asm n ops).
  destruct (sys_built_wf R_field_laws s Hb) as [W _].
  assert (Hn : sy_dofs s = n).
  { assert (D : forall o, o ∈ ops -> asm_ok n o).
    { intros o Ho. assert (Hd : asm_ok n o \/ ~ asm_ok n o) by (destruct o; cbn; lia). destruct Hd as [|Hd]; [assumption|].
      rewrite (assemble_panic R_field_laws n ops) in E by eauto. discriminate. }
    destruct (assemble_pre R_field_laws n ops D) as (s2 & E2 & _ & Hn & _). congruence. }
  assert (Hkd : exists kd, sy_k s = Some kd).
  { destruct (sy_k s) as [kd|] eqn:Ek; [eauto|]. pose proof (proj1 (HK 0%nat 0%nat ltac:(lia) ltac:(lia))) as H. unfold k_at in H. rewrite Ek in H.
    exfalso. apply Ha. symmetry. exact H. }
  assert (Hmd : exists md, sy_m s = Some md).
  { destruct (sy_m s) as [md|] eqn:Ek; [eauto|]. pose proof (proj2 (HK 0%nat 0%nat ltac:(lia) ltac:(lia))) as H. unfold m_at in H. rewrite Ek in H.
    exfalso. apply Hm0. symmetry. exact H. }
  destruct Hkd as (kd & Ekd), Hmd as (md & Emd). destruct W as (Wk & Wm & _). rewrite Ekd in Wk. rewrite Emd in Wm. rewrite Hn in *.
  destruct Wk as [Wk Hsk], Wm as [Wm Hsm].
  assert (Knz : forall r c, (r < n)%nat -> (c < n)%nat -> el kd r c <> (0%R : R_arith)).
  { intros r c Hr Hc. pose proof (proj1 (HK r c Hr Hc)) as H. unfold k_at in H. rewrite Ekd in H. rewrite H. unfold uni. destruct (r =? c)%nat; assumption. }
  split; [exact Hb|]. split; [exact Hn|]. split; [exact H2|]. clear E Hb. split; [|split; [|split; [|split]]].
  - intros i j Hi Hj. destruct (HK i j Hi Hj) as [-> _], (HK j i Hj Hi) as [-> _]. unfold uni. now rewrite Nat.eqb_sym.
  - intros i j Hi Hj. destruct (HK i j Hi Hj) as [_ ->], (HK j i Hj Hi) as [_ ->]. unfold uni. now rewrite Nat.eqb_sym.
  - intros i j Hi Hj. destruct (decide (i = j)) as [->|Hne]; [reflexivity|]. apply rtc_once. split; [exact Hi|]. split; [exact Hj|]. split; [exact Hne|].
    unfold k_at. rewrite Ekd. now apply Knz.
  - intros i Hi. exists md. pose proof (proj2 (HK i i Hi Hi)) as H. unfold m_at in H. rewrite Emd in H. unfold uni in H. rewrite Nat.eqb_refl in H.
    destruct (el_stored md i i Wm) as (v & Hv); [rewrite H; exact Hm0|]. eauto.
  - intros i j (d & v & Ed & Hv). rewrite Emd in Ed. injection Ed as <-. destruct (Wm _ _ _ Hv) as [H1 H3]. rewrite Hsm in H1, H3. cbn in H1, H3.
    destruct (el_stored kd i j Wk (Knz i j H1 H3)) as (w & Hw). exists kd, w. auto.
Qed.

Lemma uni_es n ho (s : system R_arith) a b m : oracle_ok ho -> eigen_ready s n ->
  (forall r c, (r < n)%nat -> (c < n)%nat -> k_at s r c = uni a b r c /\ m_at s r c = uni m 0 r c) ->
  exists es, eigen_new ho s = Ret es /\ es_ok es n (uni a b) (uni m 0).
Proof.
  intros Ho Hr HK. destruct (eigen_ready_es R_ord_laws ho s n Hr Ho) as (es & E & W & Hok). exists es. split; [exact E|].
  assert (Hp : forall r c, (r < n)%nat -> (c < n)%nat -> (pf (es_perm es) r =? pf (es_perm es) c)%nat = (r =? c)%nat).
  { intros r c Hr' Hc'. destruct (pf_lookup n _ r W Hr') as (_ & _ & _ & E1). destruct (pf_lookup n _ c W Hc') as (_ & _ & _ & E2).
    destruct (Nat.eqb_spec r c) as [->|Hne]; [apply Nat.eqb_refl|]. apply Nat.eqb_neq. intros E'. apply Hne. congruence. }
  assert (HK' : forall r c, (r < n)%nat -> (c < n)%nat -> k_at s (pf (es_perm es) r) (pf (es_perm es) c) = uni a b r c /\ m_at s (pf (es_perm es) r) (pf (es_perm es) c) = uni m 0 r c).
  { intros r c Hr' Hc'. destruct (pf_lookup n _ r W Hr') as (_ & L1 & _). destruct (pf_lookup n _ c W Hc') as (_ & L2 & _).
    destruct (HK _ _ L1 L2) as [-> ->]. unfold uni. now rewrite Hp. }
  destruct Hok as [Hdo Wk Hk Wm Hm Wf Hf Hen Ek Ef Em Ks Ms]. constructor; auto.
  - intros r c H1 H2. rewrite Ek by assumption. apply HK'; lia.
  - intros r c H1 H2. rewrite Ef by assumption. apply HK'; lia.
  - intros r c H1 H2. rewrite Em by assumption. apply HK'; lia.
  - intros r c H1 H2. unfold uni. now rewrite Nat.eqb_sym.
  - intros r c H1 H2. unfold uni. now rewrite Nat.eqb_sym.
Qed.

Definition tri_ops (A : arith) : list (asm A) :=
  spring 0 1 s1 ++ spring 1 2 s1 ++ spring 0 2 s1 ++
  [AddK 0 0 s1; AddK 1 1 s1; AddK 2 2 s1; AddM 0 0 s1; AddM 1 1 s1; AddM 2 2 s1].

Lemma tri_ready : exists s, assemble 3 (tri_ops R_arith) = Ret s /\ eigen_ready s 3 /\
  (forall r c, (r < 3)%nat -> (c < 3)%nat -> k_at s r c = k3 r c /\ m_at s r c = m3 r c).
Proof.
  destruct (proj1 (C26_assembly R_arith R_field_laws 3 (tri_ops R_arith))) as (s & E & Hn & Hk & Hm & _).
  { intros o Ho. repeat (apply elem_of_cons in Ho as [->|Ho]; [cbn; lia|]). now apply elem_of_nil in Ho. }
  assert (HK : forall r c, (r < 3)%nat -> (c < 3)%nat -> k_at s r c = k3 r c /\ m_at s r c = m3 r c).
  { intros r c Hr Hc. rewrite Hk, Hm. clear -Hr Hc. unfold k3, m3, ssum, k_vals, m_vals.
    destruct r as [|[|[|r]]]; destruct c as [|[|[|c]]]; try lia; cbn; cbv [Nat.eqb andb app fold_left]; split; lra. }
  exists s. split; [exact E|]. split; [|exact HK]. apply (uni_ready 3 (tri_ops R_arith) s 3 (-1) 1 E); [lia|lra..|exact HK].
Qed.

Lemma tri_es ho (s : system R_arith) : oracle_ok ho -> eigen_ready s 3 ->
  (forall r c, (r < 3)%nat -> (c < 3)%nat -> k_at s r c = k3 r c /\ m_at s r c = m3 r c) ->
  exists es, eigen_new ho s = Ret es /\ es_ok es 3 k3 m3.
Proof. exact (uni_es 3 ho s 3 (-1) 1). Qed.

Definition pair_ops (A : arith) : list (asm A) :=
  spring 0 1 s1 ++ [AddK 0 0 s1; AddK 1 1 s1; AddM 0 0 s1; AddM 1 1 s1].

Lemma pair_example : exists s es, assemble 2 (pair_ops R_arith) = Ret s /\ eigen_new hash_id s = Ret es /\
  (forall mu, probe (A := R_arith) 0 7 mu -> eigenvalues_under es mu = Ret (count_below 2 lam2 mu)) /\
  count_below (A := R_arith) 2 lam2 0 = 0%nat /\ count_below (A := R_arith) 2 lam2 7 = 2%nat.
Proof.
  destruct (proj1 (C26_assembly R_arith R_field_laws 2 (pair_ops R_arith))) as (s & E & Hn & Hk & Hm & _).
  { intros o Ho. repeat (apply elem_of_cons in Ho as [->|Ho]; [cbn; lia|]). now apply elem_of_nil in Ho. }
  assert (HK : forall r c, (r < 2)%nat -> (c < 2)%nat -> k_at s r c = k2 r c /\ m_at s r c = m3 r c).
  { intros r c Hr Hc. rewrite Hk, Hm. clear -Hr Hc. unfold k2, m3, ssum, k_vals, m_vals.
    destruct r as [|[|r]]; destruct c as [|[|c]]; try lia; cbn; cbv [Nat.eqb andb app fold_left]; split; lra. }
  assert (Hr : eigen_ready s 2) by (apply (uni_ready 2 (pair_ops R_arith) s 2 (-1) 1 E); [lia|lra..|exact HK]).
  destruct (uni_es 2 hash_id s 2 (-1) 1 hash_id_ok Hr HK) as (es & Ees & Hok).
  exists s, es. split; [exact E|]. split; [exact Ees|]. clear E Hk Hm HK. split; [|split].
  - intros mu Hmu. apply probe_not_two in Hmu. destruct (pivots_exist R_ord_laws es 2 k2 m3 mu Hok) as (d & Hp & _ & _).
    apply (eigenvalues_under_ret R_ord_laws es 2 k2 m3 v2 lam2 mu d Hok gen2 Hp).
    intros [|c] Hc; [|lia].
    destruct Hp as (a & l & Ea & El).
    destruct (shifted_ret R_field_laws es 2 k2 m3 mu Hok) as (a' & Ea' & Wa & Hna & Hsel). rewrite Ea in Ea'. injection Ea' as <-.
    destruct (ldl_inv_all R_field_laws a Wa) as (ld & El' & HI). rewrite El in El'. injection El' as <-.
    destruct HI as (_ & _ & _ & _ & _ & H2 & _). cbn [fst snd dg_data] in *. rewrite Hna in *.
    pose proof (H2 0%nat ltac:(lia)) as D0. assert (Hel : el a 0%nat 0%nat = (2 - mu * 1)%R) by exact (Hsel 0%nat 0%nat ltac:(lia) ltac:(lia)).
    rewrite D0, Hel. clear - Hmu. cbn. lra.
  - unfold count_below. cbn. unfold R_ltb. repeat (destruct (Rlt_dec _ _); [lra|]). reflexivity.
  - unfold count_below. cbn. unfold R_ltb. destruct (Rlt_dec 1 7); [|lra]. destruct (Rlt_dec 3 7); [|lra]. reflexivity.
Qed.

Lemma tri_forever ho (s : system R_arith) : oracle_ok ho -> eigen_ready s 3 ->
  (forall r c, (r < 3)%nat -> (c < 3)%nat -> k_at s r c = k3 r c /\ m_at s r c = m3 r c) ->
  exists es, eigen_new ho s = Ret es /\
    forall fl fi fs, find_eigens (A := R_arith) fl fi fs 2 [1; 1; 1] (searcher_new es) = Fuel.
Proof.
  intros Ho Hr HK. destruct (tri_es ho s Ho Hr HK) as (es & E & Hok). exists es. split; [exact E|].
  intros fl fi fs. now apply search_forever.
Qed.

(** the pairs a new vector is kept orthogonal to: the last six *)
Lemma gso_slice_last {A : arith} (ps : list (epair A)) (i : nat) : (i <= length ps)%nat ->
  gso_slice (take i ps) = (if i =? 0 then None else Some (drop (i - 6) (take i ps)))%nat.
Proof.
  intros Hi. assert (L : length (take i ps) = i) by (apply take_length_le, Hi). destruct i as [|i]; [reflexivity|].
  unfold gso_slice. rewrite L. destruct (take (S i) ps) as [|p l] eqn:E; [discriminate L|]. cbn [Nat.eqb]. f_equal.
  destruct (Nat.ltb_spec (S i) 6) as [H|H]; [|reflexivity]. f_equal. lia.
Qed.
