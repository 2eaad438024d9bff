(** A system with a repeated eigenvalue on which the search never ends. *)
From Coq Require Import Reals Lra.
From Verif Require Export EigTerm InstR PropFactor.

Section fixvec.
Context {A : arith} (OL : ord_laws A) (SQ : sqrt_law A).
Let FL : field_laws A := ol_field A OL.
Add Field Afield30 : (fl_field A FL).
Local Open Scope arith_scope.

(** started on an eigenvector, the fixed-length inverse iteration stays on it *)
Lemma times_on_eigvec (es : esys A) n k m rnd times (v : nat -> A) lam : es_ok es n k m -> posdef n m -> posdef n k -> (0 < times)%nat ->
  (forall l d, cholesky_envelope_no_root (es_k es) = Ret (l, d) -> forall c, (c < n)%nat -> vel (dg_data d) c <> 0) ->
  lam <> 0 -> (forall i, (i < n)%nat -> mv n k v i = lam * mv n m v i) -> (exists i, (i < n)%nat /\ v i <> 0) ->
  length rnd = n -> (forall i, (i < n)%nat -> vel rnd i = v i) ->
  exists x t, inverse_iterate_times rnd (es_k es) (es_m es) times = Ret x /\ length x = n /\ t <> 0 /\
    forall i, (i < n)%nat -> vel x i = t * v i.
Proof.
  intros Hes HP HPk Htm Hnz Hlam Heig Hv0 Hr Hrv. destruct Hes as [Hdo Wk Hk Wm Hm Wf Hf Hen Ek Ef Em Ks Ms].
  destruct (ldl_inv_all FL (es_k es) Wk) as ([l d] & El & HI).
  pose proof HI as (Wl & _ & Hnl & Hd & H1 & _ & _). cbn [fst snd] in *. specialize (Hnz l d El).
  assert (Htab : forall r c, (r < n)%nat -> (c < n)%nat -> ldl_table n (el l) (vel (dg_data d)) r c = k r c).
  { intros r c Hr' Hc'. transitivity (sym_el (es_k es) r c).
    - rewrite <- Hk. apply (ldl_block FL (es_k es) (l, d) (lev_n (es_k es)) HI); cbn; try lia. intros c' Hc'' _. apply Hnz. lia.
    - unfold sym_el. destruct (Nat.leb_spec c r); [apply Ek; lia|]. rewrite Ek by lia. now apply Ks. }
  unfold inverse_iterate_times. rewrite (proj2 (Nat.eqb_eq _ _)) by congruence. cbn [assert_ mbind out_bind].
  rewrite El. cbn [mbind out_bind fst snd]. rewrite Hk in *.
  destruct (be_mul_vec_spec FL (es_m es) rnd (replicate n 0) Wm) as (y0 & Ey & Hy & Hye); try (rewrite ?replicate_length; congruence).
  rewrite Ey. cbn [mbind out_bind]. rewrite Hm in *.
  assert (HM : forall (x : list A) i, (i < n)%nat -> mv n (el (es_m es)) (vel x) i = mv n m (vel x) i).
  { intros x i Hi. apply bigsum_ext. intros c Hc. now rewrite Em. }
  assert (Hsc : forall (b : nat -> nat -> A) (x : list A) t, (forall i, (i < n)%nat -> vel x i = t * v i) -> forall i, mv n b (vel x) i = t * mv n b v i).
  { intros b x t Hx i. unfold mv. rewrite <- (bigsum_scale_l FL). apply bigsum_ext. intros c Hc. rewrite Hx by exact Hc. ring. }
  match goal with |- context [foldM ?F _ _] => set (body := F) end.
  destruct (foldM_range_inv (fun q (st : list A * list A * A) => length st.1.1 = n /\ length st.1.2 = n /\
     (exists t, t <> 0 /\ forall i, (i < n)%nat -> vel st.1.2 i = t * mv n m v i) /\
     ((0 < q)%nat -> st.2 <> 0 /\ exists t, t <> 0 /\ forall i, (i < n)%nat -> vel st.1.1 i = t * v i))
     body 0%nat times (replicate n 0, y0, 0)) as (st & E & Hx & _ & _ & Hq); [lia| | |].
  - cbn [fst snd]. split; [apply replicate_length|]. split; [exact Hy|]. split; [|lia].
    exists 1. split; [apply (one_neq_0 OL)|]. intros i Hi. rewrite Hye, HM by exact Hi. apply Hsc. intros j Hj. rewrite Hrv by exact Hj. ring.
  - intros q [[xs ys] mg] _ (Hxs & Hys & (t & Ht & Hyt) & _). cbn [fst snd] in *. unfold body. cbn [fst snd].
    destruct (solve_ldl_ret FL l d ys xs Wl) as (xb & Exb & Hxb & Hxe); try congruence.
    { intros i Hi. rewrite H1 by congruence. apply (one_neq_0 OL). }
    { intros i Hi. apply Hnz. congruence. }
    rewrite Exb. cbn [mbind out_bind]. rewrite Hnl in *.
    destruct (be_mul_vec_spec FL (es_m es) xb (replicate n 0) Wm) as (yb & Eyb & Hyb & Hybe); try (rewrite ?replicate_length; congruence).
    rewrite Eyb. cbn [mbind out_bind]. rewrite Hm in *.
    assert (Hxv : forall i, (i < n)%nat -> vel xb i = (t / lam) * v i).
    { intros i Hi. apply (posdef_unique OL n k (vel xb) (fun i => (t / lam) * v i) HPk); [|exact Hi]. intros j Hj.
      transitivity (mv n (ldl_table n (el l) (vel (dg_data d))) (vel xb) j).
      - apply bigsum_ext. intros c Hc. now rewrite Htab.
      - rewrite Hxe, Hyt by exact Hj.
        transitivity ((t / lam) * mv n k v j); [rewrite Heig by exact Hj; field; exact Hlam|].
        unfold mv. rewrite <- (bigsum_scale_l FL). apply bigsum_ext. intros; ring. }
    assert (Htl : t / lam <> 0) by (intros E; apply Ht; transitivity (t / lam * lam); [field; exact Hlam|rewrite E; ring]).
    assert (Hxb0 : exists i, (i < n)%nat /\ vel xb i <> 0).
    { destruct Hv0 as (i & Hi & Hv). exists i. split; [exact Hi|]. rewrite Hxv by exact Hi. intros E.
      apply (mul_eq_0 OL) in E as [E|E]; [now apply Htl|now apply Hv]. }
    pose proof (HP (vel xb) Hxb0) as Hqp. set (qv := bigsum n (fun i => vel xb i * mv n m (vel xb) i)) in *.
    assert (Hdq : dot xb yb = qv).
    { rewrite (dot_vel _ _ n) by assumption. apply bigsum_ext. intros i Hi. now rewrite Hybe, HM. }
    destruct (SQ qv Hqp) as [Hmag Hmag2]. rewrite Hdq. set (mag := ssqrt qv) in *.
    assert (Hmag0 : mag <> 0) by (intros E; rewrite E in Hmag; now apply (lts_irr OL) in Hmag).
    rewrite (scaled_ret n) by assumption. cbn [mbind out_bind]. eexists. split; [reflexivity|]. cbn [fst snd].
    split; [exact Hxb|]. split; [now rewrite map_length, seq_length|]. split.
    + exists (t / lam / mag). split.
      * intros E. apply Htl. transitivity (t / lam / mag * mag); [field; auto|rewrite E; ring].
      * intros i Hi. rewrite vel_map_seq by exact Hi. rewrite Hybe, HM, (Hsc m xb (t / lam)) by assumption. field. auto.
    + intros _. split; [exact Hmag0|]. eauto.
  - rewrite E. cbn [mbind out_bind]. rewrite (scaled_ret n) by congruence. destruct (Hq Htm) as (Hm0 & t & Ht & Hxt).
    eexists. exists (t / st.2). split; [reflexivity|]. split; [now rewrite map_length, seq_length|]. split.
    + intros E'. apply Ht. transitivity (t / st.2 * st.2); [field; exact Hm0|rewrite E'; ring].
    + intros i Hi. rewrite vel_map_seq by exact Hi. rewrite Hxt by exact Hi. field. exact Hm0.
Qed.
End fixvec.

Local Open Scope R_scope.
Definition k3 (r c : nat) : R_arith := if (r =? c)%nat then 3 else -1.
Definition m3 (r c : nat) : R_arith := if (r =? c)%nat then 1 else 0.
Definition lam3 (j : nat) : R_arith := match j with 0%nat => 1 | _ => 4 end.
Definition v3 (r j : nat) : R_arith :=
  match j, r with
  | 0%nat, _ => 1 | 1%nat, 0%nat => 1 | 1%nat, 1%nat => -1 | 1%nat, _ => 0 | _, 2%nat => -2 | _, _ => 1
  end.

Ltac k3c := cbn -[vel el]; unfold k3, m3, lam3, v3; cbv [Nat.eqb]; cbn -[vel el].
Tactic Notation "k3c" "in" "*" := cbn -[vel el] in *; unfold k3, m3, lam3, v3 in *; cbv [Nat.eqb] in *; cbn -[vel el] in *.

Lemma gen3 : gen_eigs 3 k3 m3 v3 lam3.
Proof.
  split; [|split].
  - intros j r Hj Hr. destruct j as [|[|[|j]]]; destruct r as [|[|[|r]]]; try lia; k3c; lra.
  - intros i j Hi Hj Hne. destruct i as [|[|[|i]]]; destruct j as [|[|[|j]]]; try lia; k3c; lra.
  - intros j Hj. destruct j as [|[|[|j]]]; try lia; apply R_ltb_iff; k3c; lra.
Qed.

Lemma posdef_k3 : posdef 3 k3.
Proof.
  intros x (i & Hi & Hx). apply R_ltb_iff. k3c. cbn in Hx.
  match goal with |- (0 < ?e) => replace e with (x 0%nat * x 0%nat + x 1%nat * x 1%nat + x 2%nat * x 2%nat +
    ((x 0%nat - x 1%nat) * (x 0%nat - x 1%nat) + (x 1%nat - x 2%nat) * (x 1%nat - x 2%nat) + (x 0%nat - x 2%nat) * (x 0%nat - x 2%nat))) by (cbn; ring) end.
  pose proof (Rle_0_sqr (x 0%nat - x 1%nat)). pose proof (Rle_0_sqr (x 1%nat - x 2%nat)). pose proof (Rle_0_sqr (x 0%nat - x 2%nat)).
  pose proof (Rle_0_sqr (x 0%nat)). pose proof (Rle_0_sqr (x 1%nat)). pose proof (Rle_0_sqr (x 2%nat)).
  pose proof (Rsqr_pos_lt _ Hx). unfold Rsqr in *. destruct i as [|[|[|i]]]; [lra|lra|lra|lia].
Qed.

Lemma posdef_m3 : posdef 3 m3.
Proof.
  intros x (i & Hi & Hx). apply R_ltb_iff. k3c. cbn in Hx.
  pose proof (Rle_0_sqr (x 0%nat)). pose proof (Rle_0_sqr (x 1%nat)). pose proof (Rle_0_sqr (x 2%nat)).
  pose proof (Rsqr_pos_lt _ Hx). unfold Rsqr in *. destruct i as [|[|[|i]]]; [lra|lra|lra|lia].
Qed.

Section repeated.
Context (es : esys R_arith) (Hes : es_ok es 3 k3 m3).

(** the factors of the shifted matrix *)
Lemma factor3 mu d : pivots_at es mu d -> length d = 3%nat /\ exists l10 l20 l21 : R,
  (vel d 0%nat : R) = 3 - mu /\ (vel d 1%nat : R) = 3 - mu - l10 * l10 * vel d 0%nat /\
  (vel d 2%nat : R) = 3 - mu - (l20 * l20 * vel d 0%nat + l21 * l21 * vel d 1%nat) /\
  ((vel d 0%nat : R) <> 0 -> l10 * vel d 0%nat = -1 /\ l20 * vel d 0%nat = -1) /\
  ((vel d 1%nat : R) <> 0 -> l10 * l20 * vel d 0%nat + l21 * vel d 1%nat = -1).
Proof.
  intros (a & l & Ea & El).
  destruct (shifted_ret R_field_laws es 3 k3 m3 mu Hes) as (a' & Ea' & Wa & Hn & Hsel). rewrite Ea in Ea'. injection Ea' as <-.
  destruct (ldl_inv_all R_field_laws a Wa) as (ld & El' & HI). rewrite El in El'. injection El' as <-.
  destruct HI as (_ & _ & Hnl & Hd & _ & H2 & H3). cbn [fst snd dg_data] in *. rewrite Hn in *.
  split; [exact Hd|].
  exists (el l 1 0), (el l 2 0), (el l 2 1).
  assert (Hel : forall r c, (r < 3)%nat -> (c <= r)%nat -> el a r c = (k3 r c - mu * m3 r c)%R).
  { intros r c Hr Hc. etransitivity; [|exact (Hsel r c ltac:(lia) ltac:(lia))]. unfold sym_el. now rewrite (proj2 (Nat.leb_le c r) Hc). }
  pose proof (H2 0%nat ltac:(lia)) as D0. pose proof (H2 1%nat ltac:(lia)) as D1. pose proof (H2 2%nat ltac:(lia)) as D2.
  pose proof (H3 0%nat 1%nat ltac:(lia) ltac:(lia)) as L10. pose proof (H3 0%nat 2%nat ltac:(lia) ltac:(lia)) as L20.
  pose proof (H3 1%nat 2%nat ltac:(lia) ltac:(lia)) as L21.
  rewrite Hel in D0, D1, D2 by lia. rewrite Hel in L10, L20, L21 by lia. clear H2 H3 Hel Hsel.
  cbn -[el vel] in D0, D1, D2, L10, L20, L21. unfold k3, m3 in D0, D1, D2, L10, L20, L21. cbv [Nat.eqb] in D0, D1, D2, L10, L20, L21. cbn -[el vel] in D0, D1, D2, L10, L20, L21.
  split; [lra|]. split; [lra|]. split; [lra|]. split.
  - intros H. split; [specialize (L10 H); lra|specialize (L20 H); lra].
  - intros H. specialize (L21 H). lra.
Qed.

Lemma count3_gen mu : mu <> 2 -> mu <> 3 -> mu <> 4 -> eigenvalues_under es mu = Ret (count_below 3 lam3 mu).
Proof.
  intros H2 H3 H4. destruct (pivots_exist R_ord_laws es 3 k3 m3 mu Hes) as (d & Hp & _ & _).
  apply (eigenvalues_under_ret R_ord_laws es 3 k3 m3 v3 lam3 mu d Hes gen3 Hp).
  destruct (factor3 mu d Hp) as (_ & l10 & l20 & l21 & D0 & D1 & _ & L1 & _).
  intros [|[|c]] Hc; [| |lia].
  - cbn. cbn in D0. rewrite D0. lra.
  - cbn. cbn in D0, D1, L1. rewrite D0 in *. destruct (L1 ltac:(lra)) as [L10 _]. intros E. rewrite E in D1.
    assert ((3 - mu) * (3 - mu) = 1).
    { transitivity ((3 - mu) * (3 - mu - l10 * l10 * (3 - mu)) + (l10 * (3 - mu)) * (l10 * (3 - mu))); [ring|]. rewrite <- D1, L10. ring. }
    assert (HH : (2 - mu) * (4 - mu) = 0) by nra. apply Rmult_integral in HH. lra.
Qed.

Lemma count_below3 mu : count_below 3 lam3 mu = ((if R_ltb 1 mu then 1 else 0) + (if R_ltb 4 mu then 2 else 0))%nat.
Proof. unfold count_below. k3c. destruct (R_ltb 1 mu), (R_ltb 4 mu); reflexivity. Qed.

Lemma count3 mu : 3 < mu -> eigenvalues_under es mu = Ret (if R_ltb 4 mu then 3%nat else 1%nat).
Proof.
  intros Hmu. destruct (Req_dec mu 4) as [->|Hne].
  - destruct (pivots_exist R_ord_laws es 3 k3 m3 4 Hes) as (d & Hp & Hld & E). rewrite E. f_equal.
    destruct (factor3 4 d Hp) as (_ & l10 & l20 & l21 & D0 & D1 & D2 & L1 & _).
    destruct d as [|d0 [|d1 [|d2 [|]]]]; try discriminate Hld. cbn in *.
    assert (d0 = -1) as -> by lra. destruct (L1 ltac:(lra)) as [L10 L20].
    assert (l10 = 1) as -> by lra. assert (l20 = 1) as -> by lra. assert (d1 = 0) as -> by lra. assert (d2 = 0) as -> by lra.
    unfold num_neg. cbn. unfold R_ltb. destruct (Rlt_dec (-1) 0); [|lra]. destruct (Rlt_dec 0 0); [lra|]. destruct (Rlt_dec 4 4); [lra|]. reflexivity.
  - rewrite count3_gen by lra. rewrite count_below3. unfold R_ltb. destruct (Rlt_dec 1 mu); [|lra]. destruct (Rlt_dec 4 mu); reflexivity.
Qed.

Lemma mid_R (lo up : R) : mid_val (A := R_arith) lo up = (lo + up) / 2.
Proof. reflexivity. Qed.

Lemma bisect_forever fi rnd depth : forall s (lo up : R), se_sys s = es -> 3 < lo -> lo <= 4 -> 4 < up ->
  process_eigenrange fi depth rnd s (RMany (A := R_arith) lo up 1 3) = Fuel.
Proof.
  induction depth as [|depth IH]; intros s lo up Hs H3 H4 H5; [reflexivity|].
  cbn [process_eigenrange]. rewrite Hs, count3 by (rewrite mid_R; lra). cbn [mbind out_bind].
  set (mid := (lo + up) / 2).
  assert (Sp : many_split (A := R_arith) lo up 1 3 (if R_ltb 4 mid then 3%nat else 1%nat)
    = if R_ltb 4 mid then Ret (RMany (A := R_arith) lo mid 1 3, REmpty) else Ret (REmpty, RMany (A := R_arith) mid up 1 3)).
  { unfold many_split. rewrite mid_R. fold mid. destruct (R_ltb 4 mid).
    - rewrite !usub_ret by lia. cbv [mbind out_bind Nat.sub part_new many_new].
      change (@sltb R_arith lo mid) with (R_ltb lo mid). rewrite (proj2 (R_ltb_iff lo mid)) by (unfold mid; lra). reflexivity.
    - rewrite !usub_ret by lia. cbv [mbind out_bind Nat.sub part_new many_new].
      change (@sltb R_arith mid up) with (R_ltb mid up). rewrite (proj2 (R_ltb_iff mid up)) by (unfold mid; lra). reflexivity. }
  rewrite mid_R. fold mid. rewrite Sp. unfold R_ltb. destruct (Rlt_dec 4 mid) as [Hm|Hm]; cbn [mbind out_bind fst snd].
  - now rewrite IH by (assumption || (unfold mid; lra)).
  - assert (E : process_eigenrange fi depth rnd s (REmpty (A := R_arith)) = Ret s) by (destruct depth; reflexivity). rewrite E.
    cbn [mbind out_bind]. now rewrite IH by (assumption || (unfold mid in *; lra)).
Qed.

Lemma no_start l d : cholesky_envelope_no_root (es_k es) = Ret (l, d) -> forall c, (c < 3)%nat -> (vel (dg_data d) c : R) <> 0.
Proof.
  intros El. pose proof Hes as [Hdo Wk Hk Wm Hm Wf Hf Hen Ek Ef Em Ks Ms].
  destruct (ldl_inv_all R_field_laws (es_k es) Wk) as (ld & El' & HI). rewrite El in El'. injection El' as <-.
  destruct HI as (_ & _ & _ & _ & _ & H2 & H3). cbn [fst snd] in *. rewrite Hk in *.
  pose proof (H2 0%nat ltac:(lia)) as D0. pose proof (H2 1%nat ltac:(lia)) as D1. pose proof (H2 2%nat ltac:(lia)) as D2.
  pose proof (H3 0%nat 1%nat ltac:(lia) ltac:(lia)) as L10. pose proof (H3 0%nat 2%nat ltac:(lia) ltac:(lia)) as L20.
  pose proof (H3 1%nat 2%nat ltac:(lia) ltac:(lia)) as L21.
  rewrite Ek in D0, D1, D2 by lia. rewrite Ek in L10, L20, L21 by lia.
  cbn -[el vel] in D0, D1, D2, L10, L20, L21. unfold k3, m3 in D0, D1, D2, L10, L20, L21. cbv [Nat.eqb] in D0, D1, D2, L10, L20, L21. cbn -[el vel] in D0, D1, D2, L10, L20, L21. clear H2 H3.
  assert (D0' : (vel (dg_data d) 0%nat : R) = 3) by lra. rewrite D0' in *.
  assert (A10 : (el l 1%nat 0%nat : R) = -1/3) by (specialize (L10 ltac:(lra)); lra).
  assert (A20 : (el l 2%nat 0%nat : R) = -1/3) by (specialize (L20 ltac:(lra)); lra). rewrite A10, A20 in *.
  assert (D1' : (vel (dg_data d) 1%nat : R) = 8/3) by lra. rewrite D1' in *.
  assert (A21 : (el l 2%nat 1%nat : R) = -1/2) by (specialize (L21 ltac:(lra)); lra). rewrite A21 in *.
  intros [|[|[|c]]] Hc; [| | |lia]; cbn -[vel]; lra.
Qed.

Lemma pivots_mid d : pivots_at es (297/200) d -> forall c, (c < 3)%nat -> vel d c <> (0 : R_arith).
Proof.
  intros Hp. destruct (factor3 (297/200) d Hp) as (_ & l10 & l20 & l21 & D0 & D1 & D2 & L1 & L2).
  assert (D0' : (vel d 0%nat : R) = 303/200) by lra. rewrite D0' in *.
  destruct (L1 ltac:(lra)) as [L10 L20]. assert (A10 : l10 = -200/303) by lra. assert (A20 : l20 = -200/303) by lra. subst l10 l20.
  assert (D1' : (vel d 1%nat : R) = 303/200 - 200/303) by lra. rewrite D1' in *.
  assert (A21 : l21 = (-1 - 200/303) / (303/200 - 200/303)) by (specialize (L2 ltac:(lra)); lra). subst l21.
  intros [|[|[|c]]] Hc; [| | |lia]; cbn -[vel]; lra.
Qed.

(** the first eigenvalue is found, or its inverse iteration does not converge in the allowed rounds *)
Lemma first_pair fi : inverse_iterate fi (A := R_arith) [1; 1; 1] (es_k es) (es_m es) (297/200) None = Fuel \/
  exists p, inverse_iterate fi (A := R_arith) [1; 1; 1] (es_k es) (es_m es) (297/200) None = Ret p.
Proof.
  destruct (pivots_exist R_ord_laws es 3 k3 m3 (297/200) Hes) as (d & Hp & Hld & _).
  destruct (inverse_iterate_ret R_ord_laws R_sqrt_law es 3 k3 m3 (297/200) fi [1; 1; 1] None d Hes posdef_m3 Hp) as [H|(p & H & _)]; eauto.
  - now apply pivots_mid.
  - intros e He. now apply elem_of_nil in He.
  - intros (w & Hw). specialize (Hw 0%nat ltac:(lia)). cbn in Hw. lra.
Qed.

Lemma starts3 fs : secant_starts fs (A := R_arith) [1; 1; 1] es = Fuel \/ secant_starts fs (A := R_arith) [1; 1; 1] es = Ret (0, 99/100).
Proof.
  unfold secant_starts.
  destruct (times_on_eigvec R_ord_laws R_sqrt_law es 3 k3 m3 [1; 1; 1] 3 (fun _ => 1) 1 Hes posdef_m3 posdef_k3 ltac:(lia) no_start) as (x & t & E & Hx & Ht & Hxt).
  - cbn. lra.
  - intros [|[|[|i]]] Hi; try lia; k3c; lra.
  - exists 0%nat. split; [lia|]. cbn. lra.
  - reflexivity.
  - intros [|[|[|i]]] Hi; try lia; reflexivity.
  - rewrite E. cbn [mbind out_bind]. rewrite (rayleigh_ret R_ord_laws es 3 k3 m3 x Hes Hx). cbn [mbind out_bind].
    assert (Hq : sdiv (bigsum 3 (fun i => smul (vel x i) (mv 3 k3 (vel x) i))) (bigsum 3 (fun i => smul (vel x i) (mv 3 m3 (vel x) i))) = (1 : R_arith)).
    { pose proof (Hxt 0%nat ltac:(lia)) as X0. pose proof (Hxt 1%nat ltac:(lia)) as X1. pose proof (Hxt 2%nat ltac:(lia)) as X2.
      k3c in *. rewrite X0, X1, X2. clear -Ht. field. pose proof (Rsqr_pos_lt _ Ht). unfold Rsqr in *. lra. }
    rewrite Hq. destruct fs as [|fs]; [left; reflexivity|right]. cbn [starts_loop].
    assert (Hmu : smul (slit 99 100) (1 : R_arith) = 99/100) by (cbn; lra). rewrite Hmu.
    rewrite count3_gen by lra. rewrite count_below3. unfold R_ltb. destruct (Rlt_dec 1 (99/100)); [lra|]. destruct (Rlt_dec 4 (99/100)); [lra|]. reflexivity.
Qed.

Lemma two_R (x : R) : smul (a := R_arith) x (sz 2) = 2 * x.
Proof. cbn. ring. Qed.

Lemma step_one fi fs : secant_iterate_one (A := R_arith) fi fs [1; 1; 1] (searcher_new es) = Fuel \/
  exists p a, secant_iterate_one (A := R_arith) fi fs [1; 1; 1] (searcher_new es) = Ret (Searcher es [p] (Some (a, 2 * (99/100)))).
Proof.
  unfold secant_iterate_one, searcher_new. cbn [se_sys se_pairs se_mus length]. rewrite (eo_dofs _ _ _ _ Hes). cbn [Nat.leb].
  destruct (starts3 fs) as [E|E]; rewrite E; cbn [mbind out_bind snd]; [now left|].
  destruct fs as [|fs]; [now left|]. cbn [double_loop]. rewrite two_R.
  rewrite count3_gen by lra. rewrite count_below3.
  unfold R_ltb. destruct (Rlt_dec 1 (2 * (99/100))); [|lra]. destruct (Rlt_dec 4 (2 * (99/100))); [lra|].
  assert (Hr : range_new (A := R_arith) (99/100) (2 * (99/100)) 0 1 = Ret (ROne (A := R_arith) (99/100) (2 * (99/100)))).
  { unfold range_new. rewrite usub_ret by lia. cbv [mbind out_bind Nat.sub Nat.ltb Nat.leb Nat.eqb assert_ one_new].
    change (@sltb R_arith (99/100) (2 * (99/100))) with (R_ltb (99/100) (2 * (99/100))).
    rewrite (proj2 (R_ltb_iff _ _)) by lra. reflexivity. }
  change (0 + 1 + 0)%nat with 1%nat. cbn [Nat.add mbind out_bind]. change (0 <? 1)%nat with true. cbv iota. rewrite Hr.
  cbn [mbind out_bind fst snd process_eigenrange].
  unfold process_one. cbn [se_sys se_pairs gso_slice].
  assert (Hm : mid_val (A := R_arith) (99/100) (2 * (99/100)) = 297/200) by (rewrite mid_R; lra). rewrite Hm.
  destruct (first_pair fi) as [E1|(p & E1)]; rewrite E1; cbn [mbind out_bind]; [now left|right]. eauto.
Qed.

Lemma step_two fi fs rnd p a : secant_iterate_one (A := R_arith) fi fs rnd (Searcher es [p] (Some (a, 2 * (99/100)))) = Fuel.
Proof.
  unfold secant_iterate_one. cbn [se_sys se_pairs se_mus length]. rewrite (eo_dofs _ _ _ _ Hes). cbn [Nat.leb mbind out_bind snd].
  destruct fs as [|fs]; [reflexivity|]. cbn [double_loop]. rewrite !two_R. rewrite count3 by lra. unfold R_ltb at 1. destruct (Rlt_dec 4 (2 * (2 * (99/100)))); [lra|].
  cbn [mbind out_bind]. change (1 <? 1)%nat with false. cbv iota.
  destruct fs as [|fs]; [reflexivity|]. cbn [double_loop]. rewrite !two_R. rewrite count3 by lra.
  unfold R_ltb at 1. destruct (Rlt_dec 4 (2 * (2 * (2 * (99/100))))); [|lra]. cbn [mbind out_bind]. change (1 <? 3)%nat with true. cbv iota.
  assert (Hr : range_new (A := R_arith) (2 * (2 * (99/100))) (2 * (2 * (2 * (99/100)))) 1 3
    = Ret (RMany (A := R_arith) (2 * (2 * (99/100))) (2 * (2 * (2 * (99/100)))) 1 3)).
  { unfold range_new. rewrite usub_ret by lia. cbv [mbind out_bind Nat.sub Nat.ltb Nat.leb Nat.eqb assert_ many_new].
    change (@sltb R_arith (2 * (2 * (99/100))) (2 * (2 * (2 * (99/100))))) with (R_ltb (2 * (2 * (99/100))) (2 * (2 * (2 * (99/100))))).
    rewrite (proj2 (R_ltb_iff _ _)) by lra. reflexivity. }
  rewrite Hr. cbn [mbind out_bind fst snd].
  rewrite bisect_forever; [reflexivity|reflexivity|lra..].
Qed.

Lemma search_forever fl fi fs : find_eigens (A := R_arith) fl fi fs 2 [1; 1; 1] (searcher_new es) = Fuel.
Proof.
  unfold find_eigens. change (se_sys (searcher_new es)) with es. rewrite (eo_dofs _ _ _ _ Hes). cbn [Nat.leb assert_ mbind out_bind].
  assert (E : find_loop (A := R_arith) fl fi fs 2 [1; 1; 1] (searcher_new es) = Fuel); [|now rewrite E].
  destruct fl as [|fl]; [reflexivity|]. cbn [find_loop]. change (length (se_pairs (searcher_new es)) <? 2)%nat with true. cbv iota.
  destruct (step_one fi fs) as [E1|(p & a & E1)]; rewrite E1; cbn [mbind out_bind]; [reflexivity|].
  destruct fl as [|fl]; [reflexivity|]. cbn [find_loop se_pairs]. change (length [p] <? 2)%nat with true. cbv iota.
  now rewrite step_two.
Qed.
End repeated.
