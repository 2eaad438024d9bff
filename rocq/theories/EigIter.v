(** The eigenvalue search's system set-up, inverse iteration and orthogonalisation. *)
From Verif Require Export Inertia SolverProofs BiToLe.

(** [es] stores the symmetric matrices [k] and [m] of size n *)
Record es_ok {A : arith} (es : esys A) (n : nat) (k m : nat -> nat -> A) : Prop := EsOk {
  eo_dofs : es_dofs es = n;
  eo_kwf : le_wf (es_k es);
  eo_kn : lev_n (es_k es) = n;
  eo_mwf : be_wf (es_m es);
  eo_mn : be_n (es_m es) = n;
  eo_fwf : be_wf (es_kfull es);
  eo_fn : be_n (es_kfull es) = n;
  eo_env : forall i, i < n -> lsc (es_k es) i <= (bnd (es_m es) i).1;
  eo_k : forall r c, r < n -> c <= r -> el (es_k es) r c = k r c;
  eo_f : forall r c, r < n -> c < n -> el (es_kfull es) r c = k r c;
  eo_m : forall r c, r < n -> c < n -> el (es_m es) r c = m r c;
  eo_ksym : forall r c, r < n -> c < n -> k r c = k c r;
  eo_msym : forall r c, r < n -> c < n -> m r c = m c r }.

Lemma vel_eq_map {A : arith} (x : list A) (f : nat -> A) n : length x = n ->
  (forall i, i < n -> vel x i = f i) -> x = map f (seq 0 n).
Proof.
  intros Hl H. apply vel_ext; [now rewrite map_length, seq_length|]. intros i Hi. rewrite vel_map_seq by lia. apply H. lia.
Qed.

Lemma foldM_set_map {A : arith} (n : nat) (body : nat -> list A -> out (list A)) (f : nat -> A) (y : list A) : length y = n ->
  (forall i y', i < n -> length y' = n -> (forall j, i <= j < n -> vel y' j = vel y j) -> body i y' = Ret (<[i := f i]> y')) ->
  foldM body (range 0 n) y = Ret (map f (seq 0 n)).
Proof.
  intros Hl Hb.
  destruct (foldM_range_inv (fun k (z : list A) => length z = n /\ (forall j, j < k -> vel z j = f j) /\ (forall j, k <= j < n -> vel z j = vel y j)) body 0 n y)
    as (z & E & Hz & Hf & _); [lia| | |].
  - split; [exact Hl|]. split; [lia|]. auto.
  - intros i z Hi (Hz & Hf & Hr). rewrite Hb; [|lia|exact Hz|auto]. eexists. split; [reflexivity|].
    split; [now rewrite insert_length|]. split; intros j Hj; rewrite vel_insert by lia.
    + destruct (Nat.eqb_spec j i) as [->|Hne]; [reflexivity|]. apply Hf. lia.
    + rewrite (proj2 (Nat.eqb_neq j i)) by lia. apply Hr. lia.
  - rewrite E. f_equal. now apply vel_eq_map.
Qed.

Section iter.
Context {A : arith} (FL : field_laws A).
Add Field Afield26 : (fl_field A FL).
Local Open Scope arith_scope.

Lemma dot_vel (x y : list A) n : length x = n -> length y = n -> dot x y = bigsum n (fun i => vel x i * vel y i).
Proof.
  intros Hx Hy. unfold dot. rewrite (list_vel x), (list_vel y), Hx, Hy at 1. now rewrite zip_with_seq, ssum_seq.
Qed.

Lemma scaled_ret n (x y : list A) (mag : A) : length x = n -> length y = n ->
  scaled n x mag y = Ret (map (fun i => vel x i / mag) (seq 0 n)).
Proof.
  intros Hx Hy. unfold scaled. apply foldM_set_map; [exact Hy|]. intros i y' Hi Hl _.
  rewrite idx_vel by lia. cbn [mbind out_bind]. now rewrite set_lookup by lia.
Qed.

Lemma gs_axpy_ret n (w : A) (v x : list A) : length v = n -> length x = n ->
  gs_axpy n w v x = Ret (map (fun i => vel x i - w * vel v i) (seq 0 n)).
Proof.
  intros Hv Hx. unfold gs_axpy. apply foldM_set_map; [exact Hx|]. intros i y' Hi Hl Hr.
  rewrite !idx_vel by lia. cbn [mbind out_bind]. rewrite set_lookup by lia. now rewrite Hr by lia.
Qed.

Lemma mv_ext n (a : nat -> nat -> A) (x y : nat -> A) i : (forall j, (j < n)%nat -> x j = y j) -> mv n a x i = mv n a y i.
Proof. intros H. apply bigsum_ext. intros j Hj. now rewrite H. Qed.

(** component [i] of the [k]-th vector of a list of pairs *)
Definition ev (eigs : list (epair A)) (k i : nat) : A := vel (ep_vec (nth k eigs (EPair 0 []))) i.

Definition orthonormal (n : nat) (m : nat -> nat -> A) (eigs : list (epair A)) : Prop :=
  forall k l, (k < length eigs)%nat -> (l < length eigs)%nat ->
    bigsum n (fun i => ev eigs k i * mv n m (ev eigs l) i) = if decide (k = l) then 1 else 0.

Lemma gram_schmidt_ret (m : bienv A) (eigs : list (epair A)) (x : list A) n : be_wf m -> be_n m = n -> length x = n ->
  (forall e, e ∈ eigs -> length (ep_vec e) = n) ->
  exists x', gram_schmidt m eigs x = Ret x' /\ length x' = n /\
    (exists w : nat -> A, forall i, (i < n)%nat -> vel x' i = vel x i - bigsum (length eigs) (fun k => w k * ev eigs k i)) /\
    (orthonormal n (el m) eigs -> forall k, (k < length eigs)%nat -> bigsum n (fun i => ev eigs k i * mv n (el m) (vel x') i) = 0).
Proof.
  intros W Hn Hx He. unfold gram_schmidt.
  match goal with |- context [foldM ?F _ _] => set (body := F) end.
  destruct (foldM_list_inv (fun (pre : list (epair A)) (z : list A) => length z = n /\
     (exists w : nat -> A, forall i, (i < n)%nat -> vel z i = vel x i - bigsum (length pre) (fun k => w k * ev eigs k i)) /\
     (orthonormal n (el m) eigs -> forall k, (k < length pre)%nat -> bigsum n (fun i => ev eigs k i * mv n (el m) (vel z) i) = 0)) body eigs x)
     as (z & E & Hz & Hw & Ho).
  - split; [exact Hx|]. split; [exists (fun _ => 0); intros i _; cbn; ring|]. intros _ k Hk. cbn in Hk. lia.
  - intros pre e post z Hsp (Hz & (w & Hw) & Ho).
    assert (Hin : e ∈ eigs) by (rewrite Hsp; apply elem_of_app; right; left).
    unfold body. destruct (be_mul_vec_spec FL m z (replicate (length z) 0) W) as (t & Et & Hlt & Ht); [congruence|rewrite replicate_length; congruence|].
    rewrite Et. cbn [mbind out_bind]. rewrite Hz. rewrite (gs_axpy_ret n) by (auto || congruence). eexists. split; [reflexivity|].
    assert (Hev : forall i, vel (ep_vec e) i = ev eigs (length pre) i).
    { intros i. unfold ev. rewrite Hsp, app_nth2 by lia. rewrite Nat.sub_diag. reflexivity. }
    set (wt := dot (ep_vec e) t).
    assert (Hwt : wt = bigsum n (fun i => ev eigs (length pre) i * mv n (el m) (vel z) i)).
    { unfold wt. rewrite (dot_vel _ _ n) by (auto || congruence). apply bigsum_ext. intros i Hi. rewrite Hev, Ht by congruence. now rewrite Hn. }
    split; [now rewrite map_length, seq_length|]. rewrite app_length. cbn [length]. rewrite Nat.add_1_r. split.
    + exists (fun k => if decide (k = length pre) then wt else w k). intros i Hi. rewrite vel_map_seq by exact Hi. rewrite Hw by exact Hi.
      cbn [bigsum]. rewrite decide_True by reflexivity. rewrite Hev.
      rewrite (bigsum_ext (fun k => (if decide (k = length pre) then wt else w k) * ev eigs k i) (fun k => w k * ev eigs k i)).
      2:{ intros k Hk. rewrite decide_False by lia. reflexivity. }
      ring.
    + intros Hon k Hk. specialize (Ho Hon).
      assert (Hmv : forall i, mv n (el m) (vel (map (fun i0 => vel z i0 - wt * vel (ep_vec e) i0) (seq 0 n))) i
                     = mv n (el m) (vel z) i - wt * mv n (el m) (ev eigs (length pre)) i).
      { intros i. unfold mv. rewrite <- (bigsum_scale_l FL), <- (bigsum_sub FL). apply bigsum_ext. intros c Hc.
        rewrite vel_map_seq by exact Hc. rewrite Hev. ring. }
      rewrite (bigsum_ext _ (fun i => ev eigs k i * mv n (el m) (vel z) i - wt * (ev eigs k i * mv n (el m) (ev eigs (length pre)) i))).
      2:{ intros i _. rewrite Hmv. ring. }
      rewrite (bigsum_sub FL), (bigsum_scale_l FL). assert (Hlp : (length pre < length eigs)%nat) by (rewrite Hsp, app_length; cbn; lia).
      rewrite Hon by lia. destruct (decide (k = length pre)) as [->|Hne].
      * rewrite <- Hwt. ring.
      * rewrite Ho by lia. ring.
  - exists z. split; [exact E|]. auto.
Qed.

(** K - mu M *)
Lemma shifted_ret (es : esys A) n k m (mu : A) : es_ok es n k m ->
  exists a, shifted (es_k es) (es_m es) mu = Ret a /\ le_wf a /\ lev_n a = n /\
    forall r c, (r < n)%nat -> (c < n)%nat -> sym_el a r c = k r c - mu * m r c.
Proof.
  intros [Hd Wk Hk Wm Hm Wf Hf Hen Ek Ef Em Ks Ms]. unfold shifted.
  destruct (add_scaled_spec FL (es_k es) (es_m es) (- (1) * mu) Wk Wm) as (a & E & Wa & _ & Hna & Hel); [congruence| |].
  { intros i Hi. apply Hen. congruence. }
  exists a. split; [exact E|]. split; [exact Wa|]. split; [congruence|].
  assert (G : forall r c, (r < n)%nat -> (c <= r)%nat -> el a r c = k r c - mu * m r c).
  { intros r c Hr Hc. rewrite Hel by exact Hc. rewrite Ek, Em by lia. ring. }
  intros r c Hr Hc. unfold sym_el. destruct (Nat.leb_spec c r) as [Hle|Hgt].
  - now apply G.
  - rewrite G by lia. rewrite Ks, Ms by lia. reflexivity.
Qed.
End iter.

Section count.
Context {A : arith} (OL : ord_laws A).
Let FL : field_laws A := ol_field A OL.
Add Field Afield27 : (fl_field A FL).
Local Open Scope arith_scope.

Lemma num_neg_negs (d : dg A) n : length (dg_data d) = n -> num_neg d = length (negs n (vel (dg_data d))).
Proof.
  intros Hl. unfold num_neg, negs. rewrite (list_vel (dg_data d)) at 1. rewrite Hl.
  induction (seq 0 n) as [|x l IH]; [reflexivity|]. cbn [map List.filter]. destruct (sltb (vel (dg_data d) x) 0); cbn [length]; congruence.
Qed.

(** the pivots of the shifted matrix *)
Definition pivots_at (es : esys A) (mu : A) (d : list A) : Prop :=
  exists a l, shifted (es_k es) (es_m es) mu = Ret a /\ cholesky_envelope_no_root a = Ret (l, DG d).

Lemma pivots_exist es n k m mu : es_ok es n k m -> exists d, pivots_at es mu d /\ length d = n /\
  eigenvalues_under es mu = Ret (num_neg (DG d)).
Proof.
  intros Hes. destruct (shifted_ret FL es n k m mu Hes) as (a & Ea & Wa & Hn & _).
  destruct (ldl_inv_all FL a Wa) as ([l [d]] & El & HI). pose proof HI as (_ & _ & _ & Hd & _).
  exists d. split; [exists a, l; auto|]. split; [cbn in Hd; congruence|].
  unfold eigenvalues_under. rewrite Ea. cbn [mbind out_bind]. rewrite El. reflexivity.
Qed.

Lemma eigenvalues_under_ret es n k m v lam mu d : es_ok es n k m -> gen_eigs n k m v lam -> pivots_at es mu d ->
  (forall c, (S c < n)%nat -> vel d c <> 0) ->
  eigenvalues_under es mu = Ret (count_below n lam mu).
Proof.
  intros Hes HG (a & l & Ea & El) Hnz.
  destruct (shifted_ret FL es n k m mu Hes) as (a' & Ea' & Wa & Hn & Hsel). rewrite Ea in Ea'. injection Ea' as <-.
  destruct (ldl_inv_all FL a Wa) as (ld & El' & HI). rewrite El in El'. injection El' as <-.
  unfold eigenvalues_under. rewrite Ea. cbn [mbind out_bind]. rewrite El. cbn [mbind out_bind snd].
  pose proof HI as (Wl & _ & Hnl & Hd & H1 & _ & _). cbn [fst snd] in *.
  rewrite (num_neg_negs (DG d) n) by (cbn in *; congruence). f_equal.
  apply (inertia_count OL n k m (sym_el a) v (el l) lam (vel d) mu HG Hsel).
  - intros r c Hrc. now apply el_right.
  - intros r Hr. apply H1. congruence.
  - intros r c Hr Hc. rewrite <- Hn. apply (ldl_block FL a (l, DG d) (lev_n a) HI); cbn; try lia. intros c' _ Hc'. apply Hnz. lia.
Qed.

(** ** inverse iteration *)
Context (SQ : sqrt_law A).

Lemma inv_loop_ret es n k m (mu : A) a l d : es_ok es n k m -> posdef n m ->
  shifted (es_k es) (es_m es) mu = Ret a -> cholesky_envelope_no_root a = Ret (l, d) ->
  (forall c, (c < n)%nat -> vel (dg_data d) c <> 0) ->
  forall fi old x y, length x = n -> length y = n -> (exists i, (i < n)%nat /\ vel y i <> 0) ->
  inv_loop fi n l d (es_m es) mu old x y = Fuel \/
  exists p, inv_loop fi n l d (es_m es) mu old x y = Ret p /\ length (ep_vec p) = n /\
    bigsum n (fun i => vel (ep_vec p) i * mv n m (vel (ep_vec p)) i) = 1 /\
    ep_value p = bigsum n (fun i => vel (ep_vec p) i * mv n k (vel (ep_vec p)) i).
Proof.
  intros Hes HP Ea El Hnz.
  destruct (shifted_ret FL es n k m mu Hes) as (a' & Ea' & Wa & Hn & Hsel). rewrite Ea in Ea'. injection Ea' as <-.
  destruct (ldl_inv_all FL a Wa) as (ld & El' & HI). rewrite El in El'. injection El' as <-.
  pose proof HI as (Wl & _ & Hnl & Hd & H1 & _ & _). cbn [fst snd] in *.
  destruct Hes as [Hdo Wk Hk Wm Hm Wf Hf Hen Ek Ef Em Ks Ms].
  assert (Htab : forall r c, (r < n)%nat -> (c < n)%nat -> ldl_table n (el l) (vel (dg_data d)) r c = k r c - mu * m r c).
  { intros r c Hr Hc. rewrite <- Hsel by assumption. rewrite <- Hn. apply (ldl_block FL a (l, d) (lev_n a) HI); cbn; try lia.
    intros c' Hc' _. apply Hnz. lia. }
  induction fi as [|fi IH]; intros old x y Hx Hy Hy0; [left; reflexivity|].
  cbn [inv_loop].
  destruct (solve_ldl_ret FL l d y (replicate n 0) Wl) as (xb & Exb & Hxb & Hxe); try (rewrite ?replicate_length; congruence).
  { intros i Hi. rewrite H1 by congruence. apply (one_neq_0 OL). }
  { intros i Hi. apply Hnz. congruence. }
  rewrite Exb. cbn [mbind out_bind]. rewrite Hnl, Hn in *.
  destruct (be_mul_vec_spec FL (es_m es) xb (replicate n 0) Wm) as (yb & Eyb & Hyb & Hye); try (rewrite ?replicate_length; congruence).
  rewrite Eyb. cbn [mbind out_bind]. rewrite Hm in *.
  assert (Hye' : forall i, (i < n)%nat -> vel yb i = mv n m (vel xb) i).
  { intros i Hi. rewrite Hye by exact Hi. apply bigsum_ext. intros c Hc. now rewrite Em. }
  assert (Hxb0 : exists i, (i < n)%nat /\ vel xb i <> 0).
  { destruct Hy0 as (i & Hi & Hy0).
    destruct (decide (Exists (fun i => seqb (vel xb i) 0 = false) (seq 0 n))) as [Hex|Hno].
    - apply Exists_exists in Hex as (j & Hj & Hjn). apply elem_of_seq in Hj. exists j. split; [lia|]. intros E.
      apply (fl_eqb A FL) in E. congruence.
    - exfalso. apply Hy0. rewrite <- Hxe by exact Hi. apply (bigsum_0 FL). intros j Hj.
      destruct (seqb (vel xb j) 0) eqn:E; [apply (fl_eqb A FL) in E; rewrite E; ring|].
      exfalso. apply Hno. apply Exists_exists. exists j. split; [apply elem_of_seq; lia|exact E]. }
  set (q := bigsum n (fun i => vel xb i * mv n m (vel xb) i)).
  assert (Hq : lts 0 q) by (apply HP; exact Hxb0).
  assert (Hdq : dot xb yb = q).
  { rewrite (dot_vel _ _ n) by assumption. apply bigsum_ext. intros i Hi. now rewrite Hye'. }
  destruct (SQ q Hq) as [Hmag Hmag2]. set (mag := ssqrt q) in *. rewrite Hdq. fold mag.
  assert (Hq0 : q <> 0) by (intros E; rewrite E in Hq; now apply (lts_irr OL) in Hq).
  assert (Hmag0 : mag <> 0) by (intros E; rewrite E in Hmag; now apply (lts_irr OL) in Hmag).
  match goal with |- (if ?b then _ else _) = _ \/ _ => destruct b end.
  - right. rewrite (scaled_ret n) by assumption. cbn [mbind out_bind]. eexists. split; [reflexivity|]. cbn [ep_vec ep_value].
    set (v := map _ _). assert (Hlv : length v = n) by (unfold v; now rewrite map_length, seq_length). split; [exact Hlv|].
    assert (Hv : forall i, (i < n)%nat -> vel v i = vel xb i / mag) by (intros i Hi; unfold v; now rewrite vel_map_seq).
    assert (Hquad : forall b : nat -> nat -> A, bigsum n (fun i => vel v i * mv n b (vel v) i) = bigsum n (fun i => vel xb i * mv n b (vel xb) i) / q).
    { intros b. transitivity (bigsum n (fun i => vel xb i * mv n b (vel xb) i * (1 / q))).
      - apply bigsum_ext. intros i Hi. rewrite Hv by exact Hi.
        replace (mv n b (vel v) i) with (mv n b (vel xb) i * (1 / mag)).
        + rewrite <- Hmag2. field. exact Hmag0.
        + unfold mv. rewrite <- (bigsum_scale_r FL). apply bigsum_ext. intros c Hc. rewrite Hv by exact Hc. field. exact Hmag0.
      - rewrite (bigsum_scale_r FL). field. exact Hq0. }
    rewrite !Hquad. fold q. split; [field; exact Hq0|].
    assert (Hnum : dot xb y = bigsum n (fun i => vel xb i * mv n k (vel xb) i) - mu * q).
    { rewrite (dot_vel _ _ n) by assumption. unfold q. rewrite <- (bigsum_scale_l FL), <- (bigsum_sub FL).
      apply bigsum_ext. intros i Hi. rewrite <- Hxe by exact Hi.
      replace (mv n (ldl_table n (el l) (vel (dg_data d))) (vel xb) i) with (mv n k (vel xb) i - mu * mv n m (vel xb) i).
      - ring.
      - unfold mv. rewrite <- (bigsum_scale_l FL), <- (bigsum_sub FL). apply bigsum_ext. intros c Hc. rewrite Htab by assumption. ring. }
    rewrite Hnum. field. exact Hq0.
  - rewrite (scaled_ret n) by assumption. cbn [mbind out_bind]. apply IH; [exact Hx|now rewrite map_length, seq_length|].
    destruct (decide (Exists (fun i => seqb (mv n m (vel xb) i) 0 = false) (seq 0 n))) as [Hex|Hno].
    + apply Exists_exists in Hex as (j & Hj & Hjn). apply elem_of_seq in Hj. exists j. split; [lia|]. rewrite vel_map_seq by lia.
      rewrite Hye' by lia. intros E. assert (E' : mv n m (vel xb) j = 0).
      { transitivity (mv n m (vel xb) j / mag * mag); [field; exact Hmag0|rewrite E; ring]. }
      apply (fl_eqb A FL) in E'. congruence.
    + exfalso. apply Hq0. unfold q. apply (bigsum_0 FL). intros j Hj.
      destruct (seqb (mv n m (vel xb) j) 0) eqn:E; [apply (fl_eqb A FL) in E; rewrite E; ring|].
      exfalso. apply Hno. apply Exists_exists. exists j. split; [apply elem_of_seq; lia|exact E].
Qed.

(** positive definite matrices map only zero to zero *)
Lemma posdef_mv n (m : nat -> nat -> A) (x : nat -> A) : posdef n m -> (exists i, (i < n)%nat /\ x i <> 0) ->
  exists i, (i < n)%nat /\ mv n m x i <> 0.
Proof.
  intros HP Hx. specialize (HP x Hx).
  destruct (decide (Exists (fun i => seqb (mv n m x i) 0 = false) (seq 0 n))) as [Hex|Hno].
  - apply Exists_exists in Hex as (j & Hj & Hjn). apply elem_of_seq in Hj. exists j. split; [lia|]. intros E. apply (fl_eqb A FL) in E. congruence.
  - exfalso. rewrite (bigsum_0 FL) in HP; [now apply (lts_irr OL) in HP|]. intros j Hj.
    destruct (seqb (mv n m x j) 0) eqn:E; [apply (fl_eqb A FL) in E; rewrite E; ring|].
    exfalso. apply Hno. apply Exists_exists. exists j. split; [apply elem_of_seq; lia|exact E].
Qed.

(** the start vector is a combination of the given vectors *)
Definition in_span (n : nat) (eigs : list (epair A)) (x : nat -> A) : Prop :=
  exists w : nat -> A, forall i, (i < n)%nat -> x i = bigsum (length eigs) (fun k => w k * ev eigs k i).

Lemma inverse_iterate_ret es n k m (mu : A) fi rnd eigs d : es_ok es n k m -> posdef n m -> pivots_at es mu d ->
  (forall c, (c < n)%nat -> vel d c <> 0) -> length rnd = n ->
  (forall e, e ∈ default [] eigs -> length (ep_vec e) = n) -> ~ in_span n (default [] eigs) (vel rnd) ->
  inverse_iterate fi rnd (es_k es) (es_m es) mu eigs = Fuel \/
  exists p, inverse_iterate fi rnd (es_k es) (es_m es) mu eigs = Ret p /\ length (ep_vec p) = n /\
    bigsum n (fun i => vel (ep_vec p) i * mv n m (vel (ep_vec p)) i) = 1 /\
    ep_value p = bigsum n (fun i => vel (ep_vec p) i * mv n k (vel (ep_vec p)) i).
Proof.
  intros Hes HP (a & l & Ea & El) Hnz Hr He Hsp. pose proof Hes as [Hdo Wk Hk Wm Hm Wf Hf Hen Ek Ef Em Ks Ms].
  unfold inverse_iterate. rewrite (proj2 (Nat.eqb_eq _ _)) by congruence. cbn [assert_ mbind out_bind].
  rewrite Ea. cbn [mbind out_bind]. rewrite El. cbn [mbind out_bind fst snd].
  assert (Hst : exists x, (match eigs with Some e => gram_schmidt (es_m es) e rnd | None => Ret rnd end) = Ret x /\ length x = n /\
     exists i, (i < n)%nat /\ vel x i <> 0).
  { assert (Hgs : exists x, (match eigs with Some e => gram_schmidt (es_m es) e rnd | None => Ret rnd end) = Ret x /\ length x = n /\
      exists w : nat -> A, forall i, (i < n)%nat -> vel x i = vel rnd i - bigsum (length (default [] eigs)) (fun k => w k * ev (default [] eigs) k i)).
    { destruct eigs as [e|]; cbn [default] in *.
      - destruct (gram_schmidt_ret FL (es_m es) e rnd n Wm Hm Hr He) as (x & Ex & Hx & Hw & _). eauto.
      - exists rnd. split; [reflexivity|]. split; [exact Hr|]. exists (fun _ => 0). intros i _. cbn. ring. }
    destruct Hgs as (x & Ex & Hx & w & Hw). exists x. split; [exact Ex|]. split; [exact Hx|].
    destruct (decide (Exists (fun i => seqb (vel x i) 0 = false) (seq 0 n))) as [Hex|Hno].
    - apply Exists_exists in Hex as (j & Hj & Hjn). apply elem_of_seq in Hj. exists j. split; [lia|]. intros E. apply (fl_eqb A FL) in E. congruence.
    - exfalso. apply Hsp. exists w. intros i Hi. specialize (Hw i Hi).
      destruct (seqb (vel x i) 0) eqn:E.
      + apply (fl_eqb A FL) in E. rewrite E in Hw. set (t := bigsum _ _) in *. transitivity (vel rnd i - t + t); [ring|rewrite <- Hw; ring].
      + exfalso. apply Hno. apply Exists_exists. exists i. split; [apply elem_of_seq; lia|exact E]. }
  destruct Hst as (x & Ex & Hx & Hx0). rewrite Ex. cbn [mbind out_bind]. rewrite Hk.
  destruct (be_mul_vec_spec FL (es_m es) x (replicate n 0) Wm) as (y & Ey & Hy & Hye); try (rewrite ?replicate_length; congruence).
  rewrite Ey. cbn [mbind out_bind]. apply (inv_loop_ret es n k m mu a l (DG d)); try assumption; [congruence|].
  destruct (posdef_mv n m (vel x) HP Hx0) as (i & Hi & Hmi). exists i. split; [exact Hi|]. rewrite Hye by congruence. rewrite Hm.
  replace (mv n (el (es_m es)) (vel x) i) with (mv n m (vel x) i); [exact Hmi|].
  apply bigsum_ext. intros c Hc. now rewrite Em.
Qed.

(** inverse_iterate_times: the same steps, a fixed number of them *)
Lemma inverse_iterate_times_ret (es : esys A) n k m rnd times : es_ok es n k m -> posdef n m -> (0 < times)%nat ->
  (forall l d, cholesky_envelope_no_root (es_k es) = Ret (l, d) -> forall c, (c < n)%nat -> vel (dg_data d) c <> 0) ->
  length rnd = n -> (exists i, (i < n)%nat /\ vel rnd i <> 0) ->
  exists x, inverse_iterate_times rnd (es_k es) (es_m es) times = Ret x /\ length x = n /\
    bigsum n (fun i => vel x i * mv n m (vel x) i) = 1.
Proof.
  intros Hes HP Htm Hnz Hr Hr0. destruct Hes as [Hdo Wk Hk Wm Hm Wf Hf Hen Ek Ef Em Ks Ms].
  destruct (ldl_inv_all FL (es_k es) Wk) as ([l d] & El & HI).
  pose proof HI as (Wl & _ & Hnl & Hd & H1 & _ & _). cbn [fst snd] in *. specialize (Hnz l d El).
  unfold inverse_iterate_times. rewrite (proj2 (Nat.eqb_eq _ _)) by congruence. cbn [assert_ mbind out_bind].
  rewrite El. cbn [mbind out_bind fst snd]. rewrite Hk in *.
  destruct (be_mul_vec_spec FL (es_m es) rnd (replicate n 0) Wm) as (y0 & Ey & Hy & Hye); try (rewrite ?replicate_length; congruence).
  rewrite Ey. cbn [mbind out_bind]. rewrite Hm in *.
  assert (HM : forall (x : list A) i, (i < n)%nat -> mv n (el (es_m es)) (vel x) i = mv n m (vel x) i).
  { intros x i Hi. apply bigsum_ext. intros c Hc. now rewrite Em. }
  match goal with |- context [foldM ?F _ _] => set (body := F) end.
  destruct (foldM_range_inv (fun q (st : list A * list A * A) => length st.1.1 = n /\ length st.1.2 = n /\
     (exists i, (i < n)%nat /\ vel st.1.2 i <> 0) /\
     ((0 < q)%nat -> st.2 <> 0 /\ bigsum n (fun i => vel st.1.1 i * mv n m (vel st.1.1) i) = st.2 * st.2))
     body 0%nat times (replicate n 0, y0, 0)) as (st & E & Hx & _ & _ & Hq); [lia| | |].
  - cbn [fst snd]. split; [apply replicate_length|]. split; [exact Hy|]. split; [|lia].
    destruct (posdef_mv n m (vel rnd) HP Hr0) as (i & Hi & Hmi). exists i. split; [exact Hi|]. rewrite Hye, HM by exact Hi. exact Hmi.
  - intros q [[xs ys] mg] _ (Hxs & Hys & Hy0 & _). cbn [fst snd] in *. unfold body. cbn [fst snd].
    destruct (solve_ldl_ret FL l d ys xs Wl) as (xb & Exb & Hxb & Hxe); try congruence.
    { intros i Hi. rewrite H1 by congruence. apply (one_neq_0 OL). }
    { intros i Hi. apply Hnz. congruence. }
    rewrite Exb. cbn [mbind out_bind]. rewrite Hnl in *.
    destruct (be_mul_vec_spec FL (es_m es) xb (replicate n 0) Wm) as (yb & Eyb & Hyb & Hybe); try (rewrite ?replicate_length; congruence).
    rewrite Eyb. cbn [mbind out_bind]. rewrite Hm in *.
    assert (Hxb0 : exists i, (i < n)%nat /\ vel xb i <> 0).
    { destruct Hy0 as (i & Hi & Hy0).
      destruct (decide (Exists (fun i => seqb (vel xb i) 0 = false) (seq 0 n))) as [Hex|Hno].
      - apply Exists_exists in Hex as (j & Hj & Hjn). apply elem_of_seq in Hj. exists j. split; [lia|]. intros E.
        apply (fl_eqb A FL) in E. congruence.
      - exfalso. apply Hy0. rewrite <- Hxe by exact Hi. apply (bigsum_0 FL). intros j Hj.
        destruct (seqb (vel xb j) 0) eqn:E; [apply (fl_eqb A FL) in E; rewrite E; ring|].
        exfalso. apply Hno. apply Exists_exists. exists j. split; [apply elem_of_seq; lia|exact E]. }
    pose proof (HP (vel xb) Hxb0) as Hqp. set (qv := bigsum n (fun i => vel xb i * mv n m (vel xb) i)) in *.
    assert (Hdq : dot xb yb = qv).
    { rewrite (dot_vel _ _ n) by assumption. apply bigsum_ext. intros i Hi. now rewrite Hybe, HM. }
    destruct (SQ qv Hqp) as [Hmag Hmag2]. rewrite Hdq. set (mag := ssqrt qv) in *.
    assert (Hmag0 : mag <> 0) by (intros E; rewrite E in Hmag; now apply (lts_irr OL) in Hmag).
    rewrite (scaled_ret n) by assumption. cbn [mbind out_bind]. eexists. split; [reflexivity|]. cbn [fst snd].
    split; [exact Hxb|]. split; [now rewrite map_length, seq_length|]. split.
    + destruct (posdef_mv n m (vel xb) HP Hxb0) as (i & Hi & Hmi). exists i. split; [exact Hi|]. rewrite vel_map_seq by exact Hi.
      rewrite Hybe, HM by exact Hi. intros E. apply Hmi. transitivity (mv n m (vel xb) i / mag * mag); [field; exact Hmag0|rewrite E; ring].
    + intros _. split; [exact Hmag0|]. fold qv. auto.
  - rewrite E. cbn [mbind out_bind]. rewrite (scaled_ret n) by congruence. eexists. split; [reflexivity|].
    split; [now rewrite map_length, seq_length|]. destruct (Hq Htm) as [Hm0 Hq2]. set (v := map _ _).
    assert (Hv : forall i, (i < n)%nat -> vel v i = vel st.1.1 i / st.2) by (intros i Hi; unfold v; now rewrite vel_map_seq).
    transitivity (bigsum n (fun i => vel st.1.1 i * mv n m (vel st.1.1) i * (1 / (st.2 * st.2)))).
    + apply bigsum_ext. intros i Hi. rewrite Hv by exact Hi.
      replace (mv n m (vel v) i) with (mv n m (vel st.1.1) i * (1 / st.2)).
      * field. exact Hm0.
      * unfold mv. rewrite <- (bigsum_scale_r FL). apply bigsum_ext. intros c Hc. rewrite Hv by exact Hc. field. exact Hm0.
    + rewrite (bigsum_scale_r FL), Hq2. field. exact Hm0.
Qed.

Lemma rayleigh_ret (es : esys A) n k m (x : list A) : es_ok es n k m -> length x = n ->
  rayleigh_quotient x (es_kfull es) (es_m es)
  = Ret (bigsum n (fun i => vel x i * mv n k (vel x) i) / bigsum n (fun i => vel x i * mv n m (vel x) i)).
Proof.
  intros [Hdo Wk Hk Wm Hm Wf Hf Hen Ek Ef Em Ks Ms] Hx. unfold rayleigh_quotient.
  rewrite (proj2 (Nat.eqb_eq _ _)) by congruence. cbn [assert_ mbind out_bind].
  rewrite (proj2 (Nat.eqb_eq _ _)) by congruence. cbn [assert_ mbind out_bind].
  destruct (be_mul_vec_spec FL (es_kfull es) x (replicate (be_n (es_kfull es)) 0) Wf) as (kx & Ekx & Hkx & Hkxe); try (rewrite ?replicate_length; congruence).
  rewrite Ekx. cbn [mbind out_bind].
  destruct (be_mul_vec_spec FL (es_m es) x kx Wm) as (mx & Emx & Hmx & Hmxe); try congruence.
  rewrite Emx. cbn [mbind out_bind]. rewrite !(dot_vel _ _ n) by congruence. f_equal. f_equal; apply bigsum_ext; intros i Hi.
  - rewrite Hkxe by congruence. rewrite Hf. f_equal. apply bigsum_ext. intros c Hc. now rewrite Ef.
  - rewrite Hmxe by congruence. rewrite Hm. f_equal. apply bigsum_ext. intros c Hc. now rewrite Em.
Qed.
End count.

(** ** setting the search up *)
Section setup.
Context {A : arith} (FL : field_laws A).
Add Field Afield28 : (fl_field A FL).
Local Open Scope arith_scope.

Lemma reduce_envelope_m ho t (s s' : system A) n p m : oracle_ok ho -> od_wf n (sy_m s) -> sy_m s = Some m ->
  reduce_envelope ho t s = Ret s' -> sy_perm s' = Some p -> perm_wf n p ->
  exists m', sy_m s' = Some m' /\ dict_wf m' /\ d_shape m' = (n, n) /\
    forall r c, (r < n)%nat -> (c < n)%nat -> d_data m' !! (pf p r, pf p c) = d_data m !! (r, c) /\ el m' (pf p r) (pf p c) = el m r c.
Proof.
  intros Ho Wm Hm E Hp Wp. rewrite Hm in Wm. destruct Wm as [Wm Hs]. unfold reduce_envelope in E. destruct (sy_perm s); [discriminate E|].
  apply bind_ret_inv in E as (k & _ & E). apply bind_ret_inv in E as (g & _ & E). apply bind_ret_inv in E as (p' & _ & E).
  apply bind_ret_inv in E as (k' & _ & E). apply bind_ret_inv in E as (m' & Em & E). apply bind_ret_inv in E as (r' & _ & E).
  injection E as <-. cbn [sy_perm] in Hp. injection Hp as ->. rewrite Hm in Em. cbn [opt_mapM] in Em.
  destruct (d_permute_spec (ho (t + 2)%nat (d_data m)) m p n Wm (Ho _ _) Hs Wp) as (m1 & E1 & W1 & Hs1 & Hel).
  rewrite E1 in Em. cbn [mbind out_bind] in Em. injection Em as <-. exists m1. cbn [sy_m].
  split; [reflexivity|]. split; [exact W1|]. split; [congruence|exact Hel].
Qed.

Lemma eigen_new_linked ho (s : system A) kd md n : oracle_ok ho -> sys_wf s -> sy_dofs s = n -> sy_perm s = None ->
  sy_k s = Some kd -> sy_m s = Some md -> (2 <= n)%nat ->
  (forall r c, (r < n)%nat -> (c < n)%nat -> el kd r c = el kd c r) ->
  (forall r c, (r < n)%nat -> (c < n)%nat -> el md r c = el md c r) ->
  linked n kd ->
  (forall r, (r < n)%nat -> is_Some (d_data md !! (r, r))) ->
  (forall r c, is_Some (d_data md !! (r, c)) -> is_Some (d_data kd !! (r, c))) ->
  exists es p, eigen_new ho s = Ret es /\ perm_wf n p /\ es_perm es = invert p /\
    es_ok es n (fun r c => el kd (pb p r) (pb p c)) (fun r c => el md (pb p r) (pb p c)).
Proof.
  intros Ho W Hn Hp Hk Hm H2 Hks Hms Hcon Hdiag Hpat.
  destruct (reduce_envelope_linked ho 0 s kd n Ho W Hn Hp Hk H2 Hcon) as (k' & m'o & r' & p & Er & Wp & Wk' & Hsk' & Helk & Hrr).
  pose proof W as (_ & Wmo & Wr). rewrite Hn in Wmo.
  destruct (reduce_envelope_m ho 0 s _ n p md Ho Wmo Hm Er eq_refl Wp) as (m' & Em' & Wm' & Hsm' & Helm). cbn [sy_m] in Em'. subst m'o.
  unfold eigen_new. rewrite Er. cbn [mbind out_bind]. unfold k_envelope, m_envelope. cbn [sy_k sy_m sy_rhs sy_perm unwrap mbind out_bind].
  assert (Hpb : forall r, (r < n)%nat -> (pb p r < n)%nat /\ pf p (pb p r) = r).
  { intros r Hr. destruct (pb_lookup n p r Wp Hr) as (_ & B1 & _ & B2). auto. }
  assert (Hk' : forall r c, (r < n)%nat -> (c < n)%nat -> d_data k' !! (r, c) = d_data kd !! (pb p r, pb p c) /\ el k' r c = el kd (pb p r) (pb p c)).
  { intros r c Hr Hc. destruct (Hpb r Hr) as [B1 B2]. destruct (Hpb c Hc) as [B3 B4].
    destruct (Helk (pb p r) (pb p c) B1 B3) as [Hd1 Hd2]. now rewrite B2, B4 in Hd1, Hd2. }
  assert (Hm' : forall r c, (r < n)%nat -> (c < n)%nat -> d_data m' !! (r, c) = d_data md !! (pb p r, pb p c) /\ el m' r c = el md (pb p r) (pb p c)).
  { intros r c Hr Hc. destruct (Hpb r Hr) as [B1 B2]. destruct (Hpb c Hc) as [B3 B4].
    destruct (Helm (pb p r) (pb p c) B1 B3) as [Hd1 Hd2]. now rewrite B2, B4 in Hd1, Hd2. }
  assert (Hpat' : forall r c, is_Some (d_data m' !! (r, c)) -> is_Some (d_data k' !! (r, c))).
  { intros r c Hs. pose proof Hs as (v & Hv). apply Wm' in Hv. rewrite Hsm' in Hv. cbn in Hv. destruct Hv as [Hr Hc].
    rewrite (proj1 (Hm' r c Hr Hc)) in Hs. rewrite (proj1 (Hk' r c Hr Hc)). now apply Hpat. }
  assert (Hdm : forall r, (r < n)%nat -> is_Some (d_data m' !! (r, r))).
  { intros r Hr. rewrite (proj1 (Hm' r r Hr Hr)). apply Hdiag. now apply Hpb. }
  destruct (d_envelope_spec (ho 3%nat (d_data k')) k' Wk' (Ho _ _)) as (ke & Eke & Hke & Hke1 & Hke2 & Hke3). rewrite Eke. cbn [mbind out_bind].
  destruct (d_envelope_spec (ho 4%nat (d_data m')) m' Wm' (Ho _ _)) as (me & Eme & Hme & Hme1 & Hme2 & Hme3). rewrite Eme. cbn [mbind out_bind].
  rewrite Hsk' in *. rewrite Hsm' in *. cbn [fst] in *.
  assert (Hle : forall r, (r < n)%nat -> (nz me r <= nz ke r)%nat).
  { intros r Hr. destruct (Hme3 r Hr) as [->|(v & Hv)]; [lia|]. destruct (Hpat' r (r + 1 - nz me r)%nat ltac:(eauto)) as (v' & Hv').
    pose proof (Hme1 r). destruct (decide (nz me r = 0)%nat); [lia|]. pose proof (Hke2 r _ v' Hv' ltac:(lia)). lia. }
  assert (Hall : forallb (fun km : nat * nat => (km.2 <=? km.1)%nat) (zip ke me) = true).
  { apply forallb_forall. intros [a b] Hin. apply elem_of_list_In, elem_of_list_lookup in Hin as (i & Hi).
    apply lookup_zip_with_Some in Hi as (a' & b' & [= <- <-] & Ha & Hb). cbn [fst snd]. apply Nat.leb_le.
    assert (Hi : (i < n)%nat) by (apply lookup_lt_Some in Ha; lia). pose proof (Hle i Hi) as Hl. unfold nz in Hl.
    rewrite (nth_lookup_Some _ _ _ _ Ha), (nth_lookup_Some _ _ _ _ Hb) in Hl. exact Hl. }
  rewrite Hall. cbn [assert_ mbind out_bind opt_mapM].
  destruct (be_of_dict_spec (ho 5%nat (d_data k')) (ho 6%nat (d_data k')) k' n Wk' Hsk' (Ho _ _) (Ho _ _)) as (kf & Ekf & Wkf & Hnkf & Hbk & Helkf & Hbsk).
  { intros r Hr. destruct (Hpat' r r (Hdm r Hr)) as (v & Hv). eauto. }
  rewrite Ekf. cbn [mbind out_bind].
  destruct (be_of_dict_spec (ho 7%nat (d_data m')) (ho 8%nat (d_data m')) m' n Wm' Hsm' (Ho _ _) (Ho _ _)) as (mf & Emf & Wmf & Hnmf & Hbm & Helmf & Hbsm).
  { intros r Hr. destruct (Hdm r Hr) as (v & Hv). eauto. }
  rewrite Emf. cbn [mbind out_bind].
  assert (Hrhs : exists x, opt_mapM Buffer.lm_of_vec r' = Ret x).
  { destruct (sy_rhs s) as [rv|].
    - destruct Hrr as (rv' & -> & Hl & _). destruct (lm_of_vec_ret rv' n Hl) as (x & Ex & _). cbn [opt_mapM]. rewrite Ex. cbn [mbind out_bind]. eauto.
    - subst r'. cbn. eauto. }
  destruct Hrhs as (x & Ex). rewrite Ex. cbn [mbind out_bind unwrap].
  (* row bounds against stored entries *)
  assert (Hbound : forall ord (d : dict A) (b : bienv A), oracle_ok ho -> dict_wf d -> d_shape d = (n, n) -> hash_order ord d ->
     d_row_bounds ord d = Ret (be_bounds b) -> forall r c v, d_data d !! (r, c) = Some v -> ((bnd b r).1 <= c < (bnd b r).2)%nat).
  { intros ord d b _ Wd Hsd Hod Ebd r c v Hv. destruct (d_row_bounds_spec ord d Wd Hod) as (bs & Ebs & _ & _ & Hin & _).
    rewrite Ebd in Ebs. injection Ebs as <-. pose proof (Hin r c v Hv) as Hx. unfold bd in Hx. unfold bnd. lia. }
  destruct (le_from_bienv_spec kf Wkf) as (kl & Ekl & Wkl & Hnkl & Hlsc & Helkl).
  { intros r Hr. rewrite Hnkf in Hr. destruct (Hpat' r r (Hdm r Hr)) as (v & Hv).
    pose proof (Hbound (ho 5%nat (d_data k')) k' kf Ho Wk' Hsk' (Ho _ _) Hbk r r v Hv). lia. }
  rewrite Ekl. cbn [mbind out_bind unwrap option_map default]. eexists _, p. split; [reflexivity|]. split; [exact Wp|]. split; [reflexivity|].
  constructor; cbn [es_dofs es_k es_m es_kfull]; try assumption; try congruence.
  - intros i Hi. rewrite Hlsc by congruence. destruct (Hbsm i Hi) as [Hs _]. apply Hpat' in Hs as (v & Hv).
    pose proof (Hbound (ho 5%nat (d_data k')) k' kf Ho Wk' Hsk' (Ho _ _) Hbk i _ v Hv). lia.
  - intros r c Hr Hc. rewrite Helkl by exact Hc. rewrite Helkf. apply Hk'; lia.
  - intros r c Hr Hc. rewrite Helkf. now apply Hk'.
  - intros r c Hr Hc. rewrite Helmf. now apply Hm'.
  - intros r c Hr Hc. apply Hks; now apply Hpb.
  - intros r c Hr Hc. apply Hms; now apply Hpb.
Qed.
Lemma eigen_new_ret ho (s : system A) kd md n : oracle_ok ho -> sys_wf s -> sy_dofs s = n -> sy_perm s = None ->
  sy_k s = Some kd -> sy_m s = Some md -> (2 <= n)%nat ->
  (forall r c, (r < n)%nat -> (c < n)%nat -> el kd r c = el kd c r) ->
  (forall r c, (r < n)%nat -> (c < n)%nat -> el md r c = el md c r) ->
  connected n (el kd) ->
  (forall r, (r < n)%nat -> is_Some (d_data md !! (r, r))) ->
  (forall r c, is_Some (d_data md !! (r, c)) -> is_Some (d_data kd !! (r, c))) ->
  exists es p, eigen_new ho s = Ret es /\ perm_wf n p /\ es_perm es = invert p /\
    es_ok es n (fun r c => el kd (pb p r) (pb p c)) (fun r c => el md (pb p r) (pb p c)).
Proof.
  intros Ho W Hn Hp Hk Hm H2 Hks Hms Hcon. apply (eigen_new_linked ho s kd md n Ho W Hn Hp Hk Hm H2 Hks Hms).
  apply connected_linked; [|exact Hks|exact Hcon]. destruct W as (Wk & _). rewrite Hk in Wk. apply Wk.
Qed.
End setup.
