(** The reduced stiffness matrix, virtual work, and the supports of computed displacements. *)
From stdpp Require Import sorting.
From Verif Require Export Supports SolverProofs ElemMore.

(** split on every comparison of naturals in the goal *)
Ltac natcases :=
  repeat match goal with
         | |- context [(?a =? ?b)%nat] => destruct (Nat.eqb_spec a b)
         | |- context [(?a <? ?b)%nat] => destruct (Nat.ltb_spec a b)
         end; cbn [andb orb negb]; try reflexivity; try (exfalso; lia).

Section rot.
Context {A : arith}.
Local Open Scope arith_scope.

(** entry of the rotation matrix for component d of node n and component k of node m *)
Definition Rm (cons : list (constr A)) (n d m k : nat) : A :=
  match ang cons n with
  | Some th => if (m =? n)%nat
               then match d, k with
                    | 0%nat, 0%nat => scos th
                    | 0%nat, _ => -(1) * ssin th
                    | _, 0%nat => ssin th
                    | _, _ => scos th
                    end
               else 0
  | None => if ((m =? n) && (k =? d))%nat then 1 else 0
  end.

Lemma eye_ret N : exists d, eye (M := dict A) (N, N) = Ret d /\ dict_wf d /\ d_shape d = (N, N) /\
  forall i j, (i < N)%nat -> (j < N)%nat -> el d i j = if (j =? i)%nat then 1 else 0.
Proof.
  unfold eye. cbn [fst snd]. rewrite Nat.max_id. change (mzeros (M := dict A) (N, N)) with (Ret (d_zeros (A := A) (N, N))).
  cbn [mbind out_bind].
  destruct (foldM_range_inv (fun n (d : dict A) => dict_wf d /\ d_shape d = (N, N) /\
     forall i j, (i < N)%nat -> (j < N)%nat -> el d i j = if ((j =? i) && (i <? n))%nat then 1 else 0)
     (fun i m => put m (i, i) s1) 0 N (d_zeros (N, N))) as (d & E & W & Sh & V).
  - lia.
  - split; [apply d_zeros_wf|]. split; [reflexivity|]. intros i j _ _. rewrite d_zeros_el.
    destruct (j =? i)%nat; [|reflexivity]. destruct i; reflexivity.
  - intros n d Hn (W & Sh & V).
    destruct (put_ret _ _ d_laws d n n 1 W) as (d' & E & W' & Sh' & Hd & V').
    exists d'. split; [exact E|]. split; [exact W'|]. split; [rewrite <- Sh; exact Sh'|].
    intros i j Hi Hj. rewrite V'.
    assert (Hf : full_dom d n n = true).
    { unfold full_dom. apply in_shape_true. change (mshape d) with (d_shape d). rewrite Sh. cbn. lia. }
    rewrite ?Hf. rewrite V by assumption.
    natcases.
  - exists d. split; [exact E|]. split; [exact W|]. split; [exact Sh|]. intros i j Hi Hj. rewrite V by assumption.
    destruct (Nat.ltb_spec i N); [|lia]. now rewrite andb_true_r.
Qed.

Definition rm_step (abt : nat * nat * A) (st : dict A * list bool) : out (dict A * list bool) :=
    let '(a, b, theta) := abt in
    va ← idx st.2 a;
    vb ← (if va then Ret true else idx st.2 b);
    _ ← assert_ (negb va && negb vb);
    vis ← set st.2 a true;
    vis ← set vis b true;
    rot ← index_set st.1 (a, a) (scos theta);
    rot ← index_set rot (a, b) (smul (sneg s1) (ssin theta));
    rot ← index_set rot (b, a) (ssin theta);
    rot ← index_set rot (b, b) (scos theta);
    Ret (rot, vis).

Lemma rm_fold cons N (d0 : dict A) : (length cons <= N)%nat -> dict_wf d0 -> d_shape d0 = (N * 2, N * 2)%nat ->
  (forall i j, (i < N * 2)%nat -> (j < N * 2)%nat -> el d0 i j = if (j =? i)%nat then 1 else 0) ->
  exists st, foldM rm_step (rots_of cons) (d0, replicate (N * 2) false) = Ret st /\
    dict_wf st.1 /\ d_shape st.1 = (N * 2, N * 2)%nat /\ length st.2 = (N * 2)%nat /\
    (forall i, (length cons * 2 <= i)%nat -> (i < N * 2)%nat -> st.2 !! i = Some false) /\
    forall n d m k, (n < N)%nat -> (d < 2)%nat -> (m < N)%nat -> (k < 2)%nat ->
      el st.1 (n * 2 + d) (m * 2 + k) = Rm cons n d m k.
Proof.
  intros HN W0 S0 V0. induction cons as [|c cons IH] using rev_ind.
  - eexists. split; [reflexivity|]. cbn [fst snd]. split; [exact W0|]. split; [exact S0|]. split; [apply replicate_length|].
    split; [intros i _ Hi; now apply lookup_replicate_2|]. intros n d m k Hn Hd Hm Hk. rewrite V0 by lia.
    unfold Rm, ang. rewrite lookup_nil. natcases.
  - rewrite app_length in HN. cbn in HN. destruct IH as ([rot vis] & E & W & Sh & L & Hv & V); [lia|]. cbn [fst snd] in *.
    rewrite rots_snoc, foldM_app, E. cbn [mbind out_bind]. set (n0 := length cons) in *.
    assert (Ha : forall k, k <> n0 -> ang (cons ++ [c]) k = ang cons k).
    { intros k Hk. unfold ang. destruct (decide (k < n0)%nat); [now rewrite lookup_app_l|].
      rewrite !lookup_ge_None_2; [reflexivity|fold n0; lia|rewrite app_length; cbn; fold n0; lia]. }
    assert (Hn : ang (cons ++ [c]) n0 = match c with AngleFixed th => Some th | _ => None end).
    { unfold ang. rewrite lookup_app_r by reflexivity. unfold n0. rewrite Nat.sub_diag. reflexivity. }
    assert (Hn' : ang cons n0 = None) by (unfold ang; rewrite lookup_ge_None_2 by reflexivity; reflexivity).
    assert (D : rot_at n0 c = [] -> exists st, foldM rm_step (rot_at n0 c) (rot, vis) = Ret st /\
      dict_wf st.1 /\ d_shape st.1 = (N * 2, N * 2)%nat /\ length st.2 = (N * 2)%nat /\
      (forall i, (length (cons ++ [c]) * 2 <= i)%nat -> (i < N * 2)%nat -> st.2 !! i = Some false) /\
      forall n d m k, (n < N)%nat -> (d < 2)%nat -> (m < N)%nat -> (k < 2)%nat ->
      el st.1 (n * 2 + d) (m * 2 + k) = Rm (cons ++ [c]) n d m k).
    { intros Er. rewrite Er. eexists. split; [reflexivity|]. cbn [fst snd]. split; [exact W|]. split; [exact Sh|]. split; [exact L|].
      split; [intros i Hi HiN; rewrite app_length in Hi; cbn in Hi; fold n0 in Hi; apply Hv; lia|].
      intros n d m k Hnn Hd Hm Hk. rewrite V by assumption. unfold Rm. destruct (decide (n = n0)) as [->|Hne].
      - rewrite Hn, Hn'. now destruct c.
      - now rewrite Ha. }
    destruct c as [| | | |th]; try (apply D; reflexivity). clear D.
    cbn [rot_at foldM]. unfold rm_step. cbn [fst snd].
    rewrite (idx_lookup vis (n0 * 2)%nat false) by (apply Hv; lia). cbn [mbind out_bind].
    rewrite (idx_lookup vis (n0 * 2 + 1)%nat false) by (apply Hv; lia). cbn [mbind out_bind negb andb assert_].
    rewrite set_ret by lia. cbn [mbind out_bind]. rewrite set_ret by (rewrite insert_length; lia). cbn [mbind out_bind].
    assert (Hdom : forall d : dict A, d_shape d = (N * 2, N * 2)%nat -> forall i j, (i < N * 2)%nat -> (j < N * 2)%nat -> full_dom d i j = true).
    { intros d Hs i j Hi Hj. unfold full_dom. apply in_shape_true. change (mshape d) with (d_shape d). rewrite Hs. cbn. lia. }
    destruct (index_set_ret _ _ d_laws rot (n0 * 2)%nat (n0 * 2)%nat (scos th) W) as (r1 & E1 & W1 & S1 & _ & V1);
      [apply Hdom; [exact Sh|lia|lia]|]. rewrite E1. cbn [mbind out_bind]. change (d_shape r1 = d_shape rot) in S1. rewrite Sh in S1.
    destruct (index_set_ret _ _ d_laws r1 (n0 * 2)%nat (n0 * 2 + 1)%nat (-(1) * ssin th) W1) as (r2 & E2 & W2 & S2 & _ & V2);
      [apply Hdom; [exact S1|lia|lia]|]. rewrite E2. cbn [mbind out_bind]. change (d_shape r2 = d_shape r1) in S2. rewrite S1 in S2.
    destruct (index_set_ret _ _ d_laws r2 (n0 * 2 + 1)%nat (n0 * 2)%nat (ssin th) W2) as (r3 & E3 & W3 & S3 & _ & V3);
      [apply Hdom; [exact S2|lia|lia]|]. rewrite E3. cbn [mbind out_bind]. change (d_shape r3 = d_shape r2) in S3. rewrite S2 in S3.
    destruct (index_set_ret _ _ d_laws r3 (n0 * 2 + 1)%nat (n0 * 2 + 1)%nat (scos th) W3) as (r4 & E4 & W4 & S4 & _ & V4);
      [apply Hdom; [exact S3|lia|lia]|]. rewrite E4. cbn [mbind out_bind]. change (d_shape r4 = d_shape r3) in S4. rewrite S3 in S4.
    eexists. split; [reflexivity|]. cbn [fst snd]. split; [exact W4|]. split; [exact S4|]. split; [now rewrite !insert_length|].
    split.
    + intros i Hi HiN. rewrite app_length in Hi. cbn in Hi. fold n0 in Hi. rewrite !list_lookup_insert_ne by lia. apply Hv; lia.
    + intros n d m k Hnn Hd Hm Hk. rewrite V4, V3, V2, V1, V by assumption. unfold Rm.
      destruct (decide (n = n0)) as [->|Hne].
      * rewrite Hn, Hn'. destruct d as [|[|d]], k as [|[|k]]; try lia; natcases.
      * rewrite Ha by exact Hne. destruct (ang cons n); natcases.
Qed.

Lemma rotation_ret cons t : fc_inv cons (length cons * 2) t ->
  exists rot, rotation_matrix t = Ret rot /\ dict_wf rot /\ d_shape rot = (length cons * 2, length cons * 2)%nat /\
    forall n d m k, (n < length cons)%nat -> (d < 2)%nat -> (m < length cons)%nat -> (k < 2)%nat ->
      el rot (n * 2 + d) (m * 2 + k) = Rm cons n d m k.
Proof.
  intros (L & R & _). unfold rotation_matrix. rewrite L.
  destruct (eye_ret (length cons * 2)) as (d0 & E0 & W0 & S0 & V0). rewrite E0. cbn [mbind out_bind]. rewrite R.
  destruct (rm_fold cons (length cons) d0 (le_n _) W0 S0 V0) as (st & E & W & Sh & _ & _ & V).
  change (foldM _ (rots_of cons) _) with (foldM rm_step (rots_of cons) (d0, replicate (length cons * 2) false)).
  rewrite E. cbn [mbind out_bind]. eauto.
Qed.

Lemma by_row_order (l : list ((nat * nat) * A)) d : hash_order l d -> hash_order (by_row l) d.
Proof. unfold hash_order, by_row. intros <-. apply merge_sort_Permutation. Qed.
Lemma by_row_sorted (l : list ((nat * nat) * A)) :
  StronglySorted (fun x y : (nat * nat) * A => (x.1.1 <= y.1.1)%nat) (by_row l).
Proof.
  assert (T : Transitive (@row_le A)) by (intros x y z; unfold row_le; lia).
  assert (Tt : Total (@row_le A)) by (intros x y; unfold row_le; lia).
  exact (StronglySorted_merge_sort row_le l).
Qed.
End rot.

Section work.
Context {A : arith} (FL : field_laws A).
Add Field Afield41 : (fl_field A FL).
Local Open Scope arith_scope.

Lemma bigsum_nodes N (f : nat -> A) : bigsum (N * 2) f = bigsum N (fun n => f (n * 2)%nat + f (n * 2 + 1)%nat).
Proof.
  induction N as [|N IH]; [reflexivity|]. change (S N * 2)%nat with (S (S (N * 2))).
  cbn [bigsum]. rewrite IH. rewrite Nat.add_1_r. ring.
Qed.

(** components of the expanded vector before the mask, as products with the rotation *)
Definition expand (cons : list (constr A)) (u : nat -> A) (n d : nat) : A :=
  match ang cons n with
  | Some th => match d with
               | 0%nat => scos th * u (n * 2)%nat - ssin th * u (n * 2 + 1)%nat
               | _ => ssin th * u (n * 2)%nat + scos th * u (n * 2 + 1)%nat
               end
  | None => u (n * 2 + d)%nat
  end.

Lemma rot_row cons N n d (u : nat -> A) : (n < N)%nat -> (d < 2)%nat ->
  bigsum N (fun m => Rm cons n d m 0 * u (m * 2)%nat + Rm cons n d m 1 * u (m * 2 + 1)%nat) = expand cons u n d.
Proof.
  intros Hn Hd. rewrite (bigsum_single FL N n); [|exact Hn|].
  - unfold Rm, expand. rewrite Nat.eqb_refl. destruct (ang cons n) as [th|]; destruct d as [|[|d]]; try lia; cbv [andb Nat.eqb];
      rewrite ?Nat.add_0_r; ring.
  - intros m _ Hm. unfold Rm. destruct (Nat.eqb_spec m n); [congruence|]. destruct (ang cons n); cbn [andb]; ring.
Qed.

(** triple product against two vectors *)
Lemma triple N (R K : nat -> nat -> A) (y x : nat -> A) :
  bigsum N (fun a => bigsum N (fun b => y a * bigsum N (fun k => R k a * bigsum N (fun l => K k l * R l b)) * x b)) =
  bigsum N (fun k => bigsum N (fun l => bigsum N (fun a => R k a * y a) * K k l * bigsum N (fun b => R l b * x b))).
Proof.
  transitivity (bigsum N (fun a => bigsum N (fun b => bigsum N (fun k => bigsum N (fun l => R k a * y a * K k l * (R l b * x b)))))).
  { apply bigsum_ext. intros a _. apply bigsum_ext. intros b _.
    rewrite <- (bigsum_scale_l FL), <- (bigsum_scale_r FL). apply bigsum_ext. intros k _.
    rewrite <- !(bigsum_scale_l FL), <- (bigsum_scale_r FL). apply bigsum_ext. intros l _. ring. }
  transitivity (bigsum N (fun a => bigsum N (fun k => bigsum N (fun b => bigsum N (fun l => R k a * y a * K k l * (R l b * x b)))))).
  { apply bigsum_ext. intros a _. apply (bigsum_swap FL). }
  rewrite (bigsum_swap FL). apply bigsum_ext. intros k _.
  transitivity (bigsum N (fun a => bigsum N (fun l => bigsum N (fun b => R k a * y a * K k l * (R l b * x b))))).
  { apply bigsum_ext. intros a _. apply (bigsum_swap FL). }
  rewrite (bigsum_swap FL). apply bigsum_ext. intros l _.
  rewrite <- !(bigsum_scale_r FL). apply bigsum_ext. intros a _. rewrite (bigsum_scale_l FL). reflexivity.
Qed.

(** loads: adjoint of the expansion *)
Lemma bar_adjoint cons t (r x rb u : list A) : fc_inv cons (length cons * 2) t ->
  length r = (length cons * 2)%nat -> bar_vec t r = Ret rb -> unbar_vec t x = Ret u ->
  bigsum (length rb) (fun i => vel rb i * vel x i) = bigsum (length cons * 2) (fun i => vel r i * vel u i).
Proof.
  intros Hf Hr Eb Eu. destruct (bar_ret cons t r Hf Hr) as (r0 & Eb' & Lr & Vr). rewrite Eb' in Eb. injection Eb as <-.
  assert (Eu0 : exists u0, unmask_vec t x = Ret u0).
  { unfold unbar_vec in Eu. apply bind_ret_inv in Eu as (u0 & E & _). eauto. }
  destruct Eu0 as (u0 & Eu0). destruct (unbar_ret cons t x u0 Hf Eu0) as (u' & Eu' & Lu & Vu).
  rewrite Eu' in Eu. injection Eu as ->. pose proof (proj1 Hf) as Lm.
  rewrite map_length.
  transitivity (bigsum (length (kept (dt_mask t))) (fun i => vel x i * vel r0 (nth i (kept (dt_mask t)) 0%nat))).
  { apply bigsum_ext. intros i Hi.
    rewrite (vel_lookup (map (vel r0) (kept (dt_mask t))) i (vel r0 (nth i (kept (dt_mask t)) 0%nat))); [ring|].
    rewrite list_lookup_fmap. destruct (lookup_lt_is_Some_2 (kept (dt_mask t)) i Hi) as [j Ej]. rewrite Ej. cbn.
    now rewrite (nth_lookup_Some _ _ _ _ Ej). }
  rewrite <- (unmask_sum FL (dt_mask t) x u0 (vel r0) Eu0), Lm, !bigsum_nodes.
  apply bigsum_ext. intros n Hn. specialize (Vr n Hn). specialize (Vu n Hn).
  destruct (ang cons n) as [th|]; destruct Vr as [-> ->], Vu as [-> ->]; ring.
Qed.

(** the reduced matrix represents the energy of expanded displacements *)
Lemma bar_matrix_ret cons t ho t0 (K : dict A) : fc_inv cons (length cons * 2) t -> oracle_ok ho ->
  dict_wf K -> d_shape K = (length cons * 2, length cons * 2)%nat ->
  exists Kb, bar_matrix ho t0 t K = Ret Kb /\ dict_wf Kb /\
    d_shape Kb = (length (kept (dt_mask t)), length (kept (dt_mask t))) /\
    forall x y u w, unbar_vec t x = Ret u -> unbar_vec t y = Ret w ->
      bigsum (length (kept (dt_mask t))) (fun i => bigsum (length (kept (dt_mask t))) (fun j => vel y i * el Kb i j * vel x j)) =
      bigsum (length cons * 2) (fun i => bigsum (length cons * 2) (fun j => vel w i * el K i j * vel u j)).
Proof.
  intros Hf Ho WK SK. set (N := (length cons * 2)%nat) in *.
  destruct (rotation_ret cons t Hf) as (rot & Er & Wr & Sr & Vr). fold N in Sr.
  unfold bar_matrix. rewrite Er. cbn [mbind out_bind].
  assert (Hoo : forall k (d : dict A), hash_order (ho k (d_data d)) d) by (intros k d; apply Ho).
  destruct (mul_dict_spec FL (ho (t0 + 1)%nat (d_data K)) (by_row (ho (t0 + 2)%nat (d_data rot))) K rot WK Wr (Hoo _ _)
     (by_row_order _ _ (Hoo _ _)) (by_row_sorted _)) as (inner & Ei & Wi & Si & Vi).
  { now rewrite SK, Sr. }
  rewrite Ei. cbn [mbind out_bind]. rewrite SK, Sr in Si, Vi. cbn [fst snd] in Si, Vi.
  set (rot' := d_transposed (ho t0 (d_data rot)) rot).
  destruct (d_transposed_spec (ho t0 (d_data rot)) rot N Wr (Hoo _ _) Sr) as (Wt & St & Vt). fold rot' in Wt, St, Vt.
  destruct (mul_dict_spec FL (ho (t0 + 3)%nat (d_data rot')) (by_row (ho (t0 + 4)%nat (d_data inner))) rot' inner Wt Wi (Hoo _ _)
     (by_row_order _ _ (Hoo _ _)) (by_row_sorted _)) as (res & Es & Ws & Ss & Vs).
  { now rewrite St, Si. }
  rewrite Es. cbn [mbind out_bind]. rewrite St, Si in Ss, Vs. cbn [fst snd] in Ss, Vs.
  pose proof (proj1 Hf) as Lm. fold N in Lm.
  destruct (d_mask_spec (ho (t0 + 5)%nat (d_data res)) res (dt_mask t) N Ws (Hoo _ _) Ss Lm) as (Kb & Ek & Wk & Sk & Vk).
  exists Kb. split; [exact Ek|]. split; [exact Wk|]. split; [exact Sk|].
  intros x y u w Eu Ew.
  assert (X : exists u0, unmask_vec t x = Ret u0) by (unfold unbar_vec in Eu; apply bind_ret_inv in Eu as (u0 & E & _); eauto).
  assert (Y : exists w0, unmask_vec t y = Ret w0) by (unfold unbar_vec in Ew; apply bind_ret_inv in Ew as (u0 & E & _); eauto).
  destruct X as (u0 & Eu0). destruct Y as (w0 & Ew0).
  destruct (unbar_ret cons t x u0 Hf Eu0) as (u' & Eu' & Lu & Vu). rewrite Eu' in Eu. injection Eu as ->.
  destruct (unbar_ret cons t y w0 Hf Ew0) as (w' & Ew' & Lw & Vw). rewrite Ew' in Ew. injection Ew as ->.
  set (kp := kept (dt_mask t)) in *.
  transitivity (bigsum N (fun a => bigsum N (fun b => vel w0 a * el res a b * vel u0 b))).
  { transitivity (bigsum (length kp) (fun i => vel y i * bigsum N (fun b => vel u0 b * el res (nth i kp 0%nat) b))).
    - apply bigsum_ext. intros i Hi. rewrite <- Lm, (unmask_sum FL (dt_mask t) x u0 (fun b => el res (nth i kp 0%nat) b) Eu0). fold kp.
      rewrite <- (bigsum_scale_l FL). apply bigsum_ext. intros j Hj.
      destruct (lookup_lt_is_Some_2 kp i Hi) as [a Ea]. destruct (lookup_lt_is_Some_2 kp j Hj) as [b Eb].
      rewrite (Vk i j a b Ea Eb), (nth_lookup_Some _ _ _ _ Ea), (nth_lookup_Some _ _ _ _ Eb). ring.
    - etransitivity; [symmetry; exact (unmask_sum FL (dt_mask t) y w0 (fun a => bigsum N (fun b => vel u0 b * el res a b)) Ew0)|].
      rewrite Lm. apply bigsum_ext. intros a _. rewrite <- (bigsum_scale_l FL). apply bigsum_ext. intros b _. ring. }
  set (R := fun i j => el rot i j).
  assert (Rx : forall (v0 v : list A), (forall n, (n < length cons)%nat ->
       match ang cons n with
       | Some th => vel v (n * 2) = 0 + scos th * vel v0 (n * 2) - ssin th * vel v0 (n * 2 + 1) /\
                    vel v (n * 2 + 1) = 0 + ssin th * vel v0 (n * 2) + scos th * vel v0 (n * 2 + 1)
       | None => vel v (n * 2) = vel v0 (n * 2) /\ vel v (n * 2 + 1) = vel v0 (n * 2 + 1)
       end) -> forall k, (k < N)%nat -> bigsum N (fun a => R k a * vel v0 a) = vel v k).
  { intros v0 v Hv k Hk. destruct (to_dof_surj (length cons) k Hk) as (n & d & Hn & Hd & <-). unfold to_dof. cbn [fst snd].
    unfold N. rewrite bigsum_nodes.
    rewrite (bigsum_ext _ (fun m => Rm cons n d m 0 * vel v0 (m * 2) + Rm cons n d m 1 * vel v0 (m * 2 + 1))).
    2:{ intros m Hm. unfold R. rewrite <- (Vr n d m 0%nat), <- (Vr n d m 1%nat) by (assumption || lia). now rewrite Nat.add_0_r. }
    rewrite (rot_row cons (length cons) n d (vel v0) Hn Hd). unfold expand. specialize (Hv n Hn).
    destruct (ang cons n) as [th|]; destruct Hv as [H1 H2]; destruct d as [|[|d]]; try lia; rewrite ?Nat.add_0_r, ?H1, ?H2; ring. }
  transitivity (bigsum N (fun a => bigsum N (fun b => vel w0 a * bigsum N (fun k => R k a * bigsum N (fun l => el K k l * R l b)) * vel u0 b))).
  { apply bigsum_ext. intros a Ha. apply bigsum_ext. intros b Hb. do 2 f_equal. rewrite Vs by assumption.
    apply bigsum_ext. intros k Hk. rewrite Vt. unfold R. f_equal. now rewrite Vi. }
  rewrite triple. apply bigsum_ext. intros k Hk. apply bigsum_ext. intros l Hl.
  rewrite (Rx w0 w Vw k Hk), (Rx u0 u Vu l Hl). reflexivity.
Qed.

(** displacements that respect every support *)
Definition respects (cons : list (constr A)) (v : nat -> A) : Prop :=
  forall n c, cons !! n = Some c ->
    match c with
    | Free => True
    | XFixed => v (n * 2)%nat = 0
    | YFixed => v (n * 2 + 1)%nat = 0
    | XYFixed => v (n * 2)%nat = 0 /\ v (n * 2 + 1)%nat = 0
    | AngleFixed th => scos th * v (n * 2)%nat + ssin th * v (n * 2 + 1)%nat = 0
    end.

Lemma unbar_respects cons t x u : fc_inv cons (length cons * 2) t -> unbar_vec t x = Ret u -> respects cons (vel u).
Proof.
  intros Hf Eu.
  assert (X : exists u0, unmask_vec t x = Ret u0) by (unfold unbar_vec in Eu; apply bind_ret_inv in Eu as (u0 & E & _); eauto).
  destruct X as (u0 & Eu0). destruct (unbar_ret cons t x u0 Hf Eu0) as (u' & Eu' & Lu & Vu). rewrite Eu' in Eu. injection Eu as ->.
  destruct Hf as (_ & _ & Hm & _). destruct (unmask_vel _ _ _ Eu0) as [_ Hz].
  intros n c Hc. destruct (Hm n c Hc) as [Hx Hy]. pose proof (lookup_lt_Some _ _ _ Hc) as Hn. specialize (Vu n Hn).
  unfold ang in Vu. rewrite Hc in Vu. destruct c as [| | | |th]; cbn in Hx, Hy; destruct Vu as [V1 V2].
  - exact I.
  - rewrite V1. now apply Hz.
  - rewrite V2. now apply Hz.
  - rewrite V1, V2. split; now apply Hz.
  - rewrite V1, V2. rewrite (Hz _ Hx). ring.
Qed.

(** with cos^2 + sin^2 = 1 they are exactly the expanded vectors *)
Lemma respects_unbar cons t (v : list A) : (forall th : A, scos th * scos th + ssin th * ssin th = 1) ->
  fc_inv cons (length cons * 2) t -> length v = (length cons * 2)%nat -> respects cons (vel v) ->
  exists y, length y = length (kept (dt_mask t)) /\ unbar_vec t y = Ret v.
Proof.
  intros Trig Hf Hl Hr. destruct (bar_ret cons t v Hf Hl) as (r0 & Eb & Lr & Vr).
  set (kp := kept (dt_mask t)) in *. exists (map (vel r0) kp). split; [apply map_length|].
  destruct (unmask_ret (dt_mask t) (map (vel r0) kp)) as (u0 & Eu0); [fold kp; now rewrite map_length|].
  destruct (unbar_ret cons t _ u0 Hf Eu0) as (u & Eu & Lu & Vu). rewrite Eu. f_equal.
  destruct (unmask_vel _ _ _ Eu0) as [Hk Hz]. fold kp in Hk.
  assert (Hu0 : forall i, dt_mask t !! i = Some true -> vel u0 i = vel r0 i).
  { intros i Hi. apply kept_bound in Hi. fold kp in Hi. apply elem_of_list_lookup in Hi as (k & Ek).
    rewrite (Hk k i Ek). apply vel_lookup. now rewrite list_lookup_fmap, Ek. }
  apply vel_ext; [congruence|]. rewrite Lu. intros i Hi.
  destruct (to_dof_surj (length cons) i Hi) as (n & d & Hn & Hd & <-). unfold to_dof. cbn [fst snd].
  specialize (Vu n Hn). specialize (Vr n Hn). destruct (lookup_lt_is_Some_2 cons n Hn) as [c Hc].
  destruct Hf as (_ & _ & Hm & _). destruct (Hm n c Hc) as [Hx Hy]. specialize (Hr n c Hc).
  unfold ang in Vu, Vr. rewrite Hc in Vu, Vr.
  assert (D : forall d, (d < 2)%nat -> vel u (n * 2) = vel v (n * 2) -> vel u (n * 2 + 1) = vel v (n * 2 + 1) ->
     vel u (n * 2 + d) = vel v (n * 2 + d)).
  { intros [|[|k]] Hk' G1 G2; [rewrite Nat.add_0_r; exact G1|exact G2|lia]. }
  apply D; [exact Hd| |]; clear D;
    destruct c as [| | | |th]; cbn in Hx, Hy; destruct Vu as [V1 V2], Vr as [W1 W2]; rewrite ?V1, ?V2;
    rewrite ?(Hz _ Hx), ?(Hz _ Hy), ?(Hu0 _ Hx), ?(Hu0 _ Hy), ?W1, ?W2;
    try reflexivity; try (symmetry; tauto); try tauto.
  - transitivity ((scos th * scos th + ssin th * ssin th) * vel v (n * 2) -
      scos th * (scos th * vel v (n * 2) + ssin th * vel v (n * 2 + 1))); [ring|]. rewrite Trig, Hr. ring.
  - transitivity ((scos th * scos th + ssin th * ssin th) * vel v (n * 2 + 1) -
      ssin th * (scos th * vel v (n * 2) + ssin th * vel v (n * 2 + 1))); [ring|]. rewrite Trig, Hr. ring.
Qed.

(** equilibrium of the expanded solution *)
Lemma equilibrium cons t ho t0 (K : dict A) (r rb x u v : list A) Kb :
  (forall th : A, scos th * scos th + ssin th * ssin th = 1) ->
  fc_inv cons (length cons * 2) t -> oracle_ok ho ->
  dict_wf K -> d_shape K = (length cons * 2, length cons * 2)%nat -> length r = (length cons * 2)%nat ->
  bar_matrix ho t0 t K = Ret Kb -> bar_vec t r = Ret rb ->
  (forall i, (i < length (kept (dt_mask t)))%nat -> bigsum (length (kept (dt_mask t))) (fun j => el Kb i j * vel x j) = vel rb i) ->
  unbar_vec t x = Ret u ->
  length v = (length cons * 2)%nat -> respects cons (vel v) ->
  bigsum (length cons * 2) (fun i => vel v i * (bigsum (length cons * 2) (fun j => el K i j * vel u j) - vel r i)) = 0.
Proof.
  intros Trig Hf Ho WK SK Lr Ek Eb Hsol Eu Lv Hv.
  destruct (respects_unbar cons t v Trig Hf Lv Hv) as (y & Ly & Ey).
  destruct (bar_matrix_ret cons t ho t0 K Hf Ho WK SK) as (Kb' & Ek' & _ & _ & Hq). rewrite Ek' in Ek. injection Ek as ->.
  specialize (Hq x y u v Eu Ey).
  pose proof (bar_adjoint cons t r y rb v Hf Lr Eb Ey) as Ha.
  assert (Lb : length rb = length (kept (dt_mask t))).
  { destruct (bar_ret cons t r Hf Lr) as (r0 & Eb' & _). rewrite Eb' in Eb. injection Eb as <-. apply map_length. }
  rewrite Lb in Ha.
  transitivity (bigsum (length cons * 2) (fun i => bigsum (length cons * 2) (fun j => vel v i * el K i j * vel u j)) -
                bigsum (length cons * 2) (fun i => vel r i * vel v i)).
  { rewrite <- (bigsum_sub FL). apply bigsum_ext. intros i _.
    rewrite (bigsum_ext (fun j => vel v i * el K i j * vel u j) (fun j => vel v i * (el K i j * vel u j))) by (intros; ring).
    rewrite (bigsum_scale_l FL). ring. }
  rewrite <- Hq, <- Ha, <- (bigsum_sub FL). apply (bigsum_0 FL). intros i Hi.
  rewrite (bigsum_ext _ (fun j => vel y i * (el Kb i j * vel x j))) by (intros; ring).
  rewrite (bigsum_scale_l FL), Hsol by exact Hi. ring.
Qed.
End work.

