(** The envelope Cholesky solver, end to end, and the systems it cannot handle. *)
From Verif Require Export SystemProofs Rep.

(** unknowns coupled by a non-zero coefficient *)
Definition coupled {A : arith} (n : nat) (a : nat -> nat -> A) (i j : nat) : Prop :=
  i < n /\ j < n /\ i <> j /\ a i j <> s0.
Definition connected {A : arith} (n : nat) (a : nat -> nat -> A) : Prop :=
  forall i j, i < n -> j < n -> rtc (coupled n a) i j.

(** unknowns joined by a stored coefficient, whatever its value, in the half the graph is
    made from *)
Definition paired {A : arith} (n : nat) (k : dict A) (i j : nat) : Prop :=
  i < n /\ j < n /\ i <> j /\ is_Some (d_data k !! (Nat.min i j, Nat.max i j)).
Definition linked {A : arith} (n : nat) (k : dict A) : Prop :=
  forall i j, i < n -> j < n -> rtc (paired n k) i j.

(** all traversals are possible traversals *)
Definition oracle_ok {A : arith} (ho : hash_oracle A) : Prop := forall t m, ho t m ≡ₚ map_to_list m.

Lemma vel_permuted {A : arith} n p (v v' : list A) : perm_wf n p -> length v = n ->
  (forall i, i < n -> v' !! pf p i = v !! i) -> forall i, i < n -> vel v' (pf p i) = vel v i.
Proof. intros W Hl H i Hi. apply vel_lookup. rewrite H by exact Hi. apply lookup_vel. lia. Qed.

Lemma pf_seq_perm n p : perm_wf n p -> map (pf p) (seq 0 n) ≡ₚ seq 0 n.
Proof.
  intros W. apply NoDup_Permutation.
  - apply NoDup_fmap_2_strong; [|apply NoDup_seq]. intros i j Hi Hj. apply elem_of_seq in Hi, Hj.
    apply (pf_inj n p); auto; lia.
  - apply NoDup_seq.
  - intros x. rewrite elem_of_list_fmap, elem_of_seq. split.
    + intros (i & -> & Hi). apply elem_of_seq in Hi. destruct (pf_lookup n p i W ltac:(lia)) as (_ & H & _). lia.
    + intros Hx. destruct (pb_lookup n p x W ltac:(lia)) as (_ & H1 & _ & H2).
      exists (pb p x). split; [auto|]. apply elem_of_seq. lia.
Qed.

Lemma edges_in {A : arith} (ho : hash_oracle A) t (d : dict A) a b : oracle_ok ho ->
  (a, b) ∈ d_edges_lower (ho t (d_data d)) <-> a <= b /\ is_Some (d_data d !! (a, b)).
Proof.
  intros Ho. unfold d_edges_lower. rewrite elem_of_list_In, filter_In, in_map_iff. cbn. rewrite Nat.leb_le.
  split.
  - intros [(kv & E & Hin) Hle]. split; [exact Hle|]. apply elem_of_list_In in Hin. rewrite (Ho t (d_data d)) in Hin.
    destruct kv as [k v]. cbn in E. subst k. apply elem_of_map_to_list in Hin. eauto.
  - intros [Hle (v & Hv)]. split; [|exact Hle]. exists ((a, b), v). split; [reflexivity|].
    apply elem_of_list_In. rewrite (Ho t (d_data d)). now apply elem_of_map_to_list.
Qed.

Section solver.
Context {A : arith} (OL : ord_laws A) (SQ : sqrt_law A).
Let FL : field_laws A := ol_field A OL.
Add Field Afield21 : (fl_field A FL).
Local Open Scope arith_scope.

Lemma bigsum_permute n p (f : nat -> A) : perm_wf n p -> bigsum n (fun i => f (pf p i)) = bigsum n f.
Proof.
  intros W. rewrite <- !ssum_seq. rewrite <- (map_map (pf p) f). apply (ssum_perm FL).
  now apply Permutation_map, pf_seq_perm.
Qed.

(** positive definiteness is kept by renumbering and gives uniqueness *)
Lemma posdef_permute n p (a b : nat -> nat -> A) : perm_wf n p ->
  (forall r c, (r < n)%nat -> (c < n)%nat -> b (pf p r) (pf p c) = a r c) -> posdef n a -> posdef n b.
Proof.
  intros W Hab HP x (i & Hi & Hx).
  assert (Hlt : lts 0 (bigsum n (fun i => x (pf p i) * mv n a (fun j => x (pf p j)) i))).
  { apply HP. destruct (pb_lookup n p i W Hi) as (_ & H1 & _ & H2). exists (pb p i). split; [exact H1|]. now rewrite H2. }
  replace (bigsum n (fun i => x i * mv n b x i)) with (bigsum n (fun i => x (pf p i) * mv n a (fun j => x (pf p j)) i)); [exact Hlt|].
  rewrite <- (bigsum_permute n p (fun i => x i * mv n b x i) W). apply bigsum_ext. intros r Hr. f_equal.
  unfold mv. rewrite <- (bigsum_permute n p (fun c => b (pf p r) c * x c) W). apply bigsum_ext. intros c Hc. now rewrite Hab.
Qed.

Lemma posdef_ext n (a b : nat -> nat -> A) : (forall r c, (r < n)%nat -> (c < n)%nat -> b r c = a r c) ->
  posdef n a -> posdef n b.
Proof.
  intros H HP x Hx. pose proof (HP x Hx) as Hlt.
  replace (bigsum n (fun i => x i * mv n b x i)) with (bigsum n (fun i => x i * mv n a x i)); [exact Hlt|].
  apply bigsum_ext. intros i Hi. f_equal. apply bigsum_ext. intros k Hk. now rewrite H.
Qed.

Lemma posdef_diag n (a : nat -> nat -> A) i : posdef n a -> (i < n)%nat -> lts 0 (a i i).
Proof.
  intros HP Hi. set (x := fun j => if j =? i then s1 else s0 : A).
  assert (Hx : lts 0 (bigsum n (fun i => x i * mv n a x i))).
  { apply HP. exists i. split; [exact Hi|]. unfold x. rewrite Nat.eqb_refl. apply (neq_1_0 FL). }
  replace (a i i) with (bigsum n (fun i => x i * mv n a x i)); [exact Hx|].
  rewrite (bigsum_single FL n i); [|exact Hi|].
  - unfold mv. rewrite (bigsum_single FL n i); [|exact Hi|].
    + unfold x. rewrite Nat.eqb_refl. ring.
    + intros j Hj Hne. unfold x. rewrite (proj2 (Nat.eqb_neq _ _) Hne). ring.
  - intros j Hj Hne. unfold x at 1. rewrite (proj2 (Nat.eqb_neq _ _) Hne). ring.
Qed.

Lemma posdef_unique n (a : nat -> nat -> A) (x y : nat -> A) : posdef n a ->
  (forall i, (i < n)%nat -> mv n a x i = mv n a y i) -> forall i, (i < n)%nat -> x i = y i.
Proof.
  intros HP H i Hi. destruct (seqb (x i - y i) 0) eqn:E.
  - apply (fl_eqb A FL) in E. replace (x i) with (x i - y i + y i) by ring. rewrite E. ring.
  - exfalso. assert (Hlt : lts 0 (bigsum n (fun i => (x i - y i) * mv n a (fun j => x j - y j) i))).
    { apply HP. exists i. split; [exact Hi|]. intros E0. apply (fl_eqb A FL) in E0. congruence. }
    rewrite (bigsum_0 FL) in Hlt; [now apply (lts_neq OL) in Hlt|].
    intros j Hj. replace (mv n a (fun j => x j - y j) j) with (mv n a x j - mv n a y j); [rewrite H by exact Hj; ring|].
    unfold mv. rewrite <- (bigsum_sub FL). apply bigsum_ext. intros. ring.
Qed.

(** the graph of the stored coefficients *)
Lemma system_graph ho t (k : dict A) n : oracle_ok ho -> dict_wf k -> d_shape k = (n, n) ->
  exists g, from_edges n (d_edges_lower (ho t (d_data k))) = Ret g /\ graph_wf g /\ graph_sym g /\ (vertex_count g <= n)%nat /\
   (forall u a, a ∈ nbrs g u <-> u <> a /\ is_Some (d_data k !! (Nat.min u a, Nat.max u a))) /\
   ((exists b, b <> (n - 1)%nat /\ (b < n)%nat /\ is_Some (d_data k !! (b, (n - 1)%nat))) -> vertex_count g = n).
Proof.
  intros Ho W Hs.
  assert (Hok : forall e, e ∈ d_edges_lower (ho t (d_data k)) -> (e.1 < n /\ e.2 < n)%nat).
  { intros [a b] He. apply edges_in in He as [Hle (v & Hv)]; [|exact Ho]. apply W in Hv. rewrite Hs in Hv. exact Hv. }
  destruct (from_edges_ret n _ Hok) as (g & E & Hv & Ha). exists g.
  destruct (from_edges_wf _ _ _ E) as (Wg & Sy & Hnb & _).
  split; [exact E|]. split; [exact Wg|]. split; [exact Sy|]. split; [|split].
  - destruct (decide (vertex_count g <= n)) as [|Hgt]; [assumption|]. exfalso.
    assert (Hn : (n < vertex_count g)%nat) by lia. apply Hv in Hn as (a & b & _ & [He|He] & Hle); apply Hok in He; cbn in He; lia.
  - intros u a. rewrite Hnb, !edges_in by exact Ho. split.
    + intros (Hne & [(Hle & Hk)|(Hle & Hk)]); (split; [exact Hne|]);
        [rewrite Nat.min_l, Nat.max_r by lia|rewrite Nat.min_r, Nat.max_l by lia]; exact Hk.
    + intros (Hne & Hk). split; [exact Hne|]. destruct (decide (u <= a)) as [Hle|Hgt].
      * left. rewrite Nat.min_l, Nat.max_r in Hk by lia. auto.
      * right. rewrite Nat.min_r, Nat.max_l in Hk by lia. split; [lia|exact Hk].
  - intros (b & Hne & Hb & Hk). destruct (decide (vertex_count g < n)) as [Hlt|].
    + exfalso. assert (H : (n - 1 < vertex_count g)%nat); [|lia].
      apply Hv. exists (n - 1)%nat, b. split; [auto|]. split; [|lia]. right. apply edges_in; [exact Ho|]. split; [lia|exact Hk].
    + destruct (decide (n < vertex_count g)) as [Hlt|]; [|lia]. exfalso.
      apply Hv in Hlt as (a & c & _ & [He|He] & Hle); apply Hok in He; cbn in He; lia.
Qed.

Lemma opt_mapM_d_permute (ho : hash_oracle A) t (o : option (dict A)) n p : oracle_ok ho -> od_wf n o -> perm_wf n p ->
  exists m', opt_mapM (fun m => d_permute (ho t (d_data m)) m p) o = Ret m'.
Proof.
  intros Ho W Wp. destruct o as [m|]; cbn [opt_mapM]; [|eauto]. destruct W as [W Hs].
  destruct (d_permute_spec (ho t (d_data m)) m p n W (Ho _ _) Hs Wp) as (m' & E & _). rewrite E. cbn [mbind out_bind]. eauto.
Qed.

(** reduce_envelope renumbers the system *)
Lemma reduce_envelope_linked ho t (s : system A) k n : oracle_ok ho -> sys_wf s -> sy_dofs s = n -> sy_perm s = None ->
  sy_k s = Some k -> (2 <= n)%nat ->
  linked n k ->
  exists k' m' r' p, reduce_envelope ho t s = Ret (Sys n (Some k') m' r' (Some p)) /\ perm_wf n p /\
    dict_wf k' /\ d_shape k' = (n, n) /\
    (forall r c, (r < n)%nat -> (c < n)%nat ->
       d_data k' !! (pf p r, pf p c) = d_data k !! (r, c) /\ el k' (pf p r) (pf p c) = el k r c) /\
    match sy_rhs s with
    | Some rv => exists rv', r' = Some rv' /\ length rv' = n /\ forall i, (i < n)%nat -> vel rv' (pf p i) = vel rv i
    | None => r' = None end.
Proof.
  intros Ho (Wk & Wm & Wr) Hn Hp Hk H2 Hcon. rewrite Hn, ?Hk in *. destruct Wk as [Wk Hs].
  destruct (system_graph ho t k n Ho Wk Hs) as (g & Eg & Wg & Sy & Hle & Hnb & Hvc).
  assert (Hcp : forall i j, paired n k i j -> j ∈ nbrs g i).
  { intros i j (Hi & Hj & Hne & Hv). apply Hnb. now split. }
  assert (Hvn : vertex_count g = n).
  { apply Hvc. pose proof (Hcon (n - 1)%nat 0%nat ltac:(lia) ltac:(lia)) as Hc. inversion Hc as [Hz|x b z Hst _]; [lia|].
    destruct Hst as (Hi & Hj & Hne & Hv). exists b. split; [auto|]. split; [exact Hj|].
    rewrite Nat.min_r, Nat.max_l in Hv by lia. exact Hv. }
  assert (Hreach : forall u v, (u < n)%nat -> (v < n)%nat -> reachable g u v).
  { intros u v Hu Hv. pose proof (Hcon u v Hu Hv) as Hc. clear Hv. induction Hc as [x|x y z Hst _ IH]; [exists 0%nat; constructor|].
    destruct Hst as (Hx & Hy & Hst). destruct (IH Hy) as (j & Hj). exists (1 + j)%nat. apply walk_app with y; [|exact Hj].
    apply (walk_S g 0 x x y); [constructor|]. apply Hcp. unfold paired. tauto. }
  destruct (rcm_spec g Wg ltac:(lia)) as (s0' & _ & Hs0 & Hok & _). rewrite Hvn in Hs0.
  destruct Hok as (p & Ep & Wp & _); [intros u Hu; apply Hreach; lia|]. rewrite Hvn in Wp.
  destruct (d_permute_spec (ho (t + 1)%nat (d_data k)) k p n Wk (Ho _ _) Hs Wp) as (k' & Ek & Wk' & Hs' & Hel).
  destruct (opt_mapM_d_permute ho (t + 2)%nat (sy_m s) n p Ho Wm Wp) as (m' & Em).
  unfold reduce_envelope. rewrite Hp, Hk. cbn [unwrap mbind out_bind]. rewrite Hn, Eg. cbn [mbind out_bind].
  rewrite Ep. cbn [mbind out_bind]. rewrite Ek. cbn [mbind out_bind]. rewrite Em. cbn [mbind out_bind].
  destruct (sy_rhs s) as [rv|].
  - destruct (permute_slice_ret n p rv Wp Wr) as (rv' & Er & Hl & Hr). cbn [opt_mapM]. rewrite Er. cbn [mbind out_bind].
    exists k', m', (Some rv'), p. split; [reflexivity|]. split; [exact Wp|]. split; [exact Wk'|]. split; [congruence|].
    split; [exact Hel|]. exists rv'. split; [reflexivity|]. split; [exact Hl|]. now apply (vel_permuted n p).
  - exists k', m', None, p. cbn [opt_mapM mbind out_bind]. split; [reflexivity|]. split; [exact Wp|]. split; [exact Wk'|].
    split; [congruence|]. split; [exact Hel|reflexivity].
Qed.

Lemma connected_linked (k : dict A) n : dict_wf k -> (forall r c, (r < n)%nat -> (c < n)%nat -> el k r c = el k c r) ->
  connected n (el k) -> linked n k.
Proof.
  intros W Hsym Hc i j Hi Hj. eapply rtc_subrel; [|exact (Hc i j Hi Hj)]. clear - W Hsym.
  intros x y (Hx & Hy & Hne & Hv). repeat (split; [assumption|]).
  assert (Hkey : forall r c, el k r c <> 0 -> is_Some (d_data k !! (r, c))).
  { intros r c Hn. rewrite d_el in Hn by exact W. destruct (d_data k !! (r, c)); [eauto|]. now destruct Hn. }
  destruct (decide (x <= y)%nat) as [Hij|Hij]; [rewrite Nat.min_l, Nat.max_r by lia|rewrite Nat.min_r, Nat.max_l by lia];
    apply Hkey; [exact Hv|]. now rewrite Hsym.
Qed.
Lemma reduce_envelope_ret ho t (s : system A) k n : oracle_ok ho -> sys_wf s -> sy_dofs s = n -> sy_perm s = None ->
  sy_k s = Some k -> (2 <= n)%nat ->
  (forall r c, (r < n)%nat -> (c < n)%nat -> el k r c = el k c r) -> connected n (el k) ->
  exists k' m' r' p, reduce_envelope ho t s = Ret (Sys n (Some k') m' r' (Some p)) /\ perm_wf n p /\
    dict_wf k' /\ d_shape k' = (n, n) /\
    (forall r c, (r < n)%nat -> (c < n)%nat ->
       d_data k' !! (pf p r, pf p c) = d_data k !! (r, c) /\ el k' (pf p r) (pf p c) = el k r c) /\
    match sy_rhs s with
    | Some rv => exists rv', r' = Some rv' /\ length rv' = n /\ forall i, (i < n)%nat -> vel rv' (pf p i) = vel rv i
    | None => r' = None end.
Proof.
  intros Ho W Hn Hp Hk H2 Hsym Hcon. apply (reduce_envelope_linked ho t s k n Ho W Hn Hp Hk H2).
  apply connected_linked; [|exact Hsym|exact Hcon]. destruct W as (Wk & _). rewrite Hk in Wk. apply Wk.
Qed.

Lemma cholesky_solver_linked ho (s : system A) k rv n : oracle_ok ho -> sys_wf s -> sy_dofs s = n -> sy_perm s = None ->
  sy_k s = Some k -> sy_rhs s = Some rv -> (2 <= n)%nat ->
  (forall r c, (r < n)%nat -> (c < n)%nat -> el k r c = el k c r) -> linked n k -> posdef n (el k) ->
  exists x, cholesky_solver ho s = Ret (Ok x) /\ length x = n /\
    forall i, (i < n)%nat -> mv n (el k) (vel x) i = vel rv i.
Proof.
  intros Ho W Hn Hp Hk Hr H2 Hsym Hcon HP.
  destruct (reduce_envelope_linked ho 1 s k n Ho W Hn Hp Hk H2 Hcon) as (k' & m' & r' & p & Er & Wp & Wk' & Hs' & Hel & Hrr).
  rewrite Hr in Hrr. destruct Hrr as (rv' & -> & Hlr & Hvr).
  destruct W as (Wk & _ & Wr). rewrite Hk, Hn in Wk. rewrite Hr, Hn in Wr. destruct Wk as [Wk Hs].
  unfold cholesky_solver, k_envelope. rewrite Hk. cbn [unwrap mbind out_bind].
  destruct (d_envelope_spec (ho 0%nat (d_data k)) k Wk (Ho _ _)) as (env & Ee & _). rewrite Ee. cbn [mbind out_bind].
  rewrite Er. cbn [mbind out_bind]. unfold into_krp. cbn [sy_k sy_rhs sy_perm unwrap mbind out_bind option_map].
  assert (Hel' : forall r c, (r < n)%nat -> (c < n)%nat -> el k' r c = el k (pb p r) (pb p c)).
  { intros r c H3 H4. destruct (pb_lookup n p r Wp H3) as (_ & B1 & _ & B2). destruct (pb_lookup n p c Wp H4) as (_ & B3 & _ & B4).
    rewrite <- B2 at 1. rewrite <- B4 at 1. now apply Hel. }
  destruct (le_of_dict_spec (ho 4%nat (d_data k')) (ho 5%nat (d_data k')) k' n Wk' Hs' (Ho _ _) (Ho _ _)) as (m & El & Wm & Hnm & _ & Hlow & _).
  { intros r H3. destruct (pb_lookup n p r Wp H3) as (_ & B1 & _ & B2).
    assert (Hd : el k' r r <> 0).
    { rewrite Hel' by assumption. apply not_eq_sym, (lts_neq OL), (posdef_diag n _ _ HP B1). }
    rewrite d_el in Hd by exact Wk'. destruct (d_data k' !! (r, r)) as [v|] eqn:Ev; [|now destruct Hd].
    exists r, v. split; [lia|exact Ev]. }
  rewrite El. cbn [unwrap mbind out_bind fst snd].
  assert (Hsel : forall r c, (r < n)%nat -> (c < n)%nat -> sym_el m r c = el k' r c).
  { intros r c H3 H4. destruct (decide (c <= r)%nat) as [Hle|Hgt].
    - rewrite sym_el_lower by lia. apply Hlow. lia.
    - rewrite sym_el_sym, sym_el_lower, Hlow by lia. rewrite !Hel' by assumption.
      destruct (pb_lookup n p r Wp H3) as (_ & B1 & _). destruct (pb_lookup n p c Wp H4) as (_ & B3 & _).
      now apply Hsym. }
  assert (HPm : posdef (lev_n m) (sym_el m)).
  { rewrite Hnm. apply (posdef_ext n (el k')); [exact Hsel|]. apply (posdef_permute n p (el k)); [exact Wp| |exact HP].
    intros r c H3 H4. now apply Hel. }
  destruct (chol_spec OL SQ m Wm ltac:(lia) HPm) as (l & Ec & HI). rewrite Ec. cbn [mbind out_bind].
  pose proof HI as (Wl & Hnn & Hll & Hpos & _).
  destruct (solve_ll_ret OL l rv' (replicate n 0) Wl) as (x & Ex & Hx & Hxe).
  - congruence.
  - rewrite replicate_length. congruence.
  - intros i Hi. apply not_eq_sym, (lts_neq OL), Hpos. congruence.
  - rewrite Hn, Ex. cbn [mbind out_bind].
    destruct (permute_slice_ret n (invert p) x (invert_wf n p Wp)) as (y & Ey & Hy & Hye); [congruence|].
    rewrite Ey. cbn [mbind out_bind]. exists y. split; [reflexivity|]. split; [exact Hy|].
    pose proof (vel_permuted n (invert p) x y (invert_wf n p Wp) ltac:(congruence) Hye) as Hv.
    assert (Hvy : forall i, (i < n)%nat -> vel y i = vel x (pf p i)).
    { intros i Hi. destruct (pf_lookup n p i Wp Hi) as (_ & B1 & _ & B2). rewrite <- Hv by exact B1.
      f_equal. change (pf (invert p) (pf p i)) with (pb p (pf p i)). auto. }
    intros i Hi. destruct (pf_lookup n p i Wp Hi) as (_ & B1 & _ & B2). rewrite <- Hvr by exact Hi.
    rewrite <- (Hxe (pf p i)) by lia. unfold mv. rewrite Hll, Hnm.
    rewrite <- (bigsum_permute n p (fun c => mm n (el l) (fun t c => el l c t) (pf p i) c * vel x c) Wp).
    apply bigsum_ext. intros c Hc. destruct (pf_lookup n p c Wp Hc) as (_ & B3 & _ & B4).
    rewrite Hvy by exact Hc. f_equal.
    pose proof (chol_table OL m l HI (pf p i) (pf p c) ltac:(lia) ltac:(lia)) as Ht. rewrite Hnm in Ht. rewrite Ht.
    rewrite Hsel by assumption. symmetry. now apply Hel.
Qed.
Lemma cholesky_solver_ret ho (s : system A) k rv n : oracle_ok ho -> sys_wf s -> sy_dofs s = n -> sy_perm s = None ->
  sy_k s = Some k -> sy_rhs s = Some rv -> (2 <= n)%nat ->
  (forall r c, (r < n)%nat -> (c < n)%nat -> el k r c = el k c r) -> connected n (el k) -> posdef n (el k) ->
  exists x, cholesky_solver ho s = Ret (Ok x) /\ length x = n /\
    forall i, (i < n)%nat -> mv n (el k) (vel x) i = vel rv i.
Proof.
  intros Ho W Hn Hp Hk Hr H2 Hsym Hcon. apply (cholesky_solver_linked ho s k rv n Ho W Hn Hp Hk Hr H2 Hsym).
  apply connected_linked; [|exact Hsym|exact Hcon]. destruct W as (Wk & _). rewrite Hk in Wk. apply Wk.
Qed.
End solver.

(** ** systems the solver cannot handle *)
Section refuse.
Context {A : arith}.

Lemma foldM_ret_panic {B S} (f : B -> S -> out S) l : (forall x s, (exists s', f x s = Ret s') \/ f x s = Panic) ->
  forall s, (exists s', foldM f l s = Ret s') \/ foldM f l s = Panic.
Proof.
  intros H. induction l as [|x l IH]; intros s; cbn [foldM]; [eauto|].
  destruct (H x s) as [(s' & ->)| ->]; cbn [mbind out_bind]; [apply IH|auto].
Qed.

Lemma d_permute_total ord (d : dict A) p : (exists d', d_permute ord d p = Ret d') \/ d_permute ord d p = Panic.
Proof.
  unfold d_permute.
  match goal with |- context [foldM ?f ?l ?z] =>
    destruct (foldM_ret_panic f l) with (s := z) as [(x & E)|E] end.
  - intros kv acc. unfold permute, idx.
    destruct (p_fwd p !! kv.1.1); [|auto]. cbn [mbind out_bind]. destruct (p_fwd p !! kv.1.2); [|auto]. cbn [mbind out_bind]. eauto.
  - rewrite E. cbn [mbind out_bind]. eauto.
  - rewrite E. auto.
Qed.

Lemma d_envelope_total ord (d : dict A) : (exists e, d_envelope ord d = Ret e) \/ d_envelope ord d = Panic.
Proof.
  unfold d_envelope. apply foldM_ret_panic. intros [[r c] v] env. cbn [fst]. destruct (r <? c); [eauto|].
  unfold idx, set. destruct (env !! r) eqn:E; [|auto]. cbn [mbind out_bind]. rewrite ?E. eauto.
Qed.

(** a reordered system is refused *)
Lemma cholesky_solver_double ho (s : system A) p : sy_perm s = Some p -> cholesky_solver ho s = Panic.
Proof.
  intros Hp. unfold cholesky_solver, k_envelope. destruct (sy_k s) as [k|] eqn:Ek; [|reflexivity]. cbn [unwrap mbind out_bind].
  destruct (d_envelope_total (ho 0 (d_data k)) k) as [(e & ->)| ->]; [|reflexivity]. cbn [mbind out_bind].
  unfold reduce_envelope. now rewrite Hp.
Qed.

(** a system that falls into two parts not linked by any stored coefficient *)
Lemma reduce_envelope_split ho t (s : system A) k rv n (part : nat -> bool) : oracle_ok ho -> sys_wf s -> sy_dofs s = n ->
  sy_k s = Some k -> sy_rhs s = Some rv ->
  (forall r c, r < c -> is_Some (d_data k !! (r, c)) -> part r = part c) ->
  (exists i j, i < n /\ j < n /\ part i = true /\ part j = false) ->
  reduce_envelope ho t s = Panic.
Proof.
  intros Ho (Wk & Wm & Wr) Hn Hk Hr Hpart (i & j & Hi & Hj & Hpi & Hpj). rewrite Hn, ?Hk, ?Hr in *. destruct Wk as [Wk Hs].
  unfold reduce_envelope. destruct (sy_perm s); [reflexivity|]. rewrite Hk. cbn [unwrap mbind out_bind].
  destruct (system_graph ho t k n Ho Wk Hs) as (g & Eg & Wg & _ & Hle & Hnb & _). rewrite Hn, Eg. cbn [mbind out_bind].
  destruct (decide (vertex_count g = 0)) as [Hz|Hz]; [now rewrite rcm_empty|].
  assert (Hwalk : forall m u v, walk g m u v -> part u = part v).
  { intros m u v. induction 1 as [|m u v w _ IH Hw]; [reflexivity|]. rewrite IH. apply Hnb in Hw as (Hne & Hks).
    apply Hpart in Hks; [|lia]. destruct (decide (v <= w)) as [Hvw|Hvw];
      [rewrite Nat.min_l, Nat.max_r in Hks by lia|rewrite Nat.min_r, Nat.max_l in Hks by lia]; congruence. }
  destruct (rcm_spec g Wg ltac:(lia)) as (s0' & _ & Hs0 & Hok & Hbad).
  destruct (decide (vertex_count g = n)) as [Hvn|Hvn].
  - rewrite Hbad; [reflexivity|]. rewrite Hvn.
    destruct (part s0') eqn:Ep; [exists j|exists i]; (split; [assumption|]); intros (m & Hm); apply Hwalk in Hm; congruence.
  - assert (Hrcm : rcm g = Panic \/ exists p, rcm g = Ret p /\ perm_wf (vertex_count g) p).
    { pose proof (pseudo_peripheral_ret g Wg ltac:(lia)) as (s1' & Es1 & Hs1).
      assert (Hset : exists mask, set (replicate (vertex_count g) true) s1' false = Ret mask)
        by (rewrite set_lookup by (rewrite replicate_length; exact Hs1); eauto).
      destruct Hset as (mask & Em).
      destruct (rcm_loop_cases g Wg s1' mask Hs1 Em) as [[E _]|(om & E & I)].
      - left. unfold rcm. rewrite Es1. cbn [mbind out_bind]. rewrite Em. cbn [mbind out_bind]. now rewrite E.
      - right. destruct (rcm_spec g Wg ltac:(lia)) as (s2 & Es2 & Hs2 & Hok2 & _).
        assert (s2 = s1') as -> by congruence. destruct Hok2 as (p & Ep & Wp & _); [|eauto].
        intros u Hu. destruct (rinv_n_all g s1' om I) as [_ Hp].
        assert (Hin : u ∈ om.1) by (rewrite Hp; apply elem_of_seq; lia).
        destruct (ri_dist g _ _ _ I u Hin) as (d & Hd & _). exists d. exact Hd. }
    destruct Hrcm as [-> |(p & -> & Wp)]; [reflexivity|]. cbn [mbind out_bind].
    destruct (d_permute_total (ho (t + 1) (d_data k)) k p) as [(k' & ->)| ->]; [|reflexivity]. cbn [mbind out_bind].
    assert (Hm : (exists m', opt_mapM (fun m => d_permute (ho (t + 2) (d_data m)) m p) (sy_m s) = Ret m') \/
                 opt_mapM (fun m => d_permute (ho (t + 2) (d_data m)) m p) (sy_m s) = Panic).
    { destruct (sy_m s) as [m|]; cbn [opt_mapM]; [|eauto].
      destruct (d_permute_total (ho (t + 2) (d_data m)) m p) as [(m' & ->)| ->]; [|auto]. cbn [mbind out_bind]. eauto. }
    destruct Hm as [(m' & ->)| ->]; [|reflexivity]. cbn [mbind out_bind]. rewrite Hr. cbn [opt_mapM].
    rewrite permute_slice_panic; [reflexivity|]. rewrite (pw_fwd _ _ Wp). lia.
Qed.

Lemma cholesky_solver_split ho (s : system A) k rv n (part : nat -> bool) : oracle_ok ho -> sys_wf s -> sy_dofs s = n ->
  sy_k s = Some k -> sy_rhs s = Some rv ->
  (forall r c, r < c -> is_Some (d_data k !! (r, c)) -> part r = part c) ->
  (exists i j, i < n /\ j < n /\ part i = true /\ part j = false) ->
  cholesky_solver ho s = Panic.
Proof.
  intros Ho W Hn Hk Hr Hp Hij. unfold cholesky_solver, k_envelope. rewrite Hk. cbn [unwrap mbind out_bind].
  pose proof W as (Wk & _). rewrite Hk in Wk. destruct Wk as [Wk Hs].
  destruct (d_envelope_spec (ho 0 (d_data k)) k Wk (Ho _ _)) as (env & Ee & _). rewrite Ee. cbn [mbind out_bind].
  now rewrite (reduce_envelope_split ho 1 s k rv n part Ho W Hn Hk Hr Hp Hij).
Qed.

(** at most one unknown *)
Lemma cholesky_solver_small ho (s : system A) k n : oracle_ok ho -> sys_wf s -> sy_dofs s = n -> sy_k s = Some k ->
  n <= 1 -> cholesky_solver ho s = Panic.
Proof.
  intros Ho W Hn Hk H1. unfold cholesky_solver, k_envelope. rewrite Hk. cbn [unwrap mbind out_bind].
  pose proof W as (Wk & _). rewrite Hk in Wk. destruct Wk as [Wk Hs]. rewrite Hn in Hs.
  destruct (d_envelope_spec (ho 0 (d_data k)) k Wk (Ho _ _)) as (env & Ee & _). rewrite Ee. cbn [mbind out_bind].
  unfold reduce_envelope. destruct (sy_perm s); [reflexivity|]. rewrite Hk. cbn [unwrap mbind out_bind].
  assert (Hok : forall e, e ∈ d_edges_lower (ho 1 (d_data k)) -> e.1 < n /\ e.2 < n).
  { intros [a b] He. apply edges_in in He as [Hle (v & Hv)]; [|exact Ho]. apply Wk in Hv. rewrite Hs in Hv. exact Hv. }
  destruct (from_edges_ret n _ Hok) as (g & E & Hv & _). rewrite Hn, E. cbn [mbind out_bind].
  rewrite rcm_empty; [reflexivity|]. destruct (decide (vertex_count g = 0)) as [|Hz]; [assumption|]. exfalso.
  assert (H0 : 0 < vertex_count g) by lia. apply Hv in H0 as (a & b & Hne & [He|He] & _); apply Hok in He; cbn in He; lia.
Qed.
End refuse.

(** the dense solver on a system *)
Section dense.
Context {A : arith} (OL : ord_laws A).

Lemma lm_of_vec_ret (v : list A) n : length v = n -> exists m, Buffer.lm_of_vec v = Ret m /\ rep m n 1 (fun i _ => vel v i).
Proof.
  intros Hl. unfold Buffer.lm_of_vec. rewrite Hl. destruct (rep_from_flat n 1 v ltac:(lia)) as (m & E & Hm).
  exists m. split; [exact E|]. eapply rep_ext; [exact Hm|]. intros r c Hr Hc. cbn beta. now replace (1 * r + c) with r by lia.
Qed.

Lemma dense_gauss_ret (s : system A) k rv n : dict_wf k -> d_shape k = (n, n) -> sy_k s = Some k ->
  sy_rhs s = Some rv -> length rv = n -> pivots_nonzero n (el k) ->
  exists x, dense_gauss s = Ret (Ok x) /\ length x = n /\
    forall i, i < n -> mv n (el k) (vel x) i = vel rv i.
Proof.
  intros W Hs Hk Hr Hl Hp. unfold dense_gauss, into_krp. rewrite Hk, Hr. cbn [unwrap mbind out_bind].
  destruct (lm_of_dict_spec k W) as (a & Ea & Wa & Hsa & Hea). rewrite Ea. cbn [unwrap mbind out_bind].
  destruct (lm_of_vec_ret rv n Hl) as (b & Eb & Hb). rewrite Eb. cbn [mbind out_bind fst snd].
  destruct (solve_gausselim_spec OL n a b (el k) (vel rv)) as (x & E & Wx & Hsx & Hsol & _).
  - split; [exact Wa|]. split; [congruence|]. auto.
  - exact Hb.
  - exact Hp.
  - rewrite E. cbn [mbind out_bind]. rewrite (flat_ret _ _ lm_laws x Wx), Hsx. cbn [fst snd mbind out_bind].
    eexists; split; [reflexivity|]. rewrite rm_list_length. split; [lia|]. intros i Hi.
    rewrite <- (Hsol i Hi). apply bigsum_ext. intros c Hc. f_equal. apply vel_lookup.
    replace c with (1 * c + 0) at 1 by lia. apply rm_list_lookup; lia.
Qed.
End dense.
