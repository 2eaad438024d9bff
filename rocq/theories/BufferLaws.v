(** The dense layouts satisfy the matrix laws; in particular no reachable state makes an
    unchecked access leave the buffer. *)
From Verif Require Export Buffer MatrixLaws.

Lemma mul_add_inj C r c r' c' : c < C -> c' < C -> C * r + c = C * r' + c' -> r = r' /\ c = c'.
Proof. intros H1 H2 E. exact (Nat.div_mod_unique C r r' c c' H1 H2 E). Qed.

Section linear.
Context {A : arith}.

Definition lm_wf (m : lm A) : Prop := length (lm_data m) = lm_r m * lm_c m.

Lemma lm_pos_lt (m : lm A) r c i : lm_wf m -> lm_pos m (r, c) = Some i -> i < length (lm_data m).
Proof.
  unfold lm_wf, lm_pos; cbn. intros ->.
  destruct (Nat.leb_spec (lm_c m) c), (Nat.leb_spec (lm_r m) r); cbn; try discriminate.
  destruct (lm_rm m); intros [= <-]; nia.
Qed.

Lemma lm_pos_some (m : lm A) r c : r < lm_r m -> c < lm_c m ->
  lm_pos m (r, c) = Some (if lm_rm m then lm_c m * r + c else lm_r m * c + r).
Proof.
  intros Hr Hc. unfold lm_pos; cbn.
  destruct (Nat.leb_spec (lm_c m) c), (Nat.leb_spec (lm_r m) r); cbn; try lia.
  destruct (lm_rm m); reflexivity.
Qed.

Lemma lm_pos_none (m : lm A) r c : lm_r m <= r \/ lm_c m <= c -> lm_pos m (r, c) = None.
Proof.
  intros H. unfold lm_pos; cbn.
  destruct (Nat.leb_spec (lm_c m) c), (Nat.leb_spec (lm_r m) r); cbn; try reflexivity; lia.
Qed.

Lemma lm_pos_inj (m : lm A) r c r' c' i :
  lm_pos m (r, c) = Some i -> lm_pos m (r', c') = Some i -> r = r' /\ c = c'.
Proof.
  unfold lm_pos; cbn.
  destruct (Nat.leb_spec (lm_c m) c), (Nat.leb_spec (lm_r m) r); cbn; try discriminate.
  destruct (Nat.leb_spec (lm_c m) c'), (Nat.leb_spec (lm_r m) r'); cbn; try discriminate.
  destruct (lm_rm m); intros [= <-] [= E]; apply mul_add_inj in E; try assumption;
    destruct E; auto.
Qed.

Lemma lm_el_pos (m : lm A) r c i x :
  lm_pos m (r, c) = Some i -> lm_data m !! i = Some x -> el m r c = x.
Proof. intros H1 H2. unfold el; cbn. unfold lm_get, get_unchecked. rewrite H1, H2. reflexivity. Qed.

Lemma lm_laws : ml_laws (M := lm A) lm_wf full_dom.
Proof.
  constructor; cbn.
  - intros m r c H Hr Hc. pose proof (lm_pos_some m r c Hr Hc) as E.
    unfold el; cbn. unfold lm_get, get_unchecked. rewrite E.
    destruct (lookup_lt_is_Some_2 (lm_data m) _ (lm_pos_lt _ _ _ _ H E)) as [x ->]. reflexivity.
  - intros m r c H Ho. unfold lm_get. now rewrite lm_pos_none.
  - intros m r c f H Hd. apply in_shape_true in Hd. cbn in Hd. destruct Hd as [Hr Hc].
    pose proof (lm_pos_some m r c Hr Hc) as E.
    set (i := if lm_rm m then lm_c m * r + c else lm_r m * c + r) in *. clearbody i.
    pose proof (lm_pos_lt _ _ _ _ H E) as Hi.
    destruct (lookup_lt_is_Some_2 (lm_data m) _ Hi) as [x Ex].
    eexists. unfold lm_mut, upd_unchecked. rewrite E, Ex. cbn [mbind out_bind].
    split; [reflexivity|]. split; [unfold lm_wf in *; cbn; now rewrite insert_length|].
    split; [reflexivity|]. split; [reflexivity|].
    intros r' c'. rewrite (lm_el_pos m r c i x E Ex).
    unfold el; cbn. unfold lm_get.
    replace (lm_pos (LM (lm_r m) (lm_c m) (lm_rm m) (<[i:=f x]> (lm_data m))) (r', c'))
      with (lm_pos m (r', c')) by reflexivity.
    destruct (lm_pos m (r', c')) as [i'|] eqn:E'; cbn.
    + unfold get_unchecked. pose proof (lm_pos_lt _ _ _ _ H E') as Hi'.
      destruct (decide (i' = i)) as [->|Hne].
      * destruct (lm_pos_inj m _ _ _ _ _ E' E) as [-> ->]. rewrite !Nat.eqb_refl. cbn.
        rewrite list_lookup_insert by assumption. reflexivity.
      * rewrite list_lookup_insert_ne by congruence.
        destruct (lookup_lt_is_Some_2 (lm_data m) _ Hi') as [y ->]. cbn.
        destruct (Nat.eqb_spec r' r), (Nat.eqb_spec c' c); cbn; try reflexivity. subst. congruence.
    + destruct (Nat.eqb_spec r' r), (Nat.eqb_spec c' c); cbn; try reflexivity. subst. congruence.
  - intros m r c f H Hd. apply in_shape_false in Hd. unfold lm_mut. now rewrite lm_pos_none.
  - intros m r c H Hd. now apply in_shape_true in Hd.
  - intros m r c H Hd. apply in_shape_false in Hd. unfold el; cbn. unfold lm_get.
    now rewrite lm_pos_none.
Qed.

Lemma lm_from_flat_ret R C (d : list A) : length d = R * C ->
  exists m, lm_from_flat (R, C) d = Ret m /\ lm_wf m /\ mshape m = (R, C) /\
    (forall r c, r < R -> c < C -> Some (el m r c) = d !! (C * r + c)).
Proof.
  intros H. unfold lm_from_flat. cbn. rewrite (proj2 (Nat.eqb_eq _ _)) by auto.
  eexists; split; [reflexivity|]. split; [exact H|]. split; [reflexivity|].
  intros r c Hr Hc. destruct (lookup_lt_is_Some_2 d (C * r + c)) as [x Ex]; [nia|].
  rewrite Ex. f_equal. apply (lm_el_pos _ r c (C * r + c)); [|exact Ex].
  now rewrite lm_pos_some.
Qed.

Lemma lm_from_flat_rm R C (g : nat -> nat -> A) :
  exists m, lm_from_flat (R, C) (rm_list R C g) = Ret m /\ lm_wf m /\ mshape m = (R, C) /\
    (forall r c, r < R -> c < C -> el m r c = g r c).
Proof.
  destruct (lm_from_flat_ret R C (rm_list R C g)) as (m & E & Hw & Hs & He).
  - apply rm_list_length.
  - exists m. split; [exact E|]. split; [exact Hw|]. split; [exact Hs|].
    intros r c Hr Hc. specialize (He r c Hr Hc). rewrite rm_list_lookup in He by assumption. congruence.
Qed.

Lemma lm_from_flat_panic R C (d : list A) : length d <> R * C -> lm_from_flat (R, C) d = Panic.
Proof. intros H. unfold lm_from_flat. cbn. rewrite (proj2 (Nat.eqb_neq _ _)) by auto. reflexivity. Qed.

Lemma lm_zeros_wf R C : lm_wf (lm_zeros (A:=A) (R, C)).
Proof. unfold lm_wf; cbn. now rewrite replicate_length. Qed.

Lemma lm_zeros_el R C r c : el (lm_zeros (A:=A) (R, C)) r c = s0.
Proof.
  unfold el; cbn. unfold lm_get.
  destruct (lm_pos (lm_zeros (R, C)) (r, c)) as [i|] eqn:E; [|reflexivity].
  apply lm_pos_lt in E; [|apply lm_zeros_wf]. cbn in *. rewrite replicate_length in E.
  unfold get_unchecked. rewrite lookup_replicate_2 by assumption. reflexivity.
Qed.

Lemma lm_transpose_wf (m : lm A) : lm_wf m -> lm_wf (lm_transpose m).
Proof. unfold lm_wf; cbn. lia. Qed.

Lemma lm_transpose_el (m : lm A) r c : el (lm_transpose m) r c = el m c r.
Proof.
  unfold el; cbn. unfold lm_get.
  assert (lm_pos (lm_transpose m) (r, c) = lm_pos m (c, r)) as ->.
  { unfold lm_pos; cbn. rewrite orb_comm. destruct (_ || _); [reflexivity|].
    destruct (lm_rm m); reflexivity. }
  reflexivity.
Qed.

Lemma lm_scale_wf (m : lm A) v : lm_wf m -> lm_wf (lm_scale m v).
Proof. unfold lm_wf; cbn. now rewrite map_length. Qed.

Lemma lm_map_el (m : lm A) (f : A -> A) r c : lm_wf m -> r < lm_r m -> c < lm_c m ->
  el (LM (lm_r m) (lm_c m) (lm_rm m) (map f (lm_data m))) r c = f (el m r c).
Proof.
  intros H Hr Hc. pose proof (lm_pos_some m r c Hr Hc) as E.
  destruct (lookup_lt_is_Some_2 (lm_data m) _ (lm_pos_lt _ _ _ _ H E)) as [x Ex].
  rewrite (lm_el_pos m r c _ x E Ex).
  eapply lm_el_pos; [exact E|]. cbn. rewrite list_lookup_fmap, Ex. reflexivity.
Qed.

Lemma lm_scale_el (m : lm A) v r c : lm_wf m -> r < lm_r m -> c < lm_c m ->
  el (lm_scale m v) r c = smul (el m r c) v.
Proof. intros. unfold lm_scale. now rewrite lm_map_el. Qed.

End linear.

(** ** Triangular numbers *)
Lemma tri_even n : exists k, n * (n + 1) = 2 * k /\ n * (n + 1) / 2 = k.
Proof.
  induction n as [|n (k & Hk & _)].
  - exists 0; split; reflexivity.
  - assert (E : S n * (S n + 1) = 2 * (k + S n)) by lia.
    exists (k + S n). split; [exact E|]. rewrite E, Nat.mul_comm. apply Nat.div_mul. lia.
Qed.

Lemma tri_spec n : 2 * (n * (n + 1) / 2) = n * (n + 1).
Proof. destruct (tri_even n) as (k & H1 & H2). lia. Qed.

Lemma tri_pos_inj r c r' c' : c <= r -> c' <= r' ->
  r * (r + 1) / 2 + c = r' * (r' + 1) / 2 + c' -> r = r' /\ c = c'.
Proof.
  intros H1 H2 E. pose proof (tri_spec r). pose proof (tri_spec r').
  assert (r = r').
  { destruct (Nat.lt_trichotomy r r') as [L|[L|L]]; [|assumption|]; exfalso; nia. }
  subst. lia.
Qed.

Section triangular.
Context {A : arith}.

Definition ltm_wf (m : ltm A) : Prop := lt_dim m * (lt_dim m + 1) / 2 <= length (lt_data m).
Definition ltm_dom (m : ltm A) (r c : nat) : bool := (r <? lt_dim m) && (c <=? r).

Definition utm_wf (m : utm A) : Prop := ut_dim m * (ut_dim m + 1) / 2 <= length (ut_data m).
Definition utm_dom (m : utm A) (r c : nat) : bool := (c <? ut_dim m) && (r <=? c).

Lemma lt_pos_dom (m : ltm A) r c :
  lt_pos m (r, c) = if ltm_dom m r c then Some (r * (r + 1) / 2 + c) else None.
Proof.
  unfold lt_pos, ltm_dom; cbn.
  destruct (Nat.leb_spec (lt_dim m) r), (Nat.leb_spec (lt_dim m) c), (Nat.ltb_spec r c),
    (Nat.ltb_spec r (lt_dim m)), (Nat.leb_spec c r); cbn; try reflexivity; lia.
Qed.

Lemma tri_bound r c d : r < d -> c <= r -> r * (r + 1) / 2 + c < d * (d + 1) / 2.
Proof.
  intros H1 H2. pose proof (tri_spec r) as E1. pose proof (tri_spec d) as E2.
  assert (S r * (S r + 1) <= d * (d + 1)) by (apply Nat.mul_le_mono; lia). nia.
Qed.

Lemma lt_laws : ml_laws (M := ltm A) ltm_wf ltm_dom.
Proof.
  assert (Hlt : forall (m : ltm A) r c, ltm_wf m -> ltm_dom m r c = true ->
            r * (r + 1) / 2 + c < length (lt_data m)).
  { intros m r c H Hd. unfold ltm_dom in Hd. rewrite andb_true_iff, Nat.ltb_lt, Nat.leb_le in Hd.
    unfold ltm_wf in H. pose proof (tri_bound r c (lt_dim m)). lia. }
  constructor; cbn.
  - intros m r c H Hr Hc. unfold el; cbn. unfold lt_get, get_unchecked. rewrite lt_pos_dom.
    destruct (ltm_dom m r c) eqn:Hd.
    + destruct (lookup_lt_is_Some_2 (lt_data m) _ (Hlt _ _ _ H Hd)) as [x ->]. reflexivity.
    + cbn. rewrite (proj2 (Nat.ltb_lt r _)), (proj2 (Nat.ltb_lt c _)) by assumption. reflexivity.
  - intros m r c H Ho. unfold lt_get. rewrite lt_pos_dom.
    destruct (ltm_dom m r c) eqn:Hd.
    + unfold ltm_dom in Hd. rewrite andb_true_iff, Nat.ltb_lt, Nat.leb_le in Hd. lia.
    + cbn. destruct (Nat.ltb_spec r (lt_dim m)), (Nat.ltb_spec c (lt_dim m)); cbn; try reflexivity; lia.
  - intros m r c f H Hd.
    pose proof (Hlt _ _ _ H Hd) as Hi. set (i := r * (r + 1) / 2 + c) in *.
    destruct (lookup_lt_is_Some_2 (lt_data m) _ Hi) as [x Ex].
    eexists. unfold lt_mut, upd_unchecked. rewrite lt_pos_dom, Hd. fold i. rewrite Ex. cbn [mbind out_bind].
    split; [reflexivity|]. split; [unfold ltm_wf in *; cbn; now rewrite insert_length|].
    split; [reflexivity|]. split; [reflexivity|].
    assert (Eel : el m r c = x).
    { unfold el; cbn. unfold lt_get, get_unchecked. rewrite lt_pos_dom, Hd. fold i. now rewrite Ex. }
    intros r' c'. rewrite Eel. unfold el; cbn. unfold lt_get. rewrite !lt_pos_dom.
    unfold ltm_dom at 1; cbn [lt_dim]. fold (ltm_dom m r' c').
    destruct (ltm_dom m r' c') eqn:Hd'; cbn [lt_data lt_dim].
    + unfold get_unchecked. pose proof (Hlt _ _ _ H Hd') as Hi'.
      destruct (decide (r' * (r' + 1) / 2 + c' = i)) as [Ei|Hne].
      * assert (r' = r /\ c' = c) as [-> ->].
        { unfold ltm_dom in Hd, Hd'. rewrite andb_true_iff, Nat.ltb_lt, Nat.leb_le in Hd, Hd'.
          apply tri_pos_inj; [lia|lia|exact Ei]. }
        rewrite !Nat.eqb_refl. cbn. fold i. rewrite list_lookup_insert by assumption. reflexivity.
      * rewrite list_lookup_insert_ne by congruence.
        destruct (lookup_lt_is_Some_2 (lt_data m) _ Hi') as [y ->]. cbn.
        destruct (Nat.eqb_spec r' r), (Nat.eqb_spec c' c); cbn; try reflexivity. subst. now elim Hne.
    + destruct (Nat.eqb_spec r' r), (Nat.eqb_spec c' c); cbn; try reflexivity. subst. congruence.
  - intros m r c f H Hd. unfold lt_mut. now rewrite lt_pos_dom, Hd.
  - intros m r c H Hd. unfold ltm_dom in Hd. rewrite andb_true_iff, Nat.ltb_lt, Nat.leb_le in Hd. lia.
  - intros m r c H Hd. unfold el; cbn. unfold lt_get. rewrite lt_pos_dom, Hd. cbn.
    destruct (_ && _); reflexivity.
Qed.

Lemma ut_pos_dom (m : utm A) r c :
  ut_pos m (r, c) = if utm_dom m r c then Some (c * (c + 1) / 2 + r) else None.
Proof.
  unfold ut_pos, utm_dom; cbn.
  destruct (Nat.leb_spec (ut_dim m) r), (Nat.leb_spec (ut_dim m) c), (Nat.ltb_spec c r),
    (Nat.ltb_spec c (ut_dim m)), (Nat.leb_spec r c); cbn; try reflexivity; lia.
Qed.

Lemma ut_laws : ml_laws (M := utm A) utm_wf utm_dom.
Proof.
  assert (Hlt : forall (m : utm A) r c, utm_wf m -> utm_dom m r c = true ->
            c * (c + 1) / 2 + r < length (ut_data m)).
  { intros m r c H Hd. unfold utm_dom in Hd. rewrite andb_true_iff, Nat.ltb_lt, Nat.leb_le in Hd.
    unfold utm_wf in H. pose proof (tri_bound c r (ut_dim m)). lia. }
  constructor; cbn.
  - intros m r c H Hr Hc. unfold el; cbn. unfold ut_get, get_unchecked. rewrite ut_pos_dom.
    destruct (utm_dom m r c) eqn:Hd.
    + destruct (lookup_lt_is_Some_2 (ut_data m) _ (Hlt _ _ _ H Hd)) as [x ->]. reflexivity.
    + cbn. rewrite (proj2 (Nat.ltb_lt r _)), (proj2 (Nat.ltb_lt c _)) by assumption. reflexivity.
  - intros m r c H Ho. unfold ut_get. rewrite ut_pos_dom.
    destruct (utm_dom m r c) eqn:Hd.
    + unfold utm_dom in Hd. rewrite andb_true_iff, Nat.ltb_lt, Nat.leb_le in Hd. lia.
    + cbn. destruct (Nat.ltb_spec r (ut_dim m)), (Nat.ltb_spec c (ut_dim m)); cbn; try reflexivity; lia.
  - intros m r c f H Hd.
    pose proof (Hlt _ _ _ H Hd) as Hi. set (i := c * (c + 1) / 2 + r) in *.
    destruct (lookup_lt_is_Some_2 (ut_data m) _ Hi) as [x Ex].
    eexists. unfold ut_mut, upd_unchecked. rewrite ut_pos_dom, Hd. fold i. rewrite Ex. cbn [mbind out_bind].
    split; [reflexivity|]. split; [unfold utm_wf in *; cbn; now rewrite insert_length|].
    split; [reflexivity|]. split; [reflexivity|].
    assert (Eel : el m r c = x).
    { unfold el; cbn. unfold ut_get, get_unchecked. rewrite ut_pos_dom, Hd. fold i. now rewrite Ex. }
    intros r' c'. rewrite Eel. unfold el; cbn. unfold ut_get. rewrite !ut_pos_dom.
    unfold utm_dom at 1; cbn [ut_dim]. fold (utm_dom m r' c').
    destruct (utm_dom m r' c') eqn:Hd'; cbn [ut_data ut_dim].
    + unfold get_unchecked. pose proof (Hlt _ _ _ H Hd') as Hi'.
      destruct (decide (c' * (c' + 1) / 2 + r' = i)) as [Ei|Hne].
      * assert (c' = c /\ r' = r) as [-> ->].
        { unfold utm_dom in Hd, Hd'. rewrite andb_true_iff, Nat.ltb_lt, Nat.leb_le in Hd, Hd'.
          apply tri_pos_inj; [lia|lia|exact Ei]. }
        rewrite !Nat.eqb_refl. cbn. fold i. rewrite list_lookup_insert by assumption. reflexivity.
      * rewrite list_lookup_insert_ne by congruence.
        destruct (lookup_lt_is_Some_2 (ut_data m) _ Hi') as [y ->]. cbn.
        destruct (Nat.eqb_spec r' r), (Nat.eqb_spec c' c); cbn; try reflexivity. subst. now elim Hne.
    + destruct (Nat.eqb_spec r' r), (Nat.eqb_spec c' c); cbn; try reflexivity. subst. congruence.
  - intros m r c f H Hd. unfold ut_mut. now rewrite ut_pos_dom, Hd.
  - intros m r c H Hd. unfold utm_dom in Hd. rewrite andb_true_iff, Nat.ltb_lt, Nat.leb_le in Hd. lia.
  - intros m r c H Hd. unfold el; cbn. unfold ut_get. rewrite ut_pos_dom, Hd. cbn.
    destruct (_ && _); reflexivity.
Qed.

Lemma tri_zeros_len d : d * (d + 1) / 2 <= (d + 1) * (d + 2) / 2.
Proof. apply Nat.div_le_mono; [lia|]. nia. Qed.

Lemma lt_zeros_wf s : ltm_wf (lt_zeros (A:=A) s).
Proof. unfold ltm_wf, lt_zeros; cbn [lt_data lt_dim]. rewrite replicate_length. apply tri_zeros_len. Qed.

Lemma ut_zeros_wf s : utm_wf (ut_zeros (A:=A) s).
Proof. unfold utm_wf, ut_zeros; cbn [ut_data ut_dim]. rewrite replicate_length. apply tri_zeros_len. Qed.

Lemma lt_zeros_el s r c : el (lt_zeros (A:=A) s) r c = s0.
Proof.
  destruct (ltm_dom (lt_zeros (A:=A) s) r c) eqn:Hd.
  - unfold el; cbn. unfold lt_get. rewrite lt_pos_dom, Hd. unfold get_unchecked, lt_zeros. cbn [lt_data].
    destruct (replicate _ _ !! _) as [x|] eqn:E; [|reflexivity].
    apply lookup_replicate in E. now destruct E as [-> _].
  - apply (law_nodom _ _ lt_laws); [apply lt_zeros_wf|exact Hd].
Qed.

Lemma ut_zeros_el s r c : el (ut_zeros (A:=A) s) r c = s0.
Proof.
  destruct (utm_dom (ut_zeros (A:=A) s) r c) eqn:Hd.
  - unfold el; cbn. unfold ut_get. rewrite ut_pos_dom, Hd. unfold get_unchecked, ut_zeros. cbn [ut_data].
    destruct (replicate _ _ !! _) as [x|] eqn:E; [|reflexivity].
    apply lookup_replicate in E. now destruct E as [-> _].
  - apply (law_nodom _ _ ut_laws); [apply ut_zeros_wf|exact Hd].
Qed.

(** Diagonal *)
Definition dg_wf (m : dg A) : Prop := True.
Definition dg_dom (m : dg A) (r c : nat) : bool := (r =? c) && (r <? length (dg_data m)).

Lemma dg_laws : ml_laws (M := dg A) dg_wf dg_dom.
Proof.
  constructor; cbn.
  - intros m r c _ Hr Hc. unfold el; cbn. unfold dg_get, get_unchecked; cbn.
    destruct (Nat.eqb_spec r c) as [->|Hne]; cbn.
    + rewrite (proj2 (Nat.ltb_lt _ _) Hc). destruct (lookup_lt_is_Some_2 (dg_data m) _ Hc) as [x ->]. reflexivity.
    + rewrite (proj2 (Nat.ltb_lt _ _) Hc), (proj2 (Nat.ltb_lt _ _) Hr). reflexivity.
  - intros m r c _ Ho. unfold dg_get; cbn.
    destruct (Nat.eqb_spec r c), (Nat.ltb_spec r (length (dg_data m))), (Nat.ltb_spec c (length (dg_data m)));
      cbn; try reflexivity; lia.
  - intros m r c f _ Hd. unfold dg_dom in Hd. apply andb_true_iff in Hd as [E Hr].
    apply Nat.eqb_eq in E. subst c. apply Nat.ltb_lt in Hr.
    destruct (lookup_lt_is_Some_2 (dg_data m) _ Hr) as [x Ex].
    unfold dg_mut, upd_unchecked; cbn. rewrite Nat.eqb_refl, (proj2 (Nat.ltb_lt _ _) Hr), Ex. cbn.
    eexists; split; [reflexivity|]. split; [exact I|]. cbn. rewrite insert_length.
    split; [reflexivity|]. split; [intros; unfold dg_dom; cbn; now rewrite insert_length|].
    intros r' c'. unfold el; cbn. unfold dg_get, get_unchecked; cbn. rewrite insert_length.
    rewrite Nat.eqb_refl, (proj2 (Nat.ltb_lt _ _) Hr), Ex. cbn.
    destruct (Nat.eqb_spec r' c') as [->|Hne]; cbn.
    + destruct (Nat.ltb_spec c' (length (dg_data m))) as [Hc'|Hc']; cbn.
      * destruct (Nat.eqb_spec c' r) as [->|Hn]; cbn.
        -- rewrite list_lookup_insert by assumption. reflexivity.
        -- rewrite list_lookup_insert_ne by congruence. reflexivity.
      * destruct (Nat.eqb_spec c' r) as [->|Hn]; cbn; [lia|reflexivity].
    + destruct (Nat.eqb_spec r' r), (Nat.eqb_spec c' r); cbn; try reflexivity. lia.
  - intros m r c f _ Hd. unfold dg_mut, dg_dom in *; cbn. now rewrite Hd.
  - intros m r c _ Hd. unfold dg_dom in Hd. apply andb_true_iff in Hd as [E Hr].
    apply Nat.eqb_eq in E. apply Nat.ltb_lt in Hr. lia.
  - intros m r c _ Hd. unfold el, dg_dom in *; cbn. unfold dg_get; cbn. rewrite Hd. clear Hd.
    destruct (_ && _); reflexivity.
Qed.
End triangular.

(** ConstMatrix built by its checked constructors *)
Section const.
Context {A : arith} (size : nat).
Local Existing Instance cm_like.

Definition cm_wf (m : cm A) : Prop := length (cm_data m) = size /\ cm_r m * cm_c m = size.

Lemma cm_laws : ml_laws (ML := cm_like size) cm_wf (full_dom (ML := cm_like size)).
Proof.
  assert (Hlt : forall (m : cm A) r c, cm_wf m -> r < cm_r m -> c < cm_c m ->
      cm_pos m (r, c) = Some (cm_c m * r + c) /\ cm_c m * r + c < length (cm_data m)).
  { intros m r c [H1 H2] Hr Hc. unfold cm_pos; cbn.
    destruct (Nat.leb_spec (cm_c m) c), (Nat.leb_spec (cm_r m) r); cbn; try lia.
    split; [reflexivity|nia]. }
  assert (Hno : forall (m : cm A) r c, cm_r m <= r \/ cm_c m <= c -> cm_pos m (r, c) = None).
  { intros m r c Ho. unfold cm_pos; cbn.
    destruct (Nat.leb_spec (cm_c m) c), (Nat.leb_spec (cm_r m) r); cbn; try reflexivity; lia. }
  constructor; cbn.
  - intros m r c H Hr Hc. destruct (Hlt m r c H Hr Hc) as [E Hi].
    destruct (lookup_lt_is_Some_2 (cm_data m) _ Hi) as [x Ex].
    unfold el; cbn. unfold cm_get, idx. rewrite E, Ex. reflexivity.
  - intros m r c H Ho. unfold cm_get. now rewrite Hno.
  - intros m r c f H Hd. apply in_shape_true in Hd. cbn in Hd. destruct Hd as [Hr Hc].
    destruct (Hlt m r c H Hr Hc) as [E Hi].
    destruct (lookup_lt_is_Some_2 (cm_data m) _ Hi) as [x Ex].
    eexists. unfold cm_mut, idx. rewrite E, Ex. cbn.
    split; [reflexivity|]. split; [destruct H; split; cbn; [now rewrite insert_length|assumption]|].
    split; [reflexivity|]. split; [reflexivity|].
    intros r' c'. unfold el; cbn. unfold cm_get. rewrite E. unfold idx at 2. rewrite Ex. cbn.
    destruct (decide (r' < cm_r m /\ c' < cm_c m)) as [[Hr' Hc']|Hn].
    + destruct (Hlt m r' c' H Hr' Hc') as [E' Hi'].
      replace (cm_pos (CM (cm_r m) (cm_c m) _) (r', c')) with (cm_pos m (r', c')) by reflexivity.
      rewrite E'. unfold idx; cbn.
      destruct (decide (cm_c m * r' + c' = cm_c m * r + c)) as [Ei|Hne].
      * destruct (mul_add_inj _ _ _ _ _ Hc' Hc Ei) as [-> ->]. rewrite !Nat.eqb_refl; cbn.
        rewrite list_lookup_insert by assumption. reflexivity.
      * rewrite list_lookup_insert_ne by congruence.
        destruct (Nat.eqb_spec r' r), (Nat.eqb_spec c' c); cbn; try reflexivity. subst. now elim Hne.
    + rewrite !Hno by (cbn; lia).
      destruct (Nat.eqb_spec r' r), (Nat.eqb_spec c' c); cbn; try reflexivity. lia.
  - intros m r c f H Hd. apply in_shape_false in Hd. unfold cm_mut. now rewrite Hno.
  - intros m r c H Hd. now apply in_shape_true in Hd.
  - intros m r c H Hd. apply in_shape_false in Hd. unfold el; cbn. unfold cm_get. now rewrite Hno.
Qed.
End const.
