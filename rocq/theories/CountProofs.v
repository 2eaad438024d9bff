(** Comparisons and counts. *)
From Verif Require Export Counts EdgeProofs RowProofs BulkProofs Ord.

(** two vertices joined in a list of edges *)
Definition joined_in (es : list (nat * nat)) (u v : nat) : Prop := u <> v /\ ((u, v) ∈ es \/ (v, u) ∈ es).

Lemma graph_eq_iff g h : graph_eq g h = true <-> g = h.
Proof.
  unfold graph_eq. rewrite andb_true_iff, !bool_decide_eq_true. destruct g, h. cbn. split; [intros [-> ->]; reflexivity|intros [= -> ->]; auto].
Qed.

Lemma lex_lt_irr x : ~ lex_lt x x.
Proof. unfold lex_lt. lia. Qed.
Lemma lex_lt_asym x y : lex_lt x y -> ~ lex_lt y x.
Proof. unfold lex_lt. lia. Qed.

Lemma sorted_same l l' : StronglySorted lex_lt l -> StronglySorted lex_lt l' -> (forall x, x ∈ l <-> x ∈ l') -> l = l'.
Proof.
  intros H. revert l'. induction H as [|x l Hs IH Hf]; intros l' H' E.
  - destruct l' as [|y l']; [reflexivity|]. exfalso. apply (not_elem_of_nil y). apply E. left.
  - inversion H' as [|y l2 Hs2 Hf2]; subst; [exfalso; apply (not_elem_of_nil x), E; left|].
    rewrite Forall_forall in Hf, Hf2.
    assert (x = y) as ->.
    { destruct (proj1 (elem_of_cons _ _ _) (proj1 (E x) ltac:(left))) as [|Hx]; [assumption|].
      destruct (proj1 (elem_of_cons _ _ _) (proj2 (E y) ltac:(left))) as [|Hy]; [congruence|].
      exfalso. exact (lex_lt_asym _ _ (Hf _ Hy) (Hf2 _ Hx)). }
    f_equal. apply IH; [exact Hs2|]. intros z. split; intros Hz.
    + destruct (proj1 (elem_of_cons _ _ _) (proj1 (E z) ltac:(right; exact Hz))) as [->|]; [|assumption]. exfalso. exact (lex_lt_irr _ (Hf _ Hz)).
    + destruct (proj1 (elem_of_cons _ _ _) (proj2 (E z) ltac:(right; exact Hz))) as [->|]; [|assumption]. exfalso. exact (lex_lt_irr _ (Hf2 _ Hz)).
Qed.

Lemma from_edges_list vc es g : from_edges vc es = Ret g -> exists D, g = fold_left push_edge D (Graph [] []) /\ StronglySorted lex_lt D /\
  forall u v, (u, v) ∈ D <-> joined_in es u v.
Proof.
  intros E. destruct (from_edges_wf _ _ _ E) as (_ & _ & _ & H). unfold from_edges in E.
  destruct (clean_edges_ret vc es H) as (l & El & Hl). rewrite El in E. cbn [mbind out_bind] in E. injection E as <-.
  eexists. split; [reflexivity|]. split; [apply dedup_sorted, sort_by_sorted; [exact lex_total|exact lex_trans]|].
  intros u v. rewrite dedup_in, sort_by_perm. apply Hl.
Qed.

Lemma graphs_equal vc es g vc' es' g' : from_edges vc es = Ret g -> from_edges vc' es' = Ret g' ->
  graph_eq g g' = true <-> forall u v, joined_in es u v <-> joined_in es' u v.
Proof.
  intros E E'. rewrite graph_eq_iff. split.
  - intros <-. destruct (from_edges_wf _ _ _ E) as (_ & _ & H & _). destruct (from_edges_wf _ _ _ E') as (_ & _ & H' & _).
    intros u v. unfold joined_in. now rewrite <- H, <- H'.
  - intros Hj. destruct (from_edges_list _ _ _ E) as (D & -> & HD & Hin). destruct (from_edges_list _ _ _ E') as (D' & -> & HD' & Hin').
    assert (D = D') as ->; [|reflexivity]. apply sorted_same; [assumption..|]. intros [u v]. now rewrite Hin, Hin'.
Qed.

Lemma lols_equal a b : graph_eq (from_lol a) (from_lol b) = true <-> a = b.
Proof.
  rewrite graph_eq_iff. split; [|now intros ->]. intros E.
  destruct (from_lol_ret a) as [_ Ha]. destruct (from_lol_ret b) as [_ Hb]. apply list_eq. intros u.
  specialize (Ha u). specialize (Hb u). rewrite E in Ha. rewrite Ha in Hb. destruct (a !! u), (b !! u); congruence.
Qed.

Lemma degree_masked_ret g (W : graph_wf g) v mask : v < vertex_count g -> length mask = vertex_count g ->
  degree_masked g v mask = Ret (length (List.filter (mk mask) (nbrs g v))).
Proof.
  intros H Hm. pose proof (adjacent_masked_ret g W v mask H Hm) as E. unfold adjacent_masked in E.
  rewrite (proj2 (Nat.ltb_lt _ _) H) in E. cbn [assert_ mbind out_bind] in E. unfold degree_masked.
  apply bind_ret_inv in E as (se & Es & E). rewrite Es. cbn [mbind out_bind].
  assert (G : forall l t t', foldM (fun x temp => v ← idx (g_adj g) x; b ← idx mask v; Ret (if b : bool then temp ++ [v] else temp)) l t = Ret t' ->
    foldM (fun i k => w ← idx (g_adj g) i; b ← idx mask w; Ret (k + if b : bool then 1 else 0)) l (length t) = Ret (length t')).
  { intros l. induction l as [|x l IH]; intros t t' F; cbn [foldM] in *; [now injection F as <-|].
    apply bind_ret_inv in F as (t1 & F1 & F). apply bind_ret_inv in F1 as (w & Ew & F1). apply bind_ret_inv in F1 as (b & Eb & F1).
    rewrite Ew. cbn [mbind out_bind]. rewrite Eb. cbn [mbind out_bind]. injection F1 as <-. destruct b.
    - specialize (IH _ _ F). rewrite app_length in IH. exact IH.
    - rewrite Nat.add_0_r. exact (IH _ _ F). }
  exact (G _ _ _ E).
Qed.
Lemma degree_masked_out g v mask : vertex_count g <= v -> degree_masked g v mask = Panic.
Proof.
  intros H. unfold degree_masked, adj_idxs, idx. rewrite (lookup_ge_None_2 _ v) by exact H. reflexivity.
Qed.

Section counts.
Context {A : arith}.

Lemma dg_at_get (m : dg A) i x : dg_at m i = Ret x <-> mget m (i, i) = Ret (Some x).
Proof.
  cbn [mget dg_like]. unfold dg_at, dg_get, get_unchecked, idx. cbn [fst snd]. rewrite Nat.eqb_refl. destruct (Nat.ltb_spec i (length (dg_data m))) as [H|H]; cbn [andb].
  - destruct (lookup_lt_is_Some_2 (dg_data m) i H) as [y ->]. cbn. split; congruence.
  - rewrite (lookup_ge_None_2 _ _ H). split; discriminate.
Qed.

Lemma dg_eq_reads (a b : dg A) : seqb (s0 : A) s0 = true ->
  dg_eq a b = true <-> mshape a = mshape b /\ forall r c, r < (mshape a).1 -> c < (mshape a).2 ->
    exists x y, mget a (r, c) = Ret (Some x) /\ mget b (r, c) = Ret (Some y) /\ seqb x y = true.
Proof.
  intros Hz. unfold dg_eq. rewrite data_eqb_iff. cbn [mshape dg_like fst snd]. unfold dg_get, get_unchecked. split.
  - intros [Hl H]. split; [now rewrite Hl|]. intros r c Hr Hc. cbn [mget dg_like]. unfold dg_get, get_unchecked. cbn [fst snd]. rewrite <- Hl.
    rewrite (proj2 (Nat.ltb_lt _ _) Hr), (proj2 (Nat.ltb_lt _ _) Hc). destruct (Nat.eqb_spec r c) as [->|Hne]; cbn [andb]; [|eauto].
    destruct (lookup_lt_is_Some_2 (dg_data a) c Hc) as [x Ex]. destruct (lookup_lt_is_Some_2 (dg_data b) c ltac:(lia)) as [y Ey].
    rewrite Ex, Ey. exists x, y. split; [reflexivity|]. split; [reflexivity|]. exact (H c x y Ex Ey).
  - intros [Hl H]. injection Hl as Hl. split; [exact Hl|]. intros i x y Ex Ey. pose proof (lookup_lt_Some _ _ _ Ex) as Hi.
    destruct (H i i Hi Hi) as (x' & y' & Hx & Hy & E). cbn [mget dg_like] in Hx, Hy. unfold dg_get, get_unchecked in Hx, Hy. cbn [fst snd] in Hx, Hy.
    rewrite <- Hl in Hy. rewrite Nat.eqb_refl, (proj2 (Nat.ltb_lt _ _) Hi) in Hx, Hy. cbn [andb] in Hx, Hy. rewrite Ex in Hx. rewrite Ey in Hy.
    cbn in Hx, Hy. congruence.
Qed.

Lemma cm_eq_reads (a b : cm A) : length (cm_data a) = cm_r a * cm_c a -> length (cm_data b) = cm_r b * cm_c b ->
  cm_eq a b = true <-> (cm_r a, cm_c a) = (cm_r b, cm_c b) /\ forall r c, r < cm_r a -> c < cm_c a ->
    exists x y, cm_get a (r, c) = Ret (Some x) /\ cm_get b (r, c) = Ret (Some y) /\ seqb x y = true.
Proof.
  intros La Lb. unfold cm_eq. split.
  - intros E. destruct (Nat.eqb_spec (cm_r a) (cm_r b)) as [E1|]; [|discriminate]. destruct (Nat.eqb_spec (cm_c a) (cm_c b)) as [E2|]; [|discriminate].
    cbn [andb negb] in E. apply data_eqb_iff in E as [_ H]. split; [congruence|]. intros r c Hr Hc.
    assert (Hi : cm_c a * r + c < cm_r a * cm_c a) by nia.
    destruct (lookup_lt_is_Some_2 (cm_data a) (cm_c a * r + c) ltac:(lia)) as [x Ex].
    destruct (lookup_lt_is_Some_2 (cm_data b) (cm_c a * r + c) ltac:(rewrite Lb, <- E1, <- E2; lia)) as [y Ey].
    exists x, y. unfold cm_get, cm_pos. cbn [fst snd]. rewrite <- E1, <- E2.
    rewrite (proj2 (Nat.leb_gt _ _) Hr), (proj2 (Nat.leb_gt _ _) Hc). cbn [orb].
    rewrite (idx_lookup _ _ _ Ex), (idx_lookup _ _ _ Ey). cbn [mbind out_bind]. split; [reflexivity|]. split; [reflexivity|]. exact (H _ _ _ Ex Ey).
  - intros [Hs H]. apply pair_equal_spec in Hs as [E1 E2]. rewrite E1, E2, !Nat.eqb_refl. cbn [andb negb]. apply data_eqb_iff.
    split; [congruence|]. intros i x y Ex Ey. pose proof (lookup_lt_Some _ _ _ Ex) as Hi. rewrite La in Hi.
    assert (Hc0 : cm_c a <> 0) by nia. pose proof (Nat.div_mod i (cm_c a) Hc0) as Hd. pose proof (Nat.mod_upper_bound i (cm_c a) Hc0) as Hm.
    assert (Hr : i / cm_c a < cm_r a) by (apply Nat.div_lt_upper_bound; lia).
    destruct (H _ _ Hr Hm) as (x' & y' & Hx & Hy & E). unfold cm_get, cm_pos in Hx, Hy. cbn [fst snd] in Hx, Hy. rewrite <- E1, <- E2 in Hy.
    rewrite (proj2 (Nat.leb_gt _ _) Hr), (proj2 (Nat.leb_gt _ _) Hm) in Hx, Hy. cbn [orb] in Hx, Hy. rewrite <- Hd in Hx, Hy.
    rewrite (idx_lookup _ _ _ Ex) in Hx. rewrite (idx_lookup _ _ _ Ey) in Hy. cbn in Hx, Hy. congruence.
Qed.

Lemma row_count C (vals : list A) q : C * q + C <= length vals ->
  length (rowS C vals q) = length (List.filter (fun v => negb (seqb v s0)) (take C (drop (C * q) vals))).
Proof.
  intros H. unfold rowS.
  assert (E : take C (drop (C * q) vals) = map (fun c => vel vals (C * q + c)) (seq 0 C)).
  { apply list_eq. intros i. destruct (decide (i < C)) as [Hi|Hi].
    - rewrite lookup_take, lookup_drop, list_lookup_fmap, lookup_seq_lt by exact Hi. cbn. apply lookup_vel. lia.
    - rewrite !lookup_ge_None_2; [reflexivity|rewrite map_length, seq_length; lia|rewrite take_length; lia]. }
  rewrite E. clear E H. induction (seq 0 C) as [|c l IH]; [reflexivity|]. cbn. destruct (negb _); cbn; now rewrite IH.
Qed.
Lemma rows_count C (vals : list A) R : R * C <= length vals ->
  length (rowsS C vals R) = length (List.filter (fun v => negb (seqb v s0)) (take (R * C) vals)).
Proof.
  induction R as [|R IH]; intros H; [reflexivity|]. rewrite rowsS_S, app_length, IH, row_count by lia.
  replace (S R * C) with (R * C + C) by lia. rewrite <- (take_drop (R * C) (take (R * C + C) vals)), List.filter_app, app_length.
  rewrite take_take, Nat.min_l by lia. f_equal. f_equal. f_equal. rewrite (Nat.mul_comm C R). rewrite take_drop_commute. f_equal.
Qed.
Lemma cr_count_flat R C (vals : list A) : R * C <= length vals -> exists m : crow A, cr_from_flat (R, C) vals = Ret m /\
  cr_count m = length (List.filter (fun v => negb (seqb v s0)) (take (R * C) vals)).
Proof.
  intros H. destruct (cr_from_flat_ret R C vals H) as (m & E & Hm & _). exists m. split; [exact E|]. unfold cr_count.
  rewrite <- rows_count by exact H. destruct Hm. congruence.
Qed.

Lemma le_count_rows (m : lenv A) : le_wf m -> exists rows, mapM_out (le_row_stored m) (seq 0 (lev_n m)) = Ret rows /\
  le_count m = sum_list (map (fun sr => length sr.2) rows).
Proof.
  intros W.
  assert (G : forall l, (forall i, i ∈ l -> i < lev_n m) -> exists rows, mapM_out (le_row_stored m) l = Ret rows /\
    map (fun sr => length sr.2) rows = map (nz (le_nnz m)) l).
  { intros l. induction l as [|i l IH]; intros Hl; [exists []; auto|]. destruct IH as (rows & E & Hr); [intros j Hj; apply Hl; now right|].
    assert (Hi : i < lev_n m) by (apply Hl; left). eexists. cbn [mapM_out]. rewrite (le_row_stored_ret m i W Hi). cbn [mbind out_bind]. rewrite E.
    cbn [mbind out_bind]. split; [reflexivity|]. cbn [map snd]. now rewrite Hr, map_length, seq_length. }
  destruct (G (seq 0 (lev_n m))) as (rows & E & Hr); [intros i Hi; apply elem_of_seq in Hi; lia|]. exists rows. split; [exact E|].
  unfold le_count. rewrite Hr, (lw_data m W), (lw_n m W). f_equal. apply list_eq. intros i. destruct (decide (i < length (le_nnz m))) as [Hi|Hi].
  - rewrite list_lookup_fmap, lookup_seq_lt by exact Hi. cbn. unfold nz. destruct (lookup_lt_is_Some_2 _ _ Hi) as [w Hw]. rewrite Hw.
    f_equal. symmetry. now apply nth_lookup_Some.
  - rewrite !lookup_ge_None_2; [reflexivity|rewrite map_length, seq_length; lia|lia].
Qed.
End counts.

Section field.
Context {A : arith} (OL : ord_laws A).
Let FL : field_laws A := ol_field A OL.
Add Field Afield75 : (fl_field A FL).

Fixpoint spow (k : A) (n : nat) : A := match n with O => s1 | S n => smul k (spow k n) end.

Lemma sprod_cons (x : A) l : sprod (x :: l) = smul x (sprod l).
Proof.
  unfold sprod. cbn. assert (G : forall (l : list A) (a : A), fold_left smul l a = smul a (fold_left smul l s1)).
  { clear l. induction l as [|y l IH]; intros a; cbn; [ring|]. rewrite (IH (smul a y)), (IH (smul s1 y)). ring. }
  rewrite G. ring.
Qed.
Lemma product_scaled (m : dg A) k : dg_product_scaled m k = smul (spow k (length (dg_data m))) (dg_product m).
Proof.
  unfold dg_product_scaled, dg_product. induction (dg_data m) as [|x l IH]; [cbn; ring|]. cbn [map length spow]. rewrite !sprod_cons, IH. ring.
Qed.
Lemma mean_sum (m : dg A) : dg_data m <> [] -> smul (sz (Z.of_nat (length (dg_data m)))) (dg_mean m) = ssum (dg_data m).
Proof.
  intros H. unfold dg_mean. destruct (dg_data m) as [|x l]; [contradiction|].
  assert (Hn : sz (Z.of_nat (length (x :: l))) <> (s0 : A)).
  { cbn [length]. rewrite Nat2Z.inj_succ, <- Z.add_1_l. intros E. pose proof (sz_pos OL (Pos.of_succ_nat (length l))) as Hp.
    replace (1 + Z.of_nat (length l))%Z with (Zpos (Pos.of_succ_nat (length l))) in E by lia. rewrite E in Hp. unfold lts in Hp. rewrite (ol_irr A OL) in Hp. discriminate. }
  field. exact Hn.
Qed.
End field.
