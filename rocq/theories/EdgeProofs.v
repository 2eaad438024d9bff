(** Graphs built from edge lists and from neighbour lists. *)
From Verif Require Export RcmProofs.

Definition lex_lt (x y : nat * nat) : Prop := x.1 < y.1 \/ (x.1 = y.1 /\ x.2 < y.2).

Lemma clean_edges_ret vc es : (forall e, e ∈ es -> e.1 < vc /\ e.2 < vc) ->
  exists l, clean_edges vc es = Ret l /\
    forall a b, (a, b) ∈ l <-> a <> b /\ ((a, b) ∈ es \/ (b, a) ∈ es).
Proof.
  intros H. unfold clean_edges.
  match goal with |- context [foldM ?F _ _] => set (body := F) end.
  destruct (foldM_list_inv (fun pre (l : list (nat * nat)) =>
     forall a b, (a, b) ∈ l <-> a <> b /\ ((a, b) ∈ pre \/ (b, a) ∈ pre)) body es []) as (l & E & Hl).
  - intros a b. split; [intros Hx; now apply elem_of_nil in Hx|]. intros (_ & [Hx|Hx]); now apply elem_of_nil in Hx.
  - intros pre [x y] post l Hsplit IH. unfold body at 1. cbn [fst snd].
    destruct (H (x, y)) as [H1 H2]; [rewrite Hsplit; apply elem_of_app; right; left|]. cbn in H1, H2.
    rewrite (proj2 (Nat.leb_gt vc x)), (proj2 (Nat.leb_gt vc y)) by assumption. cbn [orb].
    destruct (Nat.eqb_spec x y) as [Hxy|Hne].
    + eexists; split; [reflexivity|]. intros a b. rewrite IH, !elem_of_app, !elem_of_list_singleton.
      split; [tauto|]. intros (Hab & [[Hx|Hx]|[Hx|Hx]]); (split; [exact Hab|]); try tauto; injection Hx as -> ->; congruence.
    + eexists; split; [reflexivity|]. intros a b. rewrite !elem_of_app, IH, !elem_of_cons, elem_of_nil. split.
      * intros [Hx|[Hx|[Hx|[]]]]; [tauto|injection Hx as -> ->|injection Hx as -> ->]; split; auto 6.
      * intros (Hab & [[Hx|[Hx|[]]]|[Hx|[Hx|Hx]]]); [left; tauto|injection Hx as -> ->; tauto|left; tauto|injection Hx as -> ->; tauto|now apply elem_of_nil in Hx].
  - exists l. rewrite E. auto.
Qed.

Lemma clean_edges_panic vc es e : e ∈ es -> vc <= e.1 \/ vc <= e.2 -> clean_edges vc es = Panic.
Proof.
  unfold clean_edges. match goal with |- context [foldM ?F _ _] => set (body := F) end.
  generalize (@nil (nat * nat)).
  induction es as [|f es IH]; intros acc He Hb; [now apply elem_of_nil in He|]. cbn [foldM].
  assert (Hb0 : body f acc = if (vc <=? f.1) || (vc <=? f.2) then Panic
          else if f.1 =? f.2 then Ret acc else Ret (acc ++ [f; (f.2, f.1)])) by reflexivity.
  rewrite Hb0. clear Hb0.
  destruct ((vc <=? f.1) || (vc <=? f.2)) eqn:Ef; [reflexivity|].
  apply orb_false_iff in Ef as [E1 E2]. apply Nat.leb_gt in E1, E2.
  apply elem_of_cons in He as [->|He]; [lia|].
  destruct (f.1 =? f.2); cbn [mbind out_bind]; now apply IH.
Qed.

Lemma dedup_in l x : x ∈ dedup l <-> x ∈ l.
Proof.
  induction l as [|y l IH]; [reflexivity|]. destruct l as [|z l]; [reflexivity|].
  change (dedup (y :: z :: l)) with (if bool_decide (y = z) then dedup (z :: l) else y :: dedup (z :: l)).
  case_bool_decide as E; [subst|].
  - rewrite IH. rewrite !elem_of_cons. tauto.
  - rewrite elem_of_cons, IH, (elem_of_cons (z :: l)). tauto.
Qed.

Lemma dedup_sorted l : StronglySorted (fun a b => lex_le a b = true) l -> StronglySorted lex_lt (dedup l).
Proof.
  induction l as [|y l IH]; intros H; [constructor|]. inversion H as [|? ? Hs Hf]; subst. specialize (IH Hs).
  destruct l as [|z l]; [repeat constructor|].
  change (dedup (y :: z :: l)) with (if bool_decide (y = z) then dedup (z :: l) else y :: dedup (z :: l)).
  case_bool_decide as E; [exact IH|]. constructor; [exact IH|].
  assert (Hyz : lex_lt y z).
  { inversion Hf as [|? ? Hle _]; subst. unfold lex_le in Hle.
    rewrite orb_true_iff, andb_true_iff, Nat.ltb_lt, Nat.eqb_eq, Nat.leb_le in Hle.
    unfold lex_lt. destruct y as [y1 y2], z as [z1 z2]. cbn in *. assert (y1 <> z1 \/ y2 <> z2) by (destruct (decide (y1 = z1)); [right|left]; congruence). lia. }
  apply Forall_forall. intros w Hw. rewrite dedup_in in Hw. apply elem_of_cons in Hw as [->|Hw]; [exact Hyz|].
  inversion Hs as [|? ? _ Hfz]; subst. rewrite Forall_forall in Hfz. specialize (Hfz w Hw).
  unfold lex_le in Hfz. rewrite orb_true_iff, andb_true_iff, Nat.ltb_lt, Nat.eqb_eq, Nat.leb_le in Hfz.
  unfold lex_lt in *. lia.
Qed.

Definition etop (D : list (nat * nat)) : nat := match last D with Some e => S e.1 | None => 0 end.

Lemma sorted_snoc {B} (R : B -> B -> Prop) l x : StronglySorted R (l ++ [x]) -> StronglySorted R l /\ forall y, y ∈ l -> R y x.
Proof.
  induction l as [|y l IH]; intros H; [split; [constructor|]; intros z Hz; now apply elem_of_nil in Hz|].
  cbn in H. inversion H as [|? ? Hs Hf]; subst. destruct (IH Hs) as [Ha Hb]. rewrite Forall_app in Hf. destruct Hf as [Hf1 Hf2].
  split; [constructor; assumption|]. intros z Hz. apply elem_of_cons in Hz as [->|Hz]; [|now apply Hb].
  now rewrite Forall_singleton in Hf2.
Qed.

Lemma etop_bound D e : StronglySorted le (map fst D) -> e ∈ D -> e.1 < etop D.
Proof.
  intros Hs He. destruct D as [|x D _] using rev_ind; [now apply elem_of_nil in He|].
  unfold etop. rewrite last_snoc. rewrite map_app in Hs. apply sorted_snoc in Hs as [_ Hb].
  apply elem_of_app in He as [He|He].
  - specialize (Hb e.1). cbn in Hb. assert (e.1 ∈ map fst D) by (apply elem_of_list_fmap; eauto). apply Hb in H. lia.
  - apply elem_of_list_singleton in He as ->. lia.
Qed.

Lemma push_edges D : StronglySorted le (map fst D) ->
  fold_left push_edge D (Graph [] []) = Graph (map snd D) (map (cnt (map fst D)) (seq 0 (etop D))).
Proof.
  induction D as [|e D IH] using rev_ind; intros Hs; [reflexivity|].
  rewrite map_app in Hs. cbn [map] in Hs. apply sorted_snoc in Hs as [Hs Hb].
  rewrite fold_left_app, (IH Hs). cbn [fold_left]. unfold push_edge. cbn [g_adj g_ind].
  rewrite !map_length, seq_length, map_app. f_equal.
  assert (He : etop D <= S e.1).
  { unfold etop. destruct (last D) as [x|] eqn:El; [|lia].
    assert (x.1 ∈ map fst D) by (apply elem_of_list_fmap; exists x; split; [reflexivity|]; now apply last_Some_elem_of).
    apply Hb in H. lia. }
  unfold etop at 3. rewrite last_snoc. replace (S e.1) with (etop D + (S e.1 - etop D)) at 2 by lia.
  rewrite seq_app, map_app. f_equal.
  - apply map_ext_in. intros j Hj. apply in_seq in Hj. rewrite map_app, cnt_app. cbn [map]. rewrite cnt_cons.
    rewrite (proj2 (Nat.ltb_ge e.1 j)) by lia. cbn. lia.
  - apply list_eq. intros k. destruct (decide (k < S e.1 - etop D)) as [Hk|Hk].
    + rewrite lookup_replicate_2 by lia. rewrite list_lookup_fmap, lookup_seq_lt by lia. cbn [fmap option_fmap option_map].
      f_equal. rewrite map_app, cnt_app. cbn [map]. rewrite cnt_cons. rewrite (proj2 (Nat.ltb_ge e.1 _)) by lia.
      rewrite cnt_all, map_length; [cbn; lia|]. intros x Hx. apply elem_of_list_fmap in Hx as (y & -> & Hy).
      pose proof (etop_bound D y Hs Hy). lia.
    + rewrite !lookup_ge_None_2; [reflexivity|rewrite ?map_length, ?replicate_length, ?seq_length; lia..].
Qed.

Lemma slice_rows (D : list (nat * nat)) u : StronglySorted le (map fst D) ->
  take (cnt (map fst D) (u + 1) - cnt (map fst D) u) (drop (cnt (map fst D) u) D) = List.filter (fun e => e.1 =? u) D.
Proof.
  induction D as [|x D IH]; intros Hs; [reflexivity|]. cbn [map] in *. inversion Hs as [|? ? Hs' Hf]; subst.
  specialize (IH Hs'). rewrite !cnt_cons. cbn [List.filter]. rewrite Forall_forall in Hf.
  destruct (lt_eq_lt_dec x.1 u) as [[Hlt|Heq]|Hgt].
  - rewrite (proj2 (Nat.ltb_lt x.1 u)), (proj2 (Nat.ltb_lt x.1 (u + 1))), (proj2 (Nat.eqb_neq x.1 u)) by lia.
    cbn [plus drop]. rewrite <- IH. f_equal.
  - rewrite (proj2 (Nat.ltb_ge x.1 u)), (proj2 (Nat.ltb_lt x.1 (u + 1))), (proj2 (Nat.eqb_eq x.1 u)) by lia.
    assert (H0 : cnt (map fst D) u = 0) by (apply cnt_none; intros y Hy; specialize (Hf y Hy); lia).
    rewrite H0 in *. cbn [plus drop]. rewrite Nat.sub_0_r in *. cbn [take]. now rewrite <- IH.
  - rewrite (proj2 (Nat.ltb_ge x.1 u)), (proj2 (Nat.ltb_ge x.1 (u + 1))), (proj2 (Nat.eqb_neq x.1 u)) by lia.
    assert (H0 : cnt (map fst D) u = 0) by (apply cnt_none; intros y Hy; specialize (Hf y Hy); lia).
    assert (H1 : cnt (map fst D) (u + 1) = 0) by (apply cnt_none; intros y Hy; specialize (Hf y Hy); lia).
    rewrite H0, H1 in *. cbn [plus Nat.sub take]. cbn [Nat.sub take] in IH. exact IH.
Qed.

Lemma from_edges_ret vc es : (forall e, e ∈ es -> e.1 < vc /\ e.2 < vc) ->
  exists gr, from_edges vc es = Ret gr /\
    (forall u, u < vertex_count gr <-> exists a b, a <> b /\ ((a, b) ∈ es \/ (b, a) ∈ es) /\ u <= a) /\
    (forall u, u < vertex_count gr -> exists l, adjacent gr u = Ret l /\ StronglySorted lt l /\
       forall a, a ∈ l <-> u <> a /\ ((u, a) ∈ es \/ (a, u) ∈ es)).
Proof.
  intros H. unfold from_edges. destruct (clean_edges_ret vc es H) as (l & E & Hl). rewrite E. cbn [mbind out_bind].
  set (D := dedup (sort_by lex_le l)).
  assert (HD : StronglySorted lex_lt D) by (apply dedup_sorted, sort_by_sorted; [exact lex_total|exact lex_trans]).
  assert (Hin : forall a b, (a, b) ∈ D <-> a <> b /\ ((a, b) ∈ es \/ (b, a) ∈ es)).
  { intros a b. unfold D. rewrite dedup_in, sort_by_perm. apply Hl. }
  assert (Hs : StronglySorted le (map fst D)).
  { clear -HD. induction HD as [|x D' _ IH Hf]; [constructor|]. cbn. constructor; [exact IH|].
    apply Forall_fmap. eapply Forall_impl; [exact Hf|]. intros y Hy. unfold lex_lt in Hy. cbn. lia. }
  rewrite (push_edges D Hs). eexists; split; [reflexivity|].
  assert (Hvc : vertex_count (Graph (map snd D) (map (cnt (map fst D)) (seq 0 (etop D)))) = etop D).
  { unfold vertex_count; cbn. now rewrite map_length, seq_length. }
  rewrite Hvc. split.
  - intros u. split.
    + intros Hu. unfold etop in Hu. destruct (last D) as [[a b]|] eqn:El; [|lia]. exists a, b. cbn in Hu.
      apply last_Some_elem_of in El. apply Hin in El. split; [tauto|]. split; [tauto|lia].
    + intros (a & b & Hab & Hes & Hle). assert ((a, b) ∈ D) by (apply Hin; tauto). pose proof (etop_bound D (a, b) Hs H0). cbn in *. lia.
  - intros u Hu. exists (map snd (List.filter (fun e => e.1 =? u) D)). split; [|split].
    + unfold adjacent. rewrite Hvc, (proj2 (Nat.ltb_lt u (etop D)) Hu). cbn [assert_ mbind out_bind].
      unfold adj_idxs. cbn [g_ind g_adj].
      rewrite (idx_lookup _ u (cnt (map fst D) u)) by (rewrite list_lookup_fmap, lookup_seq_lt by lia; reflexivity).
      cbn [mbind out_bind fst snd].
      assert (Hd : default (length (map snd D)) (map (cnt (map fst D)) (seq 0 (etop D)) !! (u + 1)) = cnt (map fst D) (u + 1)).
      { destruct (decide (u + 1 < etop D)) as [Hlt|Hge].
        - rewrite list_lookup_fmap, lookup_seq_lt by lia. reflexivity.
        - rewrite lookup_ge_None_2 by (rewrite map_length, seq_length; lia). cbn. rewrite cnt_all; [now rewrite !map_length|].
          intros x Hx. apply elem_of_list_fmap in Hx as (y & -> & Hy). pose proof (etop_bound D y Hs Hy). lia. }
      rewrite Hd. unfold slice.
      pose proof (cnt_mono (map fst D) u (u + 1) ltac:(lia)) as Hm. pose proof (cnt_le (map fst D) (u + 1)) as Hc. rewrite map_length in Hc.
      rewrite (proj2 (Nat.leb_le _ _) Hm), map_length, (proj2 (Nat.leb_le _ _) Hc). cbn [andb]. f_equal.
      change (map snd D) with (snd <$> D). rewrite <- fmap_drop, <- fmap_take. now rewrite slice_rows.
    + clear -HD. induction HD as [|x D' _ IH Hf]; [constructor|]. cbn [List.filter].
      destruct (Nat.eqb_spec x.1 u) as [Hx|]; [|exact IH]. cbn [map]. constructor; [exact IH|].
      apply Forall_forall. intros y Hy. apply elem_of_list_fmap in Hy as (z & -> & Hz).
      rewrite elem_of_list_In, filter_In, <- elem_of_list_In in Hz. destruct Hz as [Hz Hzu]. apply Nat.eqb_eq in Hzu.
      rewrite Forall_forall in Hf. specialize (Hf z Hz). unfold lex_lt in Hf. lia.
    + intros a. rewrite elem_of_list_fmap. split.
      * intros ([x y] & -> & Hy). rewrite elem_of_list_In, filter_In, <- elem_of_list_In in Hy. destruct Hy as [Hy Hx].
        apply Nat.eqb_eq in Hx. cbn in Hx. subst x. now apply Hin.
      * intros Ha. apply Hin in Ha. exists (u, a). split; [reflexivity|].
        rewrite elem_of_list_In, filter_In, <- elem_of_list_In. split; [exact Ha|apply Nat.eqb_refl].
Qed.

Lemma from_edges_panic vc es e : e ∈ es -> vc <= e.1 \/ vc <= e.2 -> from_edges vc es = Panic.
Proof. intros H1 H2. unfold from_edges. now rewrite (clean_edges_panic vc es e). Qed.

Lemma ssorted_nodup l : StronglySorted lt l -> NoDup l.
Proof.
  induction 1 as [|x l _ IH Hf]; constructor; [|exact IH]. intros Hx. rewrite Forall_forall in Hf. specialize (Hf x Hx). lia.
Qed.

(** a graph built from edges is well formed and undirected *)
Lemma from_edges_wf vc es gr : from_edges vc es = Ret gr -> graph_wf gr /\ graph_sym gr /\
  (forall u a, a ∈ nbrs gr u <-> u <> a /\ ((u, a) ∈ es \/ (a, u) ∈ es)) /\
  (forall e, e ∈ es -> e.1 < vc /\ e.2 < vc).
Proof.
  intros E.
  assert (H : forall e, e ∈ es -> e.1 < vc /\ e.2 < vc).
  { intros e He. destruct (decide (e.1 < vc /\ e.2 < vc)) as [|Hn]; [assumption|].
    rewrite (from_edges_panic vc es e He) in E by lia. discriminate. }
  destruct (from_edges_ret vc es H) as (g2 & E2 & Hv & Ha). assert (g2 = gr) as -> by congruence.
  assert (Hnb : forall u a, a ∈ nbrs gr u <-> u <> a /\ ((u, a) ∈ es \/ (a, u) ∈ es)).
  { intros u a. destruct (decide (u < vertex_count gr)) as [Hu|Hu].
    - destruct (Ha u Hu) as (l & El & _ & Hl). unfold nbrs. rewrite El. apply Hl.
    - split.
      + intros Hx. unfold nbrs, adjacent in Hx. rewrite (proj2 (Nat.ltb_ge u (vertex_count gr))) in Hx by lia. cbn in Hx. now apply elem_of_nil in Hx.
      + intros [Hne Hes]. exfalso. apply Hu, Hv. exists u, a. auto. }
  split; [|split; [|split; [exact Hnb|exact H]]].
  - intros u Hu. destruct (Ha u Hu) as (l & El & Hs & Hl). exists l. split; [exact El|]. split; [now apply ssorted_nodup|].
    intros a Hal. apply Hl in Hal as [Hne Hes]. apply Hv. exists a, u. split; [congruence|]. split; [tauto|lia].
  - intros u a Hua. apply Hnb in Hua. apply Hnb. split; [intros ->; tauto|tauto].
Qed.

(** from_lol keeps the lists *)
Lemma from_lol_app pre l : from_lol (pre ++ [l]) = Graph (g_adj (from_lol pre) ++ l) (g_ind (from_lol pre) ++ [length (g_adj (from_lol pre))]).
Proof. unfold from_lol. rewrite fold_left_app. reflexivity. Qed.

Lemma from_lol_fields adjs : g_adj (from_lol adjs) = concat adjs /\
  g_ind (from_lol adjs) = map (fun i => length (concat (take i adjs))) (seq 0 (length adjs)).
Proof.
  induction adjs as [|l adjs [IH1 IH2]] using rev_ind; [split; reflexivity|]. rewrite from_lol_app. cbn [g_adj g_ind]. split.
  - rewrite IH1, concat_app. cbn. now rewrite app_nil_r.
  - rewrite IH1, IH2, app_length. cbn [length]. replace (length adjs + 1) with (S (length adjs)) by lia.
    rewrite seq_S_app, map_app. f_equal.
    + apply map_ext_in. intros i Hi. apply in_seq in Hi. now rewrite take_app_le by lia.
    + cbn [map]. now rewrite Nat.add_0_l, take_app.
Qed.

Lemma from_lol_ret adjs : vertex_count (from_lol adjs) = length adjs /\
  forall u, adjacent (from_lol adjs) u = match adjs !! u with Some l => Ret l | None => Panic end.
Proof.
  destruct (from_lol_fields adjs) as [H1 H2].
  assert (Hv : vertex_count (from_lol adjs) = length adjs) by (unfold vertex_count; now rewrite H2, map_length, seq_length).
  split; [exact Hv|]. intros u. unfold adjacent. rewrite Hv. destruct (adjs !! u) as [l|] eqn:El.
  - pose proof (lookup_lt_Some _ _ _ El) as Hu. rewrite (proj2 (Nat.ltb_lt _ _) Hu). cbn [assert_ mbind out_bind].
    unfold adj_idxs. rewrite H2, (idx_lookup _ u (length (concat (take u adjs)))) by (rewrite list_lookup_fmap, lookup_seq_lt by lia; reflexivity).
    cbn [mbind out_bind fst snd]. rewrite H1.
    assert (Hd : default (length (concat adjs)) (map (fun i => length (concat (take i adjs))) (seq 0 (length adjs)) !! (u + 1)) = length (concat (take (u + 1) adjs))).
    { destruct (decide (u + 1 < length adjs)) as [Hlt|Hge].
      - rewrite list_lookup_fmap, lookup_seq_lt by lia. reflexivity.
      - rewrite lookup_ge_None_2 by (rewrite map_length, seq_length; lia). cbn. now rewrite firstn_all2 by lia. }
    rewrite Hd. replace (u + 1) with (S u) by lia. rewrite (take_S_r _ _ _ El), concat_app, app_length. cbn [concat]. rewrite app_nil_r.
    assert (Hc : concat adjs = concat (take u adjs) ++ l ++ concat (drop (S u) adjs)).
    { rewrite <- (take_drop_middle adjs u l El) at 1. now rewrite concat_app. }
    rewrite Hc. unfold slice. rewrite !app_length.
    rewrite (proj2 (Nat.leb_le _ _)) by lia. rewrite (proj2 (Nat.leb_le _ _)) by lia. cbn [andb]. f_equal.
    rewrite drop_app. replace (length (concat (take u adjs)) + length l - length (concat (take u adjs))) with (length l) by lia.
    now rewrite take_app.
  - apply lookup_ge_None in El. now rewrite (proj2 (Nat.ltb_ge _ _) El).
Qed.
