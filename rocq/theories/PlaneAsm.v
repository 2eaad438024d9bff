(** The element model assembled from a mesh. *)
From Verif Require Export PlaneTop AssemProofs.

Lemma lookup_zip_spec (vs : list nat) v i : NoDup vs ->
  (list_to_map (rev (zip vs (seq 0 (length vs)))) : gmap nat nat) !! v = Some i <-> vs !! i = Some v.
Proof.
  intros H. assert (Hf : (zip vs (seq 0 (length vs))).*1 = vs) by (apply fst_zip; rewrite seq_length; lia).
  assert (Hn : NoDup (rev (zip vs (seq 0 (length vs)))).*1).
  { change (NoDup (map fst (rev (zip vs (seq 0 (length vs)))))). rewrite map_rev. apply NoDup_ListNoDup, NoDup_rev, NoDup_ListNoDup.
    change (NoDup (zip vs (seq 0 (length vs))).*1). now rewrite Hf. }
  rewrite <- elem_of_list_to_map by exact Hn. rewrite elem_of_list_In, <- in_rev, <- elem_of_list_In, elem_of_list_lookup. split.
  - intros (k & Hk). apply lookup_zip_with_Some in Hk as (x & y & [= <- <-] & Hx & Hy). apply lookup_seq in Hy as [-> _]. exact Hx.
  - intros Hv. exists i. apply lookup_zip_with_Some. exists v, i. split; [reflexivity|]. split; [exact Hv|].
    apply lookup_seq. split; [reflexivity|]. now apply lookup_lt_Some in Hv.
Qed.

Section asm.
Context {A : arith}.
Implicit Types (st : plane A) (a : elas A).

Lemma elems_fold (lk : gmap nat nat) : forall (ot : list tri) a a',
  foldM (fun (t : tri) a => i ← unwrap (lk !! t.1.1); j ← unwrap (lk !! t.1.2); k ← unwrap (lk !! t.2); add_element a (i, j, k)) ot a = Ret a' ->
  ea_nodes a' = ea_nodes a /\ ea_cons a' = ea_cons a /\ ea_conc a' = ea_conc a /\ ea_line a' = ea_line a /\ ea_mat a' = ea_mat a /\ ea_cond a' = ea_cond a /\
  exists es, ea_elems a' = ea_elems a ++ es /\
    Forall2 (fun (t : tri) e => exists i j k p q r, lk !! t.1.1 = Some i /\ lk !! t.1.2 = Some j /\ lk !! t.2 = Some k /\
      ea_nodes a !! i = Some p /\ ea_nodes a !! j = Some q /\ ea_nodes a !! k = Some r /\ e = El (i, j, k) (p, q, r) (ea_mat a) (ea_cond a)) ot es.
Proof.
  induction ot as [|t ot IH]; intros a a' E; cbn [foldM] in E.
  - injection E as <-. repeat (split; [reflexivity|]). exists []. rewrite app_nil_r. split; [reflexivity|constructor].
  - apply bind_ret_inv in E as (a1 & E1 & E). apply bind_ret_inv in E1 as (i & Ei & E1). apply bind_ret_inv in E1 as (j & Ej & E1). apply bind_ret_inv in E1 as (k & Ek & E1).
    apply unwrap_inv in Ei, Ej, Ek. unfold add_element in E1. apply bind_ret_inv in E1 as (e & Eb & E1). apply bind_ret_inv in E1 as (jr & _ & E1).
    destruct (sltb jr s0); [discriminate|]. injection E1 as <-.
    unfold build_element in Eb. apply bind_ret_inv in Eb as (p & Hp & Eb). apply bind_ret_inv in Eb as (q & Hq & Eb). apply bind_ret_inv in Eb as (r & Hr & Eb).
    injection Eb as <-. unfold ea_node in *. cbn [fst snd] in *. apply idx_inv in Hp, Hq, Hr.
    destruct (IH _ _ E) as (N1 & N2 & N3 & N4 & N5 & N6 & es & Hes & F). cbn [ea_nodes ea_cons ea_conc ea_line ea_mat ea_cond ea_elems] in *.
    repeat (split; [assumption|]). eexists (_ :: es). rewrite Hes, <- app_assoc. split; [reflexivity|]. constructor; [|exact F].
    exists i, j, k, p, q, r. repeat (split; [assumption|]). reflexivity.
Qed.

Lemma cons_fold (lk : gmap nat nat) (cons : gmap nat (constr A)) : (forall u v i, lk !! u = Some i -> lk !! v = Some i -> u = v) ->
  forall oc a a', NoDup oc ->
  foldM (fun v a => match cons !! v with Some c => i ← unwrap (lk !! v); add_constraint a i c | None => Ret a end) oc a = Ret a' ->
  ea_nodes a' = ea_nodes a /\ ea_elems a' = ea_elems a /\ ea_conc a' = ea_conc a /\ ea_line a' = ea_line a /\ ea_mat a' = ea_mat a /\ ea_cond a' = ea_cond a /\
  length (ea_cons a') = length (ea_cons a) /\
  forall v i, lk !! v = Some i -> ea_cons a' !! i = match (if decide (v ∈ oc) then cons !! v else None) with
    | Some c => (fun old => Assem.combine old c) <$> ea_cons a !! i | None => ea_cons a !! i end.
Proof.
  intros Hlk. induction oc as [|u oc IH]; intros a a' Hnd E; cbn [foldM] in E.
  - injection E as <-. repeat (split; [reflexivity|]). intros v i _. rewrite decide_False by apply not_elem_of_nil. reflexivity.
  - apply NoDup_cons in Hnd as [Hu Hnd]. apply bind_ret_inv in E as (a1 & E1 & E). destruct (IH _ _ Hnd E) as (M1 & M2 & M3 & M4 & M5 & M6 & M7 & M8).
    destruct (cons !! u) as [c|] eqn:Hc.
    + apply bind_ret_inv in E1 as (iu & Ei & E1). apply unwrap_inv in Ei. unfold add_constraint in E1. apply bind_ret_inv in E1 as (old & Ho & E1).
      apply bind_ret_inv in E1 as (cs & Hcs & E1). injection E1 as <-. apply idx_inv in Ho. apply set_inv in Hcs as [Hlt ->].
      cbn [ea_nodes ea_cons ea_conc ea_line ea_mat ea_cond ea_elems] in *. repeat (split; [assumption|]). split; [rewrite M7, insert_length; reflexivity|].
      intros v i Hv. rewrite (M8 v i Hv). destruct (decide (v = u)) as [->|Hne].
      * assert (i = iu) as -> by congruence. rewrite decide_False by assumption. rewrite decide_True by left. rewrite Hc, Ho. cbn.
        apply list_lookup_insert. exact Hlt.
      * assert (Hni : iu <> i) by (intros ->; apply Hne, (Hlk _ _ _ Hv Ei)). rewrite !list_lookup_insert_ne by exact Hni.
        destruct (decide (v ∈ oc)) as [Hin|Hin]; [rewrite decide_True by now right|rewrite decide_False by (rewrite elem_of_cons; tauto)]; reflexivity.
    + injection E1 as <-. repeat (split; [assumption|]). intros v i Hv. rewrite (M8 v i Hv). destruct (decide (v = u)) as [->|Hne].
      * rewrite decide_False by assumption. rewrite decide_True by left. now rewrite Hc.
      * destruct (decide (v ∈ oc)) as [Hin|Hin]; [rewrite decide_True by now right|rewrite decide_False by (rewrite elem_of_cons; tauto)]; reflexivity.
Qed.

Lemma force_fold (lk : gmap nat nat) : (forall u v i, lk !! u = Some i -> lk !! v = Some i -> u = v) ->
  forall (l : list (segment * point A)) a a', NoDup (l.*1) ->
  foldM (fun (sf : segment * point A) a => i ← unwrap (lk !! sf.1.1); j ← unwrap (lk !! sf.1.2); Ret (add_dist_line_force a i j sf.2)) l a = Ret a' ->
  ea_nodes a' = ea_nodes a /\ ea_elems a' = ea_elems a /\ ea_conc a' = ea_conc a /\ ea_cons a' = ea_cons a /\ ea_mat a' = ea_mat a /\ ea_cond a' = ea_cond a /\
  forall i j f, ea_line a' !! (i, j) = Some f <->
    (exists u v, lk !! u = Some i /\ lk !! v = Some j /\ ((u, v), f) ∈ l) \/
    (ea_line a !! (i, j) = Some f /\ forall u v f', lk !! u = Some i -> lk !! v = Some j -> ((u, v), f') ∉ l).
Proof.
  intros Hlk. induction l as [|[[u v] f] l IH]; intros a a' Hnd E; cbn [foldM] in E.
  - injection E as <-. repeat (split; [reflexivity|]). intros i j f. split.
    + intros H. right. split; [exact H|]. intros ? ? ? _ _. apply not_elem_of_nil.
    + intros [(? & ? & _ & _ & H)|[H _]]; [now apply elem_of_nil in H|exact H].
  - cbn [fmap list_fmap fst] in Hnd. apply NoDup_cons in Hnd as [Hu Hnd]. cbn [fst snd] in E.
    apply bind_ret_inv in E as (a1 & E1 & E). apply bind_ret_inv in E1 as (iu & Ei & E1). apply bind_ret_inv in E1 as (iv & Ej & E1).
    apply unwrap_inv in Ei, Ej. injection E1 as <-. destruct (IH _ _ Hnd E) as (M1 & M2 & M3 & M4 & M5 & M6 & M7).
    unfold add_dist_line_force in *. cbn [ea_nodes ea_cons ea_conc ea_line ea_mat ea_cond ea_elems] in *. repeat (split; [assumption|]).
    intros i j f'. rewrite M7. split.
    + intros [(p & q & Hp & Hq & H)|[H Hno]].
      * left. exists p, q. repeat split; try assumption. now right.
      * destruct (decide ((iu, iv) = (i, j))) as [[= -> ->]|Hne].
        -- rewrite lookup_insert in H. injection H as <-. left. exists u, v. repeat split; try assumption. left.
        -- rewrite lookup_insert_ne in H by exact Hne. right. split; [exact H|]. intros p q f2 Hp Hq Hin. apply elem_of_cons in Hin as [[= -> -> ->]|Hin].
           ++ apply Hne. congruence.
           ++ now apply (Hno p q f2).
    + intros [(p & q & Hp & Hq & H)|[H Hno]].
      * apply elem_of_cons in H as [[= -> -> ->]|H].
        -- right. assert (i = iu) as -> by congruence. assert (j = iv) as -> by congruence. split; [apply lookup_insert|].
           intros p q f2 Hp' Hq' Hin. assert (p = u) as -> by (now apply (Hlk _ _ iu)). assert (q = v) as -> by (now apply (Hlk _ _ iv)).
           apply Hu. apply elem_of_list_fmap. exists ((u, v), f2). auto.
        -- left. exists p, q. auto.
      * right. split.
        -- rewrite lookup_insert_ne; [exact H|]. intros [= -> ->]. apply (Hno u v f Ei Ej). left.
        -- intros p q f2 Hp Hq Hin. apply (Hno p q f2 Hp Hq). now right.
Qed.

(** what [all_constraints] holds: some distributed support touching the vertex, otherwise the vertex's own *)
Lemma all_constraints_spec (b : bound A) os v : os ≡ₚ (map_to_list (b_dcons b)).*1 ->
  (exists s c, b_dcons b !! s = Some c /\ (s.1 = v \/ s.2 = v) /\ all_constraints b os !! v = Some c) \/
  ((forall s, is_Some (b_dcons b !! s) -> s.1 <> v /\ s.2 <> v) /\ all_constraints b os !! v = b_cons b !! v).
Proof.
  intros Ho. assert (Hall : forall s, is_Some (b_dcons b !! s) -> s ∈ os).
  { intros s [c Hc]. rewrite Ho. apply elem_of_list_fmap. exists (s, c). split; [reflexivity|]. now apply elem_of_map_to_list. }
  enough (K : forall os m, (exists s c, s ∈ os /\ b_dcons b !! s = Some c /\ (s.1 = v \/ s.2 = v) /\
      fold_left (fun (m : gmap nat (constr A)) (s : segment) => match b_dcons b !! s with Some c => <[s.2 := c]> (<[s.1 := c]> m) | None => m end) os m !! v = Some c) \/
    ((forall s, s ∈ os -> is_Some (b_dcons b !! s) -> s.1 <> v /\ s.2 <> v) /\
      fold_left (fun (m : gmap nat (constr A)) (s : segment) => match b_dcons b !! s with Some c => <[s.2 := c]> (<[s.1 := c]> m) | None => m end) os m !! v = m !! v)).
  { destruct (K os (b_cons b)) as [(s & c & _ & H)|[H1 H2]]; [left; eauto|right]. split; [|exact H2]. intros s Hs. apply H1; auto. }
  clear Ho Hall os. induction os as [|s os IH]; intros m; cbn [fold_left].
  - right. split; [|reflexivity]. intros s Hs. now apply elem_of_nil in Hs.
  - match goal with |- context [fold_left _ os ?m'] => destruct (IH m') as [(s' & c & Hin & H)|[H1 H2]] end.
    + left. exists s', c. split; [now right|exact H].
    + destruct (b_dcons b !! s) as [c|] eqn:Hc.
      * destruct (decide (s.1 = v \/ s.2 = v)) as [Hv|Hv].
        -- left. exists s, c. split; [left|]. split; [exact Hc|]. split; [exact Hv|]. rewrite H2. destruct (decide (s.2 = v)) as [<-|Hn].
           ++ apply lookup_insert.
           ++ rewrite lookup_insert_ne by exact Hn. destruct Hv as [<-|?]; [apply lookup_insert|contradiction].
        -- right. split.
           ++ intros s' Hs' Hsome. apply elem_of_cons in Hs' as [->|Hs']; [tauto|now apply H1].
           ++ rewrite H2, !lookup_insert_ne by tauto. reflexivity.
      * right. split; [|exact H2]. intros s' Hs' Hsome. apply elem_of_cons in Hs' as [->|Hs']; [destruct Hsome; congruence|now apply H1].
Qed.

Definition node_of st (v i : nat) : Prop := all_vertices st !! i = Some v.
Lemma node_pt st v i : node_of st v i -> map (fun v => xy_pt (tget st v)) (all_vertices st) !! i = Some (xy_pt (tget st v)).
Proof. intros H. change (((fun v => xy_pt (tget st v)) <$> all_vertices st) !! i = Some (xy_pt (tget st v))). now rewrite list_lookup_fmap, H. Qed.
Lemma forces_in (b : bound A) ol s f : ol ≡ₚ (map_to_list (b_forces b)).*1 -> (s, f) ∈ all_distributed_forces b ol <-> b_forces b !! s = Some f.
Proof.
  intros Ho. unfold all_distributed_forces. rewrite elem_of_list_omap. split.
  - intros (s' & _ & E). destruct (b_forces b !! s') as [f'|] eqn:K; [|discriminate]. cbn in E. injection E as -> ->. exact K.
  - intros H. exists s. split; [|now rewrite H]. rewrite Ho. apply elem_of_list_fmap. exists (s, f). split; [reflexivity|]. now apply elem_of_map_to_list.
Qed.
Lemma forces_nodup (b : bound A) ol : ol ≡ₚ (map_to_list (b_forces b)).*1 -> NoDup (all_distributed_forces b ol).*1.
Proof.
  intros Ho. assert (Hn : NoDup ol) by (rewrite Ho; apply NoDup_fst_map_to_list). clear Ho. unfold all_distributed_forces.
  induction Hn as [|s ol Hs Hn IH]; [constructor|]. cbn [omap list_omap]. destruct (b_forces b !! s) as [f|]; [|exact IH]. cbn [fmap option_fmap option_map list_fmap fst].
  constructor; [|exact IH]. intros Hin. apply elem_of_list_fmap in Hin as ([s' f'] & -> & Hin). cbn in Hs. apply elem_of_list_omap in Hin as (s2 & Hs2 & E2).
  destruct (b_forces b !! s2); [|discriminate]. cbn in E2. injection E2 as -> ->. contradiction.
Qed.
Lemma C71_lemma (g : geo A) st ot os oc ol a :
  mesh_state g st -> ot ≡ₚ (map_to_list (t_full st)).*1 -> os ≡ₚ (map_to_list (b_dcons (t_bound st))).*1 ->
  oc ≡ₚ (map_to_list (all_constraints (t_bound st) os)).*1 -> ol ≡ₚ (map_to_list (b_forces (t_bound st))).*1 ->
  pl_assemble ot os oc ol st = Ret (Some a) ->
  ea_nodes a = map (fun v => xy_pt (tget st v)) (all_vertices st) /\ NoDup (all_vertices st) /\
  Forall2 (fun (t : tri) e => exists i j k, node_of st t.1.1 i /\ node_of st t.1.2 j /\ node_of st t.2 k /\
    e = El (i, j, k) (xy_pt (tget st t.1.1), xy_pt (tget st t.1.2), xy_pt (tget st t.2)) (ea_mat a) (ea_cond a)) ot (ea_elems a) /\
  b_mat (t_bound st) = Some (ea_mat a) /\ b_cond (t_bound st) = Some (ea_cond a) /\
  length (ea_cons a) = length (all_vertices st) /\
  (forall v i, node_of st v i ->
     (exists s c, b_dcons (t_bound st) !! s = Some c /\ (s.1 = v \/ s.2 = v) /\ ea_cons a !! i = Some c) \/
     ((forall s, is_Some (b_dcons (t_bound st) !! s) -> s.1 <> v /\ s.2 <> v) /\ ea_cons a !! i = Some (default Free (b_cons (t_bound st) !! v)))) /\
  ea_conc a = ∅ /\
  (forall i j f, ea_line a !! (i, j) = Some f <-> exists u v, node_of st u i /\ node_of st v j /\ b_forces (t_bound st) !! (u, v) = Some f).
Proof.
  intros Hm Ht Hs Hc Hl E. destruct (state_inv g st Hm) as [base Hi]. pose proof (pi_distinct _ _ _ Hi) as Hnd.
  unfold pl_assemble in E. destruct (b_mat (t_bound st)) as [mat|]; [|discriminate].
  apply bind_ret_inv in E as (cond & Ec & E). apply unwrap_inv in Ec. rewrite Ec.
  assert (Hlk : forall v i, lookup_vertex st !! v = Some i <-> node_of st v i) by (intros v i; now apply lookup_zip_spec).
  assert (Hinj : forall u v i, lookup_vertex st !! u = Some i -> lookup_vertex st !! v = Some i -> u = v).
  { intros u v i H1 H2. apply Hlk in H1, H2. unfold node_of in *. congruence. }
  set (pts := map (fun v => xy_pt (tget st v)) (all_vertices st)) in *.
  assert (Hlen : length pts = length (all_vertices st)) by apply map_length.
  apply bind_ret_inv in E as (a1 & E1 & E). apply bind_ret_inv in E as (a2 & E2 & E). apply bind_ret_inv in E as (a3 & E3 & E). injection E as <-.
  destruct (elems_fold _ _ _ _ E1) as (N1 & N2 & N3 & N4 & N5 & N6 & es & Hes & Fe).
  unfold add_nodes, ea_new in *. cbn [fst ea_nodes ea_cons ea_conc ea_line ea_mat ea_cond ea_elems app] in *.
  assert (Hoc : NoDup oc) by (rewrite Hc; apply NoDup_fst_map_to_list).
  destruct (cons_fold _ _ Hinj _ _ _ Hoc E2) as (M1 & M2 & M3 & M4 & M5 & M6 & M7 & M8).
  destruct (force_fold _ Hinj _ _ _ (forces_nodup _ _ Hl) E3) as (L1 & L2 & L3 & L4 & L5 & L6 & L7).
  rewrite L1, L2, L3, L4, L5, L6, M1, M2, M3, M5, M6, N1, N3, N5, N6, Hes.
  split; [reflexivity|]. split; [exact Hnd|]. split.
  { eapply Forall2_impl; [exact Fe|]. intros t e (i & j & k & p & q & r & H1 & H2 & H3 & H4 & H5 & H6 & ->). apply Hlk in H1, H2, H3.
    exists i, j, k. split; [exact H1|]. split; [exact H2|]. split; [exact H3|]. apply node_pt in H1, H2, H3. fold pts in H1, H2, H3.
    rewrite H1 in H4. rewrite H2 in H5. rewrite H3 in H6. injection H4 as <-. injection H5 as <-. injection H6 as <-. reflexivity. }
  split; [reflexivity|]. split; [reflexivity|]. split; [rewrite M7, N2, replicate_length; exact Hlen|]. split.
  - intros v i Hv. assert (Hlt : i < length pts) by (rewrite Hlen; apply (lookup_lt_Some _ _ _ Hv)).
    assert (Eo : ea_cons a2 !! i = Some (default Free (all_constraints (t_bound st) os !! v))).
    { rewrite (M8 v i (proj2 (Hlk v i) Hv)), N2, (lookup_replicate_2 _ _ _ Hlt). case_decide as D.
      - destruct (all_constraints (t_bound st) os !! v); reflexivity.
      - destruct (all_constraints (t_bound st) os !! v) as [c|] eqn:K; [|reflexivity]. exfalso. apply D. rewrite Hc. apply elem_of_list_fmap. exists (v, c).
        split; [reflexivity|]. now apply elem_of_map_to_list. }
    rewrite Eo. destruct (all_constraints_spec (t_bound st) os v Hs) as [(s & c & H1 & H2 & ->)|[H1 ->]]; [left; eauto|right; auto].
  - split; [reflexivity|]. intros i j f. rewrite L7, M4, N4. split.
    + intros [(u & v & Hu & Hv & H)|[H _]]; [|rewrite lookup_empty in H; discriminate]. exists u, v. apply Hlk in Hu, Hv. apply (forces_in _ _ _ _ Hl) in H. auto.
    + intros (u & v & Hu & Hv & H). left. exists u, v. apply Hlk in Hu, Hv. apply (forces_in _ _ _ _ Hl) in H. auto.
Qed.
End asm.
