(** The sides shown in pictures. *)
From Verif Require Export PlaneAsm CliMesh CliProofs Cli.

(** ** Deformed bodies *)
Definition lex_before (x y : nat * nat) : Prop := x.1 < y.1 \/ x.1 = y.1 /\ x.2 < y.2.
Lemma dedup_cons x l : Assem.dedup (x :: l) = match Assem.dedup l with y :: _ => if bool_decide (x = y) then Assem.dedup l else x :: Assem.dedup l | [] => [x] end.
Proof. cbn. destruct (Assem.dedup l) as [|y d]; [reflexivity|]. case_bool_decide; destruct (decide (x = y)); congruence. Qed.
Lemma dedup_mem l (x : nat * nat) : x ∈ Assem.dedup l <-> x ∈ l.
Proof.
  revert x. induction l as [|z l IH]; intros x; [reflexivity|]. rewrite dedup_cons, elem_of_cons, <- IH. destruct (Assem.dedup l) as [|y d]; [apply elem_of_cons|].
  case_bool_decide as E; [|apply elem_of_cons]. subst z. rewrite !elem_of_cons. tauto.
Qed.
Lemma dedup_increasing l : StronglySorted Assem.lex_le l -> StronglySorted lex_before (Assem.dedup l).
Proof.
  induction l as [|x l IH]; intros H; [constructor|]. inversion H as [|? ? Hs Hf]; subst. specialize (IH Hs).
  assert (Hm : forall y, y ∈ Assem.dedup l -> Assem.lex_le x y). { intros y Hy. apply (proj1 (dedup_mem _ _)) in Hy. exact (proj1 (Forall_forall _ _) Hf y Hy). }
  rewrite dedup_cons. destruct (Assem.dedup l) as [|y d]; [repeat constructor|]. case_bool_decide as E; [exact IH|].
  constructor; [exact IH|]. inversion IH as [|? ? _ Hd]; subst.
  assert (Hxy : lex_before x y).
  { specialize (Hm y ltac:(left)). unfold Assem.lex_le, lex_before in *. destruct x as [x1 x2], y as [y1 y2]. cbn in *.
    destruct (decide (x1 = y1)) as [->|]; [|lia]. destruct (decide (x2 = y2)) as [->|]; [congruence|lia]. }
  constructor; [exact Hxy|]. eapply Forall_impl; [exact Hd|]. intros z Hz. unfold lex_before in *. lia.
Qed.
Lemma edges_sorted {A : arith} (a : elas A) : StronglySorted lex_before (ea_edges a).
Proof.
  apply dedup_increasing. apply Sorted_StronglySorted; [intros x y z; unfold Assem.lex_le; lia|]. apply Sorted_merge_sort.
  intros x y. unfold Assem.lex_le. lia.
Qed.
Lemma edges_mem {A : arith} (a : elas A) i j : (i, j) ∈ ea_edges a <->
  exists e x y z, e ∈ ea_elems a /\ e_ids e = (x, y, z) /\ ((i, j) = (x, y) \/ (i, j) = (y, z) \/ (i, j) = (z, x)).
Proof.
  unfold ea_edges. rewrite dedup_mem, merge_sort_Permutation. rewrite elem_of_list_In, in_concat. setoid_rewrite <- elem_of_list_In. split.
  - intros (l & Hin & Hl). apply elem_of_list_fmap in Hin as (e & -> & He). unfold e_edges in Hl. destruct (e_ids e) as [[x y] z] eqn:Ee.
    exists e, x, y, z. split; [exact He|]. split; [exact Ee|]. rewrite !elem_of_cons, elem_of_nil in Hl. tauto.
  - intros (e & x & y & z & He & Ee & H). exists (e_edges e). split; [apply elem_of_list_fmap; eauto|]. unfold e_edges. rewrite Ee.
    rewrite !elem_of_cons. tauto.
Qed.

(** ** Meshes *)
Definition keep_one (X : gset edge) (e : edge) : gset edge := if bool_decide ((e.2, e.1) ∈ X) then X else {[e]} ∪ X.
Lemma keep_spec (l : list edge) : forall X, (forall e, e ∈ X -> e.1 <> e.2 -> (e.2, e.1) ∉ X) ->
  let Y := fold_left keep_one l X in
  (forall e, e ∈ Y -> e ∈ X \/ e ∈ l) /\ (forall e, e ∈ X -> e ∈ Y) /\ (forall e, e ∈ l -> e ∈ Y \/ (e.2, e.1) ∈ Y) /\
  (forall e, e ∈ Y -> e.1 <> e.2 -> (e.2, e.1) ∉ Y).
Proof.
  induction l as [|x l IH]; intros X HX Y; cbn in Y.
  - split; [auto|]. split; [auto|]. split; [|exact HX]. intros e He. now apply elem_of_nil in He.
  - assert (HX' : forall e, e ∈ keep_one X x -> e.1 <> e.2 -> (e.2, e.1) ∉ keep_one X x).
    { unfold keep_one. case_bool_decide as Hx; [exact HX|]. intros [p q] He Hne Hr. cbn in *. destruct x as [x1 x2]. cbn in *.
      apply elem_of_union in He as [He|He], Hr as [Hr|Hr].
      - apply elem_of_singleton in He, Hr. congruence.
      - apply elem_of_singleton in He. injection He as -> ->. contradiction.
      - apply elem_of_singleton in Hr. injection Hr as -> ->. contradiction.
      - now apply (HX (p, q)). }
    destruct (IH (keep_one X x) HX') as (H1 & H2 & H3 & H4). fold Y in H1, H2, H3, H4.
    split; [|split; [|split; [|exact H4]]].
    + intros e He. apply H1 in He as [He|He]; [|right; now right]. unfold keep_one in He. case_bool_decide; [auto|].
      apply elem_of_union in He as [He|He]; [|auto]. apply elem_of_singleton in He as ->. right. left.
    + intros e He. apply H2. unfold keep_one. case_bool_decide; [exact He|]. apply elem_of_union. auto.
    + intros e He. apply elem_of_cons in He as [->|He]; [|auto]. unfold keep_one in H2. case_bool_decide as Hx.
      * right. now apply H2.
      * left. apply H2. apply elem_of_union. left. now apply elem_of_singleton.
Qed.

Section mesh.
Context {A : arith} (g : geo A).
Implicit Types st : plane A.

(** [a] and [b] are joined by a side of a triangle *)
Definition side st (a b : nat) : Prop := exists t, is_Some (t_full st !! t) /\ ((a, b) ∈ tri_edges t \/ (b, a) ∈ tri_edges t).
Lemma tris_iff st e : MeshProofs.mesh_ok g st -> is_Some (t_tris st !! e) <-> exists t, is_Some (t_full st !! t) /\ e ∈ tri_edges t.
Proof.
  intros H. destruct e as [p q]. split.
  - intros [w Hw]. destruct (to_only _ _ (mo_tab _ _ H) _ _ _ Hw) as (t & Ht & Hf). exists t. split; [exact Hf|].
    apply (rots_edges _ _ _ Ht). apply in_edges. auto.
  - intros (t & Ht & He). destruct (to_found _ _ (mo_tab _ _ H) _ Ht) as (H1 & H2 & H3). apply in_edges in He as [->|[->| ->]]; eauto.
Qed.

Lemma mesh_sides (h : hashes A) st v : mesh_state g st -> hashes_ok h -> pl_visualize h st = Ret v ->
  vz_points v = map (fun v => xy_pt (tget st v)) (all_vertices st) /\ vz_tris v = None /\
  exists es, vz_edges v = match es with [] => None | _ => Some es end /\ NoDup es /\
    (forall i j, i <> j -> (i, j) ∈ es -> (j, i) ∉ es) /\
    forall i j, (i, j) ∈ es \/ (j, i) ∈ es <-> exists a b, node_of st a i /\ node_of st b j /\ side st a b.
Proof.
  intros Hst Hh E. destruct (state_inv g st Hst) as [base Hi]. pose proof (pi_mesh _ _ _ Hi) as Hm. pose proof (pi_distinct _ _ _ Hi) as Hd.
  unfold pl_visualize in E. apply bind_ret_inv in E as (es & Ee & E). apply bind_ret_inv in E as (v0 & Ev & E). injection E as <-.
  unfold vis_new in Ev. apply bind_ret_inv in Ev as (p0 & _ & Ev). destruct (existsb _ _); [discriminate|]. injection Ev as <-. cbn [set_edges vz_points vz_tris vz_edges].
  split; [reflexivity|]. split; [reflexivity|]. exists es. split; [reflexivity|].
  set (Y := fold_left keep_one (h_keys h (t_tris st)) ∅).
  change (mapM_out (fun e : edge => i ← unwrap (lookup_vertex st !! e.1); j ← unwrap (lookup_vertex st !! e.2); Ret (i, j)) (h_drain h Y) = Ret es) in Ee.
  destruct (keep_spec (h_keys h (t_tris st)) ∅) as (K1 & _ & K3 & K4); [intros e He; set_solver|]. fold Y in K1, K3, K4.
  assert (Hk : forall e, e ∈ h_keys h (t_tris st) <-> is_Some (t_tris st !! e)).
  { intros e. rewrite (ho_keys _ Hh). split.
    - intros He. apply elem_of_list_fmap in He as ([e' w] & -> & He). apply elem_of_map_to_list in He. cbn. eauto.
    - intros [w Hw]. apply elem_of_list_fmap. exists (e, w). split; [reflexivity|]. now apply elem_of_map_to_list. }
  assert (HF : Forall2 (fun (e ij : nat * nat) => node_of st e.1 ij.1 /\ node_of st e.2 ij.2) (h_drain h Y) es).
  { clear -Ee Hd. revert es Ee. induction (h_drain h Y) as [|e l IH]; intros es E; [injection E as <-; constructor|]. cbn [mapM_out] in E.
    apply bind_ret_inv in E as (ij & E1 & E). apply bind_ret_inv in E as (es' & E2 & E). injection E as <-. constructor; [|auto].
    apply bind_ret_inv in E1 as (i & Hi & E1). apply bind_ret_inv in E1 as (j & Hj & E1). injection E1 as <-. cbn.
    apply unwrap_inv in Hi, Hj. unfold lookup_vertex in Hi, Hj. apply lookup_zip_spec in Hi, Hj; auto. }
  assert (inj_n : forall u u' i, node_of st u i -> node_of st u' i -> u = u') by (unfold node_of; intros; congruence).
  assert (inj_i : forall u i i', node_of st u i -> node_of st u i' -> i = i') by (unfold node_of; intros u i i' H H'; exact (NoDup_lookup _ _ _ _ Hd H H')).
  assert (Hes : forall i j, (i, j) ∈ es <-> exists a b, node_of st a i /\ node_of st b j /\ (a, b) ∈ Y).
  { intros i j. split.
    - intros Hij. apply elem_of_list_lookup in Hij as [k Hk']. destruct (Forall2_lookup_r _ _ _ _ _ HF Hk') as ([a b] & Hl & H1 & H2). exists a, b.
      split; [exact H1|]. split; [exact H2|]. apply elem_of_list_lookup_2 in Hl. rewrite (ho_drain _ Hh) in Hl. now apply elem_of_elements.
    - intros (a & b & Ha & Hb & Hab). assert (Hl : (a, b) ∈ h_drain h Y) by (rewrite (ho_drain _ Hh); now apply elem_of_elements).
      apply elem_of_list_lookup in Hl as [k Hl]. destruct (Forall2_lookup_l _ _ _ _ _ HF Hl) as ([i' j'] & Hl' & H1 & H2). cbn in *.
      rewrite (inj_i _ _ _ Ha H1), (inj_i _ _ _ Hb H2). now apply elem_of_list_lookup_2 in Hl'. }
  split; [|split].
  - assert (Hnd : NoDup (h_drain h Y)) by (rewrite (ho_drain _ Hh); apply NoDup_elements).
    apply NoDup_alt. intros k k' [i j] Hk1 Hk2. destruct (Forall2_lookup_r _ _ _ _ _ HF Hk1) as ([a b] & L1 & A1 & B1).
    destruct (Forall2_lookup_r _ _ _ _ _ HF Hk2) as ([a' b'] & L2 & A2 & B2). cbn in *.
    rewrite (inj_n _ _ _ A2 A1), (inj_n _ _ _ B2 B1) in L2. exact (NoDup_lookup _ _ _ _ Hnd L1 L2).
  - intros i j Hne H1 H2. apply Hes in H1 as (a & b & Ha & Hb & Hab). apply Hes in H2 as (b' & a' & Hb' & Ha' & Hba).
    rewrite (inj_n _ _ _ Ha' Ha), (inj_n _ _ _ Hb' Hb) in Hba. apply (K4 (a, b) Hab); [|exact Hba]. cbn. intros ->. apply Hne. exact (inj_i _ _ _ Ha Hb).
  - intros i j. rewrite !Hes. split.
    + assert (G : forall e, e ∈ Y -> exists t, is_Some (t_full st !! t) /\ e ∈ tri_edges t).
      { intros e He. apply K1 in He as [He|He]; [set_solver|]. apply (tris_iff st e Hm). now apply Hk. }
      intros [(a & b & Ha & Hb & Hab)|(b & a & Hb & Ha & Hab)]; destruct (G _ Hab) as (t & Ht & He); exists a, b; (split; [exact Ha|]); (split; [exact Hb|]); exists t; auto.
    + intros (a & b & Ha & Hb & t & Ht & He). assert (G : (a, b) ∈ Y \/ (b, a) ∈ Y).
      { destruct He as [He|He]; [destruct (K3 (a, b)) as [H|H]|destruct (K3 (b, a)) as [H|H]]; auto; apply Hk, (tris_iff st _ Hm); eauto. }
      destruct G as [G|G]; [left; exists a, b|right; exists b, a]; auto.
Qed.

(** the corners of the triangles are vertices of the triangulation *)
Definition known st : Prop := forall u v w, t_tris st !! (u, v) = Some w -> u ∈ all_vertices st /\ v ∈ all_vertices st /\ w ∈ all_vertices st.
Lemma same_all st st' : same_verts st st' -> all_vertices st' = all_vertices st.
Proof. intros [Hb Hv]. unfold all_vertices. now rewrite Hb, Hv. Qed.
Lemma known_more st st' : t_tris st' = t_tris st -> (forall v, v ∈ all_vertices st -> v ∈ all_vertices st') -> known st -> known st'.
Proof. intros Ht Hv H u v w E. rewrite Ht in E. destruct (H _ _ _ E) as (H1 & H2 & H3). auto. Qed.
Lemma known_add st u v w st' : known st -> u ∈ all_vertices st -> v ∈ all_vertices st -> w ∈ all_vertices st -> add_triangle g st (u, v, w) = Some st' ->
  known st' /\ all_vertices st' = all_vertices st.
Proof.
  intros H Hu Hv Hw Ha. apply add_ret in Ha as (_ & _ & Hs & Ht & _). pose proof (same_all _ _ Hs) as Ea. split; [|exact Ea].
  intros a b c E. rewrite Ea. rewrite Ht in E. apply tris_add_lookup in E. cbn [fst snd] in E.
  destruct E as [[Ee ->]|[[Ee ->]|[[Ee ->]|[_ E]]]]; try (injection Ee as -> ->; auto). exact (H _ _ _ E).
Qed.
Lemma known_del st t st' : known st -> delete_triangle st t = Some st' -> known st' /\ all_vertices st' = all_vertices st.
Proof.
  intros H Hd. unfold delete_triangle in Hd. case_bool_decide; [|discriminate]. injection Hd as <-. split; [|reflexivity].
  intros a b c E. cbn in E. repeat (apply lookup_delete_Some in E as [_ E]). exact (H _ _ _ E).
Qed.
Lemma dig_known : forall fuel u v w st st', known st -> u ∈ all_vertices st -> v ∈ all_vertices st -> w ∈ all_vertices st ->
  dig g fuel u v w st = Ret st' -> known st' /\ all_vertices st' = all_vertices st.
Proof.
  induction fuel as [|fuel IH]; intros u v w st st' H Hu Hv Hw E; [discriminate|]. cbn [dig] in E.
  assert (Hadd : unwrap (add_triangle g st (u, v, w)) = Ret st' -> known st' /\ all_vertices st' = all_vertices st).
  { intros Ha. apply unwrap_inv in Ha. exact (known_add _ _ _ _ _ H Hu Hv Hw Ha). }
  destruct (_ || _); [auto|]. unfold pl_adjacent in E. destruct (t_tris st !! (w, v)) as [x|] eqn:Ex; [|auto]. destruct (H _ _ _ Ex) as (_ & _ & Hx).
  assert (Hdeep : (s ← unwrap (delete_triangle st (w, v, x)); s ← dig g fuel u v x s; dig g fuel u x w s) = Ret st' -> known st' /\ all_vertices st' = all_vertices st).
  { intros Ed. apply bind_ret_inv in Ed as (s1 & E1 & Ed). apply unwrap_inv in E1. apply bind_ret_inv in Ed as (s2 & E2 & Ed).
    destruct (known_del _ _ _ H E1) as [H1 A1]. rewrite <- A1 in Hu, Hv, Hw, Hx. destruct (IH _ _ _ _ _ H1 Hu Hv Hx E2) as [H2 A2].
    rewrite <- A2 in Hu, Hv, Hw, Hx. destruct (IH _ _ _ _ _ H2 Hu Hx Hw Ed) as [H3 A3]. split; [exact H3|congruence]. }
  destruct (is_negative _); [auto|]. apply bind_ret_inv in E as (ins & Ei & E). destruct ins; auto.
Qed.
Lemma gift_known (pk : pick_fn) : pick_ok pk -> forall fuel st X lost r, known st -> (forall e, e ∈ X -> e.1 ∈ all_vertices st /\ e.2 ∈ all_vertices st) ->
  gift_loop g pk fuel st X lost = Ret r -> known r.1.
Proof.
  intros Hp. induction fuel as [|fuel IH]; intros st X lost r H HX E; [discriminate|]. cbn [gift_loop] in E.
  case_bool_decide as HE; [injection E as <-; exact H|].
  apply bind_ret_inv in E as (e & Hpk & E). pose proof (pick_inv _ _ _ _ Hp HE Hpk) as He. destruct (HX e He) as [He1 He2].
  apply bind_ret_inv in E as (o & Ho & E). destruct o as [[[t a] b]|].
  - apply finish_ret in Ho as (x & Hx & -> & -> & ->). apply bind_ret_inv in E as (s1 & Ha & E). apply unwrap_inv in Ha.
    destruct (known_add _ _ _ _ _ H He1 He2 Hx Ha) as [H1 A1]. refine (IH _ _ _ _ H1 _ E). rewrite A1.
    intros f Hf. apply toggle_in2 in Hf as [Hf|[->| ->]]; [now apply HX|..]; cbn; auto.
  - refine (IH _ _ _ _ H _ E). intros f Hf. apply HX. set_solver.
Qed.
Lemma wall_ends (b : bound A) base cs s : bd_inv b base cs -> s ∈ edges_of cs -> s.1 ∈ b_verts b /\ s.2 ∈ b_verts b.
Proof.
  intros H Hs. split; apply (bi_stored _ _ _ H).
  - rewrite <- edges_fst. apply elem_of_list_fmap. eauto.
  - rewrite <- edges_snd. apply elem_of_list_fmap. eauto.
Qed.
Lemma state_known st : mesh_state g st -> known st.
Proof.
  induction 1 as [b polys pk fuel r Hb Hp E|st p H IH|st p H IH|st fuel u t st' H IH Hu E|st fuel s r H IH E].
  - destruct (bd_built_inv g b polys Hb) as (base & cs & Hi & _). unfold gift_wrap in E. cbn [pl_new t_bound t_verts t_full] in E.
    apply bind_ret_inv in E as (ws & Ew & E). destruct (walls_ret _ _ _ _ Hi Ew) as (-> & _ & _).
    refine (gift_known pk Hp fuel _ _ _ _ _ _ E).
    + intros u v w Hl. cbn in Hl. now rewrite lookup_empty in Hl.
    + intros e He. apply elem_of_list_to_set in He. destruct (wall_ends _ _ _ _ Hi He). unfold all_vertices. cbn. auto.
  - apply (known_more st); auto.
  - apply (known_more st); [reflexivity| |exact IH]. intros v. unfold pl_store_vertex, all_vertices. cbn. rewrite !elem_of_app. tauto.
  - destruct t as [[v w] x]. unfold insert_vertex in E. cbn [fst snd] in E. apply bind_ret_inv in E as (s0 & E0 & E). apply unwrap_inv in E0.
    assert (Ht : v ∈ all_vertices st /\ w ∈ all_vertices st /\ x ∈ all_vertices st).
    { unfold delete_triangle in E0. case_bool_decide as Hx; [|discriminate]. exact (IH _ _ _ Hx). }
    destruct Ht as (Hv & Hw & Hx). destruct (known_del _ _ _ IH E0) as [H0 A0]. rewrite <- A0 in Hu, Hv, Hw, Hx.
    apply bind_ret_inv in E as (s1 & E1 & E). apply bind_ret_inv in E as (s2 & E2 & E).
    destruct (dig_known _ _ _ _ _ _ H0 Hu Hv Hw E1) as [H1 A1]. rewrite <- A1 in Hu, Hv, Hw, Hx.
    destruct (dig_known _ _ _ _ _ _ H1 Hu Hw Hx E2) as [H2 A2]. rewrite <- A2 in Hu, Hv, Hw, Hx.
    exact (proj1 (dig_known _ _ _ _ _ _ H2 Hu Hx Hv E)).
  - unfold ruppert_split_segment in E. apply bind_ret_inv in E as (x & Ex & E). apply unwrap_inv in Ex.
    assert (Hsx : s.1 ∈ all_vertices st /\ s.2 ∈ all_vertices st /\ x ∈ all_vertices st). { destruct s as [p q]. exact (IH _ _ _ Ex). }
    apply bind_ret_inv in E as (s0 & E0 & E). apply unwrap_inv in E0. destruct (known_del _ _ _ IH E0) as [H0 A0].
    apply bind_ret_inv in E as (rb & Es & E). apply bind_ret_inv in E as (s1 & E1 & E). apply bind_ret_inv in E as (s2 & E2 & E). injection E as <-. cbn [fst].
    assert (Hs : t_tris (with_bound s0 rb.1) = t_tris s0 /\ all_vertices (with_bound s0 rb.1) = all_vertices s0 ++ [rb.2.1.1.2]).
    { unfold split_segment in Es. apply bind_ret_inv in Es as ([] & _ & Es). cbn [store_vertex vertex_new] in Es.
      destruct (take_attr _ s) as [fs df] in Es. destruct (take_attr _ s) as [ds dc] in Es. injection Es as <-. unfold all_vertices. cbn. split; [reflexivity|]. now rewrite app_assoc. }
    destruct Hs as [Hst Hsa]. set (s0' := with_bound s0 rb.1) in *.
    assert (Hin : forall z, z ∈ all_vertices st -> z ∈ all_vertices s0'). { intros z. rewrite Hsa, elem_of_app, A0. auto. }
    assert (Hm : rb.2.1.1.2 ∈ all_vertices s0') by (rewrite Hsa, elem_of_app; right; left).
    assert (Hk : known s0'). { apply (known_more s0); [exact Hst| |exact H0]. intros z. rewrite Hsa, elem_of_app. auto. }
    destruct Hsx as (H1 & H2 & H3). apply Hin in H1, H2, H3. destruct (dig_known _ _ _ _ _ _ Hk Hm H2 H3 E1) as [K1 A1]. rewrite <- A1 in H1, H2, H3, Hm.
    exact (proj1 (dig_known _ _ _ _ _ _ K1 Hm H3 H1 E2)).
Qed.

(** the picture never fails, once there is a vertex *)
Lemma picture_total (h : hashes A) st : mesh_state g st -> hashes_ok h -> all_vertices st <> [] -> exists v, pl_visualize h st = Ret v.
Proof.
  intros Hst Hh Hne. pose proof (state_known st Hst) as Hk. destruct (state_inv g st Hst) as [base Hi]. pose proof (pi_distinct _ _ _ Hi) as Hd.
  unfold pl_visualize. set (Y := fold_left _ (h_keys h (t_tris st)) ∅).
  assert (HY : forall e, e ∈ h_drain h Y -> e.1 ∈ all_vertices st /\ e.2 ∈ all_vertices st).
  { intros e He. rewrite (ho_drain _ Hh) in He. apply elem_of_elements in He.
    destruct (keep_spec (h_keys h (t_tris st)) ∅) as (K1 & _); [intros x Hx; set_solver|]. apply K1 in He as [He|He]; [set_solver|].
    rewrite (ho_keys _ Hh) in He. apply elem_of_list_fmap in He as ([[p q] w] & -> & He). apply elem_of_map_to_list in He. destruct (Hk _ _ _ He) as (? & ? & _). auto. }
  assert (Hm : exists es, mapM_out (fun e : edge => i ← unwrap (lookup_vertex st !! e.1); j ← unwrap (lookup_vertex st !! e.2); Ret (i, j)) (h_drain h Y) = Ret es).
  { clearbody Y. induction (h_drain h Y) as [|e l IH]; [eexists; reflexivity|]. cbn [mapM_out].
    assert (Hl : forall x, x ∈ all_vertices st -> exists i, lookup_vertex st !! x = Some i).
    { intros x Hx. apply elem_of_list_lookup in Hx as [i Hx]. exists i. unfold lookup_vertex. now apply lookup_zip_spec. }
    destruct (HY e ltac:(left)) as [H1 H2]. destruct (Hl _ H1) as [i ->]. destruct (Hl _ H2) as [j ->]. cbn [unwrap mbind out_bind].
    destruct IH as [es ->]; [|cbn; eauto]. intros e' He'. apply HY. now right. }
  destruct Hm as [es ->]. cbn [mbind out_bind]. destruct (all_vertices st) as [|v0 vs] eqn:Ev; [congruence|]. unfold vis_new. cbn [map idx lookup list_lookup mbind out_bind].
  change (idx (xy_pt (tget st v0) :: map (fun v1 : nat => xy_pt (tget st v1)) vs) 0) with (Ret (xy_pt (tget st v0))). cbn [mbind out_bind].
    match goal with |- context [existsb ?f ?l] => assert (X : existsb f l = false) end; [|rewrite X; cbn; eauto].
  cbn. clear. induction vs as [|v vs IH]; [reflexivity|exact IH].
Qed.
End mesh.

Lemma side_corners {A : arith} (st : plane A) a b : a <> b -> side st a b <-> exists x y z, is_Some (t_full st !! (x, y, z)) /\ a ∈ [x; y; z] /\ b ∈ [x; y; z].
Proof.
  intros Hn. split.
  - intros ([[x y] z] & Ht & H). exists x, y, z. split; [exact Ht|]. rewrite !in_edges in H. cbn [fst snd] in H. rewrite !elem_of_cons, !elem_of_nil.
    destruct H as [[E|[E|E]]|[E|[E|E]]]; injection E as -> ->; tauto.
  - intros (x & y & z & Ht & Ha & Hb). exists (x, y, z). split; [exact Ht|]. rewrite !in_edges. cbn [fst snd].
    rewrite !elem_of_cons, !elem_of_nil in Ha, Hb. destruct Ha as [->|[->|[->|[]]]], Hb as [->|[->|[->|[]]]]; try congruence; tauto.
Qed.
Lemma mesh_picture {A : arith} (g : geo A) (h : hashes A) st : mesh_state g st -> hashes_ok h -> all_vertices st <> [] ->
  exists v es, pl_visualize h st = Ret v /\ vz_points v = map (fun v => xy_pt (tget st v)) (all_vertices st) /\ vz_tris v = None /\
    vz_edges v = match es with [] => None | _ => Some es end /\ NoDup es /\
    (forall i j, i <> j -> (i, j) ∈ es -> (j, i) ∉ es) /\
    forall i j, i <> j -> (i, j) ∈ es \/ (j, i) ∈ es <->
      exists a b x y z, all_vertices st !! i = Some a /\ all_vertices st !! j = Some b /\ is_Some (t_full st !! (x, y, z)) /\ a ∈ [x; y; z] /\ b ∈ [x; y; z].
Proof.
  intros Hst Hh Hne. destruct (picture_total g h st Hst Hh Hne) as [v E]. destruct (mesh_sides g h st v Hst Hh E) as (H1 & H2 & es & H3 & H4 & H5 & H6).
  exists v, es. split; [exact E|]. split; [exact H1|]. split; [exact H2|]. split; [exact H3|]. split; [exact H4|]. split; [exact H5|].
  destruct (state_inv g st Hst) as [base Hi]. pose proof (pi_distinct _ _ _ Hi) as Hd.
  intros i j Hn. rewrite H6. split.
  - intros (a & b & Ha & Hb & Hs). assert (Hab : a <> b). { intros ->. apply Hn. exact (NoDup_lookup _ _ _ _ Hd Ha Hb). }
    apply side_corners in Hs as (x & y & z & Ht & Hx & Hy); [|exact Hab]. exists a, b, x, y, z. auto.
  - intros (a & b & x & y & z & Ha & Hb & Ht & Hx & Hy). exists a, b. split; [exact Ha|]. split; [exact Hb|].
    assert (Hab : a <> b). { intros ->. apply Hn. exact (NoDup_lookup _ _ _ _ Hd Ha Hb). }
    apply side_corners; [exact Hab|]. eauto 10.
Qed.
Lemma result_picture {A : arith} (a : elas A) disp scale v : dfm_visualize a disp scale = Ret v ->
  displaced_nodes a disp scale = Ret (vz_points v) /\ vz_tris v = match ea_elems a with [] => None | _ => Some (map e_ids (ea_elems a)) end /\
  exists es, vz_edges v = match es with [] => None | _ => Some es end /\
    StronglySorted lex_before es /\ forall i j, (i, j) ∈ es <->
      exists e x y z, e ∈ ea_elems a /\ e_ids e = (x, y, z) /\ ((i, j) = (x, y) \/ (i, j) = (y, z) \/ (i, j) = (z, x)).
Proof.
  intros E. unfold dfm_visualize in E. apply bind_ret_inv in E as (nodes & En & E). apply bind_ret_inv in E as (v0 & Ev & E). injection E as <-.
  unfold vis_new in Ev. apply bind_ret_inv in Ev as (p0 & _ & Ev). destruct (existsb _ _); [discriminate|]. injection Ev as <-.
  cbn [set_edges set_triangles vz_points vz_tris vz_edges]. split; [exact En|]. split.
  - replace (ea_triangles a) with (map e_ids (ea_elems a)); [destruct (ea_elems a); reflexivity|].
    unfold ea_triangles. induction (ea_elems a) as [|e l IH]; [reflexivity|]. cbn [map concat e_triangles app]. now rewrite IH.
  - exists (ea_edges a). split; [destruct (ea_edges a); reflexivity|]. split; [apply edges_sorted|]. intros i j. apply edges_mem.
Qed.
