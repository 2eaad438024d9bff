(** The refinement loops keep the triangulation consistent and its boundary equal to the outline. *)
From Verif Require Export MeshProofs.
From Coq Require Import Ring.

Section loops.
Context {A : arith} (g : geo A).
Implicit Types st : plane A.

Record pl_inv st (base : list loop) : Prop := {
  pi_mesh : mesh_ok g st;
  pi_bound : exists cs, bd_inv (t_bound st) base cs;
  pi_verts : forall v, v ∈ t_verts st -> v < n_pts st;
  pi_distinct : NoDup (all_vertices st) }.

Lemma pi_all st base v : pl_inv st base -> v ∈ all_vertices st -> v < n_pts st.
Proof.
  intros H Hv. unfold all_vertices in Hv. apply elem_of_app in Hv as [Hv|Hv]; [now apply (pi_verts _ _ H)|].
  destruct (pi_bound _ _ H) as [cs Hb]. now apply (bi_fresh _ _ _ Hb).
Qed.
Lemma set_range st base e : pl_inv st base -> e ∈ b_set (t_bound st) -> e.1 < n_pts st /\ e.2 < n_pts st.
Proof.
  intros H He. destruct (pi_bound _ _ H) as [cs Hb]. apply (bi_set _ _ _ Hb) in He.
  assert (K : forall v, v ∈ verts_of cs -> v < n_pts st). { intros v Hv. apply (bi_fresh _ _ _ Hb), (bi_stored _ _ _ Hb), Hv. }
  split; apply K.
  - rewrite <- edges_fst. apply elem_of_list_fmap. eauto.
  - rewrite <- edges_snd. apply elem_of_list_fmap. eauto.
Qed.
Lemma inv_same st st' base : mesh_ok g st' -> same_verts st st' -> pl_inv st base -> pl_inv st' base.
Proof.
  intros Hm [Hb Hv] H. split; [exact Hm|rewrite Hb; apply (pi_bound _ _ H)|..].
  - unfold n_pts. rewrite Hb, Hv. apply (pi_verts _ _ H).
  - unfold all_vertices. rewrite Hb, Hv. apply (pi_distinct _ _ H).
Qed.

(** more vertices do not disturb the stored triangles *)
Definition more_pts st st' : Prop :=
  t_tris st' = t_tris st /\ t_full st' = t_full st /\ exists l, b_pts (t_bound st') = b_pts (t_bound st) ++ l.
Lemma tget_more st st' v : (exists l, b_pts (t_bound st') = b_pts (t_bound st) ++ l) -> v < n_pts st -> tget st' v = tget st v.
Proof. intros [l Hl] Hv. unfold tget, vget. rewrite Hl. now apply app_nth1. Qed.
Lemma mesh_more st st' : more_pts st st' -> mesh_ok g st -> mesh_ok g st'.
Proof.
  intros (Ht & Hf & Hp) H. split; [rewrite Ht, Hf; apply (mo_tab _ _ H)|].
  intros t c Hc. rewrite Hf in Hc. destruct (mo_geo _ _ H _ _ Hc) as ((R1 & R2 & R3) & Hd & Hr).
  unfold triangle_dir, radius_of in *. rewrite !(tget_more st st') by auto. split; [|auto].
  destruct Hp as [l Hl]. unfold in_range, n_pts in *. rewrite Hl, app_length. lia.
Qed.
Lemma bd_more (b : bound A) base cs l : bd_inv b base cs -> bd_inv (with_pts b (b_pts b ++ l)) base cs.
Proof. intros H. split; try apply H. intros v Hv. cbn. rewrite app_length. pose proof (bi_fresh _ _ _ H v Hv). lia. Qed.

Lemma inv_new st base p : pl_inv st base -> pl_inv (with_bound st (vertex_new (t_bound st) p).1) base.
Proof.
  intros H. split.
  - apply (mesh_more st); [|apply H]. split; [reflexivity|]. split; [reflexivity|]. exists [p]. reflexivity.
  - destruct (pi_bound _ _ H) as [cs Hb]. exists cs. now apply bd_more.
  - intros v Hv. pose proof (pi_verts _ _ H v Hv). unfold n_pts in *. cbn. rewrite app_length. lia.
  - apply H.
Qed.
Lemma inv_store st base p : pl_inv st base -> pl_inv (pl_store_vertex st p).1 base.
Proof.
  intros H. unfold pl_store_vertex. cbn [vertex_new fst]. split.
  - apply (mesh_more st); [|apply H]. split; [reflexivity|]. split; [reflexivity|]. exists [p]. reflexivity.
  - destruct (pi_bound _ _ H) as [cs Hb]. exists cs. now apply bd_more.
  - intros v Hv. unfold n_pts. cbn in *. rewrite app_length. apply elem_of_app in Hv as [Hv|Hv].
    + pose proof (pi_verts _ _ H v Hv). unfold n_pts in *. lia.
    + apply elem_of_list_singleton in Hv. subst v. cbn. lia.
  - unfold all_vertices. cbn. rewrite <- app_assoc. assert (P : t_verts st ++ [length (b_pts (t_bound st))] ++ b_verts (t_bound st) ≡ₚ length (b_pts (t_bound st)) :: all_vertices st) by (unfold all_vertices; solve_Permutation || (rewrite app_assoc, (Permutation_app_comm (t_verts st)); reflexivity)).
    rewrite P. constructor; [|apply H]. intros Hi. pose proof (pi_all _ _ _ H Hi). unfold n_pts in *. lia.
Qed.

Section sums.
Context {R : Type} (rO rI : R) (radd rmul rsub : R -> R -> R) (ropp : R -> R).
Hypothesis RT : ring_theory rO rI radd rmul rsub ropp eq.
Add Ring RR3 : RT.
Variable W : list (xy A) -> edge -> R.
Hypothesis anti : forall pts a b, radd (W pts (a, b)) (W pts (b, a)) = rO.
Hypothesis stable : forall pts l a b, a < length pts -> b < length pts -> W (pts ++ l) (a, b) = W pts (a, b).

Definition meshed st : R := tsum rO radd (around radd (W (b_pts (t_bound st)))) (t_full st).
Definition outline_of st : R := ssum rO radd (W (b_pts (t_bound st))) (b_set (t_bound st)).
Definition excess st : R := rsub (meshed st) (outline_of st).

Lemma tsum_ext (f f' : tri -> R) (F : gmap tri A) : (forall t c, F !! t = Some c -> f t = f' t) -> tsum rO radd f F = tsum rO radd f' F.
Proof.
  intros H. unfold tsum. assert (K : forall x, x ∈ map_to_list F -> f x.1 = f' x.1). { intros [t c] Hx. apply elem_of_map_to_list in Hx. eauto. }
  revert K. generalize (map_to_list F). intros l K. induction l as [|x l IH]; [reflexivity|]. cbn. rewrite K by left. f_equal. apply IH. intros y Hy. apply K. now right.
Qed.
Lemma esum_ext (f f' : edge -> R) l : (forall e, e ∈ l -> f e = f' e) -> esum rO radd f l = esum rO radd f' l.
Proof. intros K. induction l as [|x l IH]; [reflexivity|]. cbn. rewrite K by left. f_equal. apply IH. intros y Hy. apply K. now right. Qed.

Lemma meshed_more st st' : mesh_ok g st -> more_pts st st' -> meshed st' = meshed st.
Proof.
  intros H (_ & Hf & l & Hl). unfold meshed. rewrite Hf, Hl. apply tsum_ext. intros t c Hc.
  destruct (mo_geo _ _ H _ _ Hc) as ((R1 & R2 & R3) & _). unfold around, n_pts in *. rewrite !stable by assumption. reflexivity.
Qed.
Lemma outline_more st st' base : pl_inv st base -> (exists l, b_pts (t_bound st') = b_pts (t_bound st) ++ l) ->
  b_set (t_bound st') = b_set (t_bound st) -> outline_of st' = outline_of st.
Proof.
  intros H [l Hl] Hs. unfold outline_of, ssum. rewrite Hs, Hl. apply esum_ext. intros e He. apply elem_of_elements in He.
  destruct (set_range _ _ _ H He). destruct e. now apply stable.
Qed.
Lemma excess_same st st' : same_verts st st' -> meshed st' = meshed st -> excess st' = excess st.
Proof. intros [Hb _] Hm. unfold excess. rewrite Hm. unfold outline_of. now rewrite Hb. Qed.
Lemma meshed_same st st' t : same_verts st st' ->
  tsum rO radd (around radd (W (b_pts (t_bound st)))) (t_full st') = radd (meshed st) t -> meshed st' = radd (meshed st) t.
Proof. intros [Hb _] <-. unfold meshed. now rewrite Hb. Qed.

Lemma dig_meshed fuel u v x st st' : mesh_ok g st -> in_range st (u, v, x) -> dig g fuel u v x st = Ret st' ->
  mesh_ok g st' /\ same_verts st st' /\ meshed st' = radd (meshed st) (around radd (W (b_pts (t_bound st))) (u, v, x)).
Proof.
  intros H Hr E. destruct (dig_total g rO rI radd rmul rsub ropp RT (W (b_pts (t_bound st))) (anti _) fuel u v x st st' H Hr E) as (H1 & H2 & _ & H3).
  split; [exact H1|]. split; [exact H2|]. now apply meshed_same.
Qed.
Lemma insert_excess fuel u t st st' base : pl_inv st base -> u < n_pts st -> insert_vertex g fuel u t st = Ret st' ->
  pl_inv st' base /\ same_verts st st' /\ excess st' = excess st.
Proof.
  intros H Hu E. destruct (insert_total g rO rI radd rmul rsub ropp RT (W (b_pts (t_bound st))) (anti _) fuel u t st st' (pi_mesh _ _ H) Hu E) as (H1 & H2 & _ & H3).
  split; [now apply (inv_same st)|]. split; [exact H2|]. apply (excess_same st); [exact H2|]. destruct H2 as [Hb _]. unfold meshed. now rewrite Hb.
Qed.

Lemma find_large ft fuel st h t : large_triangle (ft fuel (t_full st)) h = None -> order_ok ft -> forall c, t_full st !! t = Some c -> sltb h c = false.
Proof.
  unfold large_triangle. intros E Ho c Hc. destruct (List.find _ _) eqn:F; [discriminate|].
  apply (List.find_none _ _ F (t, c)). apply elem_of_list_In. rewrite (Ho fuel (t_full st)). now apply elem_of_map_to_list.
Qed.
Lemma find_skinny ft fuel st b h t : skinny_triangle st (ft fuel (t_full st)) b h = None -> order_ok ft -> forall c, t_full st !! t = Some c -> is_skinny st b h (t, c) = false.
Proof.
  unfold skinny_triangle. intros E Ho c Hc. destruct (List.find _ _) eqn:F; [discriminate|].
  apply (List.find_none _ _ F (t, c)). apply elem_of_list_In. rewrite (Ho fuel (t_full st)). now apply elem_of_map_to_list.
Qed.

Lemma store_excess st base p : pl_inv st base -> excess (pl_store_vertex st p).1 = excess st.
Proof.
  intros H. unfold excess. rewrite (meshed_more st); [|apply H|split; [reflexivity|split; [reflexivity|exists [p]; reflexivity]]].
  rewrite (outline_more st _ base H); [reflexivity|exists [p]; reflexivity|reflexivity].
Qed.
Lemma new_excess st base p : pl_inv st base -> excess (with_bound st (vertex_new (t_bound st) p).1) = excess st.
Proof.
  intros H. unfold excess. rewrite (meshed_more st); [|apply H|split; [reflexivity|split; [reflexivity|exists [p]; reflexivity]]].
  rewrite (outline_more st _ base H); [reflexivity|exists [p]; reflexivity|reflexivity].
Qed.

Lemma chew_loop_inv ft inner h base : order_ok ft -> forall fuel st st', pl_inv st base -> chew_loop g ft inner fuel h st = Ret st' ->
  pl_inv st' base /\ excess st' = excess st /\ b_set (t_bound st') = b_set (t_bound st) /\ forall t c, t_full st' !! t = Some c -> sltb h c = false.
Proof.
  intros Ho. induction fuel as [|fuel IH]; intros st st' H E; [discriminate|]. cbn [chew_loop] in E.
  destruct (large_triangle _ _) as [t|] eqn:L.
  - apply bind_ret_inv in E as (o & _ & E). apply bind_ret_inv in E as (p & _ & E).
    pose proof (inv_store st base p H) as Hs. pose proof (store_excess st base p H) as Ex.
    assert (Hu : (pl_store_vertex st p).2 < n_pts (pl_store_vertex st p).1). { unfold n_pts. cbn. rewrite app_length. cbn. lia. }
    destruct (pl_store_vertex st p) as [s1 c] eqn:Ep. cbn [fst snd] in *. apply bind_ret_inv in E as (s2 & Ei & E).
    destruct (insert_excess _ _ _ _ _ _ Hs Hu Ei) as (H2 & [Hb _] & E2).
    destruct (IH _ _ H2 E) as (H3 & E3 & B3 & K). split; [exact H3|]. split; [congruence|]. split; [|exact K].
    rewrite B3, Hb. unfold pl_store_vertex in Ep. cbn in Ep. injection Ep as <- <-. reflexivity.
  - injection E as <-. split; [exact H|]. split; [reflexivity|]. split; [reflexivity|]. intros t c Hc. eapply find_large; eassumption.
Qed.

(** ** Splitting a boundary segment *)
Lemma split_seg_inv fuel st s r base : pl_inv st base -> ruppert_split_segment g fuel st s = Ret r ->
  pl_inv r.1 base /\ excess r.1 = excess st.
Proof.
  intros H E. unfold ruppert_split_segment in E. destruct s as [v w]. cbn [fst snd] in E.
  apply bind_ret_inv in E as (x & Hx & E). apply bind_ret_inv in E as (s1 & Hd & E). apply bind_ret_inv in E as (q & Hq & E).
  apply bind_ret_inv in E as (s3 & D1 & E). apply bind_ret_inv in E as (s4 & D2 & E). injection E as <-. cbn [fst].
  apply unwrap_inv in Hx, Hd.
  destruct (del_total g rO rI radd rmul rsub ropp RT (W (b_pts (t_bound st))) _ _ _ (pi_mesh _ _ H) Hd) as (H1 & Hs1 & (R1 & R2 & R3) & _ & T1).
  pose proof (inv_same _ _ _ H1 Hs1 H) as I1. destruct (pi_bound _ _ I1) as [cs Hb]. destruct (inv_split _ _ _ _ _ Hb Hq) as [cs' Hb'].
  assert (Hnv : NoDup (t_verts s1 ++ b_verts (t_bound s1))) by apply I1.
  pose proof (fun v Hv => pi_all s1 base v I1 Hv) as Hall. unfold all_vertices in Hall.
  destruct (split_ret _ _ _ Hq) as (Hin & Eq). cbv zeta in Eq.
  assert (E1 : b_pts q.1 = b_pts (t_bound s1) ++ [xy_mid (vget (t_bound s1) v) (vget (t_bound s1) w)]) by (rewrite Eq; reflexivity).
  assert (E2 : b_set q.1 = set_all (b_set (t_bound s1) ∖ {[(v, w)]}) (pieces (t_bound s1) (v, w) 1)) by (rewrite Eq; reflexivity).
  assert (E3 : b_verts q.1 = b_verts (t_bound s1) ++ [n_pts s1]) by (rewrite Eq; reflexivity).
  assert (E4 : q.2.1.1.2 = n_pts s1) by (rewrite Eq; reflexivity). rewrite E4 in D1, D2. clear Eq E4.
  cbn [fst snd] in R1, R2, R3.
  pose (s2 := with_bound s1 q.1). change (with_bound s1 q.1) with s2 in D1.
  assert (M2 : more_pts s1 s2). { split; [reflexivity|]. split; [reflexivity|]. eexists. exact E1. }
  assert (N2 : n_pts s2 = S (n_pts s1)). { unfold n_pts. change (b_pts (t_bound s2)) with (b_pts q.1). rewrite E1, app_length. cbn. lia. }
  assert (N1 : n_pts s1 = n_pts st). { destruct Hs1 as [Hs1 _]. unfold n_pts. now rewrite Hs1. }
  assert (I2 : pl_inv s2 base).
  { split.
    - apply (mesh_more s1); auto.
    - exists cs'. exact Hb'.
    - intros y Hy. rewrite N2. pose proof (pi_verts _ _ I1 y Hy). lia.
    - unfold all_vertices. change (t_verts s2) with (t_verts s1). change (b_verts (t_bound s2)) with (b_verts q.1). rewrite E3, app_assoc, NoDup_app.
      split; [exact Hnv|]. split; [|apply NoDup_singleton]. intros y Hy Hy'. apply elem_of_list_singleton in Hy'. subst y. pose proof (Hall _ Hy). lia. }
  assert (Ra : in_range s2 (n_pts s1, w, x)). { unfold in_range. cbn. lia. }
  destruct (dig_meshed _ _ _ _ _ _ (pi_mesh _ _ I2) Ra D1) as (H3 & S3 & T3).
  assert (Rb : in_range s3 (n_pts s1, x, v)). { apply (range_same _ _ _ S3). unfold in_range. cbn. lia. }
  destruct (dig_meshed _ _ _ _ _ _ H3 Rb D2) as (H4 & S4 & T4). pose proof (same_trans _ _ _ S3 S4) as S24.
  split; [now apply (inv_same s2)|].
  assert (P3 : b_pts (t_bound s3) = b_pts (t_bound s2)) by (destruct S3 as [S3 _]; now rewrite S3).
  assert (P1 : b_pts (t_bound s1) = b_pts (t_bound st)) by (destruct Hs1 as [Hs1 _]; now rewrite Hs1).
  assert (B1 : b_set (t_bound s1) = b_set (t_bound st)) by (destruct Hs1 as [Hs1 _]; now rewrite Hs1).
  assert (T2 : meshed s2 = meshed s1) by (apply meshed_more; [apply I1|exact M2]).
  assert (T0 : meshed st = radd (meshed s1) (around radd (W (b_pts (t_bound st))) (v, w, x))) by (unfold meshed; rewrite P1; exact T1).
  pose (L := W (b_pts (t_bound s2))). pose (m := n_pts s1).
  assert (LL : forall a b, a < n_pts st -> b < n_pts st -> W (b_pts (t_bound st)) (a, b) = L (a, b)).
  { intros a b Ha Hb0. unfold L. change (b_pts (t_bound s2)) with (b_pts q.1). rewrite E1, P1. symmetry. now apply stable. }
  assert (O4 : outline_of s4 = radd (radd (rsub (outline_of st) (L (v, w))) (L (v, m))) (L (m, w))).
  { unfold outline_of. destruct S24 as [S24 _]. rewrite S24. change (b_set (t_bound s2)) with (b_set q.1). fold L. rewrite E2.
    unfold pieces. cbn [seq app chain set_all fold_left fst snd]. change (length (b_pts (t_bound s1))) with m.
    assert (F1 : forall e, e ∈ b_set (t_bound s1) -> e.1 <> m /\ e.2 <> m).
    { intros e He. destruct (set_range _ _ _ I1 He). fold m in H0, H2. lia. }
    assert (V : (v, w) ∈ b_set (t_bound s1)) by exact Hin. destruct (F1 _ V) as [V1 V2]. cbn in V1, V2.
    rewrite (ssum_insert _ _ _ _ _ _ RT); [|]. 2:{ rewrite elem_of_union, elem_of_singleton, elem_of_difference. intros [[= K1 K2]|[K _]]; [congruence|]. destruct (F1 _ K). now cbn in *. }
    rewrite (ssum_insert _ _ _ _ _ _ RT). 2:{ rewrite elem_of_difference. intros [K _]. destruct (F1 _ K). now cbn in *. }
    assert (OS : ssum rO radd (W (b_pts (t_bound st))) (b_set (t_bound st)) = ssum rO radd L (b_set (t_bound s1))).
    { rewrite B1. unfold ssum. apply esum_ext. intros e He. apply elem_of_elements in He. destruct e as [e1 e2].
      destruct (set_range _ _ _ H He). now apply LL. }
    rewrite OS, (ssum_remove _ _ _ _ _ _ RT L _ (v, w) V). ring. }
  unfold excess. rewrite O4, T0. unfold meshed at 1. fold (meshed s4). rewrite T4, T3, T2. rewrite P3. fold L m.
  unfold around. cbn [fst snd]. rewrite !LL by lia.
  generalize (meshed s1). intros z. pose proof (anti (b_pts (t_bound s2)) m x) as Q1. pose proof (anti (b_pts (t_bound s2)) m v) as Q2. fold L in Q1, Q2.
  transitivity (rsub (radd (radd z (radd (L (m, w)) (radd (L (w, x)) (radd (radd (L (m, x)) (L (x, m))) (radd (L (x, v)) (L (v, m)))))))
    rO) (radd (radd (rsub (outline_of st) (L (v, w))) (L (v, m))) (L (m, w)))); [ring|].
  rewrite Q1. ring.
Qed.

Lemma split_many_inv inner p rc base : forall fuel st stack res r, pl_inv st base ->
  split_many g inner fuel p rc st stack res = Ret r -> pl_inv r.1 base /\ excess r.1 = excess st.
Proof.
  induction fuel as [|fuel IH]; intros st stack res r H E; [discriminate|]. cbn [split_many] in E.
  destruct stack as [|s stack]; [injection E as <-; auto|]. apply bind_ret_inv in E as (q & Es & E).
  destruct (split_seg_inv _ _ _ _ _ H Es) as [H1 X1]. destruct q as [s1 [[ca cb] v]]. cbn [fst] in *.
  apply bind_ret_inv in E as (ea & _ & E). apply bind_ret_inv in E as (eb & _ & E).
  destruct (IH _ _ _ _ H1 E) as [H2 X2]. split; [exact H2|congruence].
Qed.
Lemma ruppert_walls_inv inner base : forall fuel st stack st', pl_inv st base ->
  ruppert_walls g inner fuel st stack = Ret st' -> pl_inv st' base /\ excess st' = excess st.
Proof.
  induction fuel as [|fuel IH]; intros st stack st' H E; [discriminate|]. cbn [ruppert_walls] in E.
  destruct stack as [|v stack]; [injection E as <-; auto|]. apply bind_ret_inv in E as (segs & _ & E).
  destruct segs as [|s segs]; [eauto|]. apply bind_ret_inv in E as (r & Es & E).
  destruct (split_many_inv _ _ _ _ _ _ _ _ _ H Es) as [H1 X1]. destruct (IH _ _ _ H1 E) as [H2 X2]. split; [exact H2|congruence].
Qed.
Lemma ruppert_loop_inv ft inner h base : order_ok ft -> forall fuel st st', pl_inv st base -> ruppert_loop g ft inner fuel h st = Ret st' ->
  pl_inv st' base /\ excess st' = excess st /\ forall t c, t_full st' !! t = Some c -> is_skinny st' ratio_bound h (t, c) = false.
Proof.
  intros Ho. induction fuel as [|fuel IH]; intros st st' H E; [discriminate|]. cbn [ruppert_loop] in E.
  destruct (skinny_triangle _ _ _ _) as [t|] eqn:L.
  - apply bind_ret_inv in E as (o & _ & E). apply bind_ret_inv in E as (p & _ & E).
    pose proof (inv_new st base p H) as Hs. pose proof (new_excess st base p H) as Ex.
    destruct (vertex_new (t_bound st) p) as [b c]. cbn [fst] in *. apply bind_ret_inv in E as (segs & _ & E).
    destruct segs as [|s segs].
    + pose proof (inv_store _ base p Hs) as Hs2. pose proof (store_excess _ base p Hs) as Ex2.
      assert (Hu : (pl_store_vertex (with_bound st b) p).2 < n_pts (pl_store_vertex (with_bound st b) p).1). { unfold n_pts. cbn. rewrite app_length. cbn. lia. }
      destruct (pl_store_vertex (with_bound st b) p) as [s1 i]. cbn [fst snd] in *. apply bind_ret_inv in E as (s2 & Ei & E).
      destruct (insert_excess _ _ _ _ _ _ Hs2 Hu Ei) as (H2 & _ & E2).
      destruct (IH _ _ H2 E) as (H3 & E3 & K). split; [exact H3|]. split; [congruence|exact K].
    + apply bind_ret_inv in E as (r & Es & E). destruct (split_many_inv _ _ _ _ _ _ _ _ _ Hs Es) as [H1 X1].
      destruct (IH _ _ H1 E) as (H3 & E3 & K). split; [exact H3|]. split; [congruence|exact K].
  - injection E as <-. split; [exact H|]. split; [reflexivity|]. intros t c Hc. eapply find_skinny; eassumption.
Qed.
End sums.
End loops.
