(** The initial triangulation and the insertion of a point always end. *)
From Verif Require Export GiftProofs Ends.

Section ends.
Context {A : arith} (g : geo A).
Implicit Types st : plane A.

Lemma pl_in_circle_ends st t x p : ends (pl_in_circle g st t x p).
Proof. apply in_circle_ends. Qed.
Lemma base_walls_ret (b : bound A) base cs : bd_inv b base cs -> base <> [] -> all_base_walls b = Ret (edges_of base).
Proof. intros H Hb. unfold all_base_walls. rewrite (bi_base_starts _ _ _ H). apply all_walls_loops; [apply (bi_base _ _ _ H)|exact Hb]. Qed.
Lemma visible_ends (b : bound A) base cs s x : bd_inv b base cs -> ends (midpoint_visible g b s x).
Proof.
  intros H. unfold midpoint_visible. destruct base as [|l base].
  - unfold all_base_walls. rewrite (bi_base_starts _ _ _ H). cbn. discriminate.
  - rewrite (base_walls_ret _ _ _ H) by discriminate. discriminate.
Qed.
Lemma search_ends st base cs e vis : bd_inv (t_bound st) base cs -> ends (search g st e vis).
Proof.
  intros H. unfold search. apply ends_foldM. intros v best _. destruct (to_left g st e v); [|ends].
  apply ends_bind; [destruct best; [apply pl_in_circle_ends|ends]|]. intros [] _; [|ends].
  apply ends_bind; [destruct vis; [eapply visible_ends; eassumption|ends]|]. intros; ends.
Qed.
Lemma finish_ends st base cs e : bd_inv (t_bound st) base cs -> ends (gift_wrap_finish g st e).
Proof.
  intros H. unfold gift_wrap_finish. apply ends_bind; [eapply search_ends; eassumption|]. intros [v|] _; [|ends].
  apply ends_bind; [eapply visible_ends; eassumption|]. intros seen _. apply ends_bind; [|intros; ends].
  destruct seen; [ends|eapply search_ends; eassumption].
Qed.

(** all stored edges join stored vertices, so there are at most the square of their number *)
Definition edges_within (U : list nat) (T : gmap edge nat) : Prop := forall e, is_Some (T !! e) -> e.1 ∈ U /\ e.2 ∈ U.
Lemma within_size U T : edges_within U T -> size T <= length U * length U.
Proof.
  intros H. change (size T) with (length (map_to_list T)). rewrite <- (fmap_length fst), <- prod_length.
  apply NoDup_incl_length; [apply NoDup_ListNoDup, NoDup_fst_map_to_list|].
  intros e He. apply elem_of_list_In, elem_of_list_fmap in He as ([e' w] & -> & Hw). apply elem_of_map_to_list in Hw. destruct e' as [a b].
  destruct (H (a, b)) as [Ha Hb]; [eauto|]. apply in_prod; now apply elem_of_list_In.
Qed.
Lemma tris_add_within U T t : edges_within U T -> t.1.1 ∈ U -> t.1.2 ∈ U -> t.2 ∈ U -> edges_within U (tris_add T t).
Proof.
  intros H H1 H2 H3 e [w Hw]. apply tris_add_lookup in Hw as [[-> _]|[[-> _]|[[-> _]|[_ Hw]]]]; cbn; [auto..|]. apply H. eauto.
Qed.
Lemma tris_add_size T t : (forall e, e ∈ tri_edges t -> T !! e = None) -> size T < size (tris_add T t).
Proof.
  intros H. assert (Hn : T !! (t.1.1, t.1.2) = None) by (apply H, in_edges; auto).
  unfold tris_add. assert (K : forall (m : gmap edge nat) e w, size m <= size (<[e := w]> m)).
  { intros m e w. destruct (m !! e) as [w'|] eqn:E; [rewrite map_size_insert_Some by eauto; lia|rewrite map_size_insert_None by exact E; lia]. }
  assert (K0 : size (<[(t.1.1, t.1.2) := t.2]> T) = S (size T)) by (apply map_size_insert_None; exact Hn).
  pose proof (K (<[(t.1.1, t.1.2) := t.2]> T) (t.1.2, t.2) t.1.1).
  pose proof (K (<[(t.1.2, t.2) := t.1.1]> (<[(t.1.1, t.1.2) := t.2]> T)) (t.2, t.1.1) t.1.2). lia.
Qed.
Lemma toggle_size (X : gset edge) a : size (toggle X a) <= S (size X).
Proof.
  unfold toggle. case_bool_decide.
  - assert (size (X ∖ {[a]}) <= size X) by (apply subseteq_size; set_solver). lia.
  - pose proof (size_union_alt {[(a.2, a.1)]} X) as K. rewrite size_singleton in K.
    assert (size (X ∖ {[(a.2, a.1)]}) <= size X) by (apply subseteq_size; set_solver). lia.
Qed.

Lemma gift_loop_ends (pk : pick_fn) base cs (Hp : pick_ok pk) : forall fuel st X lost, bd_inv (t_bound st) base cs ->
  (forall e, e ∈ X -> e.1 ∈ all_vertices st /\ e.2 ∈ all_vertices st) -> edges_within (all_vertices st) (t_tris st) ->
  size X + 2 * (length (all_vertices st) * length (all_vertices st) - size (t_tris st)) < fuel -> ends (gift_loop g pk fuel st X lost).
Proof.
  induction fuel as [|fuel IH]; intros st X lost Hb HX HT Hf; [lia|]. cbn [gift_loop]. case_bool_decide as HE; [ends|].
  destruct (Hp fuel X HE) as (e & -> & He). cbn [unwrap mbind out_bind].
  assert (Hs : size X = S (size (X ∖ {[e]}))).
  { rewrite size_difference by set_solver. rewrite size_singleton. assert (size X <> 0) by (apply size_non_empty_iff; set_solver). lia. }
  apply ends_bind; [eapply finish_ends; eassumption|]. intros [[[t a] b]|] Hr.
  - apply finish_ret in Hr as (x & Hx & -> & -> & ->). apply ends_bind; [ends|]. intros s1 Ha. apply unwrap_inv in Ha.
    destruct (add_ret _ _ _ _ Ha) as (_ & Hn & [Hb1 Hv1] & Ht & _). destruct (HX e He) as [H1 H2].
    assert (HA : all_vertices s1 = all_vertices st) by (unfold all_vertices; now rewrite Hb1, Hv1).
    assert (HW : edges_within (all_vertices s1) (t_tris s1)) by (rewrite HA, Ht; now apply tris_add_within).
    pose proof (within_size _ _ HW) as Hle. pose proof (tris_add_size _ _ Hn) as Hlt. rewrite <- Ht in Hlt.
    apply IH.
    + now rewrite Hb1.
    + rewrite HA. intros f Hf'. apply toggle_in2 in Hf' as [Hf'|[->| ->]]; [now apply HX|cbn; auto..].
    + exact HW.
    + rewrite HA in *. pose proof (toggle_size (toggle (X ∖ {[e]}) (e.2, x)) (x, e.1)). pose proof (toggle_size (X ∖ {[e]}) (e.2, x)). lia.
  - apply IH; auto; [|lia]. intros f Hf'. apply HX. set_solver.
Qed.

(** ** Digging *)
Section dig.
Context (OL : ord_laws A).
Let FL : field_laws A := ol_field A OL.
Add Field Afield47 : (fl_field A FL).
Hypothesis flat : forall p q, g_dir g p q p = Zero.

Definition has_corner (u : nat) (t : tri) : bool := (t.1.1 =? u) || (t.1.2 =? u) || (t.2 =? u).
(** the number of stored triangles without the vertex *)
Definition others (u : nat) (F : gmap tri A) : nat := size (filter (fun x => has_corner u x.1 = false) F).
Lemma others_add u F t c : has_corner u t = true -> F !! t = None -> others u (<[t := c]> F) = others u F.
Proof. intros H Hn. unfold others. rewrite map_filter_insert_False, delete_notin by (cbn; congruence || auto). reflexivity. Qed.
Lemma others_del u F t c : F !! t = Some c ->
  others u F = (if has_corner u t then 0 else 1) + others u (delete t F).
Proof.
  intros Hc. unfold others. rewrite map_filter_delete. destruct (has_corner u t) eqn:E.
  - rewrite delete_notin; [reflexivity|]. apply map_filter_lookup_None. right. intros x Hx K. cbn in K. congruence.
  - rewrite map_size_delete_Some; [|exists c; apply map_filter_lookup_Some; auto].
    assert (size (filter (fun x => has_corner u x.1 = false) F) <> 0); [|lia].
    rewrite map_size_non_empty_iff. intros K. apply map_empty with (i := t) in K.
    assert (filter (fun x : tri * A => has_corner u x.1 = false) F !! t = Some c) by (apply map_filter_lookup_Some; auto). congruence.
Qed.

Lemma in_circle_corner st u v w : pl_in_circle g st (u, v, w) u false = Ret false.
Proof.
  unfold pl_in_circle. cbn [fst snd]. set (p := xy_pt (tget st u)). set (q := xy_pt (tget st v)). set (r := xy_pt (tget st w)).
  assert (P : forall x : xy A, planar_pt (xy_pt x)) by (intros x; unfold planar_pt; cbn; lia).
  destruct (in_circle_ret OL p p q r) as [E|[E _]]; [apply P..| |exact E]. rewrite E. f_equal.
  replace (circle_det p p q r) with (s0 : A); [apply (ol_irr A OL)|].
  unfold circle_det, det4, det3, tab, vel, ssq. cbn [concat app lookup list_lookup nth Nat.add Nat.mul default from_option id]. ring.
Qed.
Lemma in_circle_flat st u v x : pl_in_circle g st (u, v, u) x false = Ret false.
Proof.
  unfold pl_in_circle. cbn [fst snd]. set (p := xy_pt (tget st u)). set (q := xy_pt (tget st v)). set (r := xy_pt (tget st x)).
  assert (P : forall x : xy A, planar_pt (xy_pt x)) by (intros y; unfold planar_pt; cbn; lia).
  destruct (in_circle_ret OL r p q p) as [E|[E _]]; [apply P..| |exact E]. rewrite E. f_equal.
  replace (circle_det r p q p) with (s0 : A); [apply (ol_irr A OL)|].
  unfold circle_det, det4, det3, tab, vel, ssq. cbn [concat app lookup list_lookup nth Nat.add Nat.mul default from_option id]. ring.
Qed.
Lemma dig_flat fuel u v st : dig g (S fuel) u v u st = Panic.
Proof.
  assert (E : triangle_dir g st (u, v, u) = Zero) by apply flat.
  assert (Ha : unwrap (add_triangle g st (u, v, u)) = Panic). { unfold add_triangle. rewrite E. reflexivity. }
  cbn [dig]. rewrite Ha. destruct (_ || _); [reflexivity|]. destruct (pl_adjacent st (u, v)) as [x|]; [|reflexivity].
  rewrite E, in_circle_flat. reflexivity.
Qed.

Lemma dig_ok fuel u v x st st' : mesh_ok g st -> in_range st (u, v, x) -> dig g fuel u v x st = Ret st' -> mesh_ok g st' /\ same_verts st st'.
Proof.
  intros H Hr E. destruct (dig_total g 0%Z 1%Z Z.add Z.mul Z.sub Z.opp Zth (fun _ => 0%Z) (fun _ _ => eq_refl) _ _ _ _ _ _ H Hr E) as (H1 & H2 & _). auto.
Qed.
(** every triangle at the vertex was added for it *)
Definition star (u : nat) (F : gmap tri A) : Prop := forall t, is_Some (F !! t) -> has_corner u t = true -> t.1.1 = u /\ t.1.2 <> u /\ t.2 <> u.
Lemma corner_false u t : has_corner u t = false <-> t.1.1 <> u /\ t.1.2 <> u /\ t.2 <> u.
Proof. unfold has_corner. rewrite !orb_false_iff, !Nat.eqb_neq. tauto. Qed.
Lemma rots_corner u t t' : t ∈ tri_rots t' -> has_corner u t = has_corner u t'.
Proof. destruct t' as [[a b] c]. rewrite in_rots. unfold has_corner. intros [->|[->| ->]]; cbn; destruct (a =? u), (b =? u), (c =? u); reflexivity. Qed.

Lemma dig_ends : forall fuel u v w st, mesh_ok g st -> in_range st (u, v, w) -> v <> u -> w <> u -> star u (t_full st) ->
  others u (t_full st) + 2 <= fuel ->
  ends (dig g fuel u v w st) /\ forall st', dig g fuel u v w st = Ret st' -> star u (t_full st') /\ others u (t_full st') <= others u (t_full st).
Proof.
  induction fuel as [|fuel IH]; intros u v w st H Hr Hv Hw Hs Hf; [lia|]. cbn [dig].
  assert (Hadd : ends (unwrap (add_triangle g st (u, v, w))) /\ forall st', unwrap (add_triangle g st (u, v, w)) = Ret st' ->
    star u (t_full st') /\ others u (t_full st') <= others u (t_full st)).
  { split; [apply ends_unwrap|]. intros st' Ha. apply unwrap_inv in Ha. destruct (mesh_add _ _ _ _ H Hr Ha) as (_ & _ & Hn & ->). split.
    - intros t Ht Hc. destruct (decide (t = (u, v, w))) as [->|n]; [cbn; auto|]. rewrite lookup_insert_ne in Ht by congruence. now apply Hs.
    - rewrite others_add; [lia| |exact Hn]. unfold has_corner. cbn. now rewrite Nat.eqb_refl. }
  assert (Hdeep : forall x, t_tris st !! (w, v) = Some x -> (x = u -> triangle_dir g st (u, v, w) = Negative) ->
    let m := (st ← unwrap (delete_triangle st (w, v, x)); st ← dig g fuel u v x st; dig g fuel u x w st) in
    ends m /\ forall st', m = Ret st' -> star u (t_full st') /\ others u (t_full st') <= others u (t_full st)).
  { intros x Hx _ m. pose proof (adjacent_range _ _ _ _ _ H Hx) as Hrx. destruct (delete_triangle st (w, v, x)) as [s1|] eqn:Ed; [|split; [discriminate|discriminate]].
    subst m. cbn [unwrap mbind out_bind].
    destruct (mesh_del _ _ _ _ H Ed) as (H1 & Hs1 & _ & t0 & H0 & [c Hc] & Hfull).
    assert (Hst : star u (t_full s1)). { intros t Ht. apply Hs. rewrite Hfull in Ht. destruct Ht as [c' Ht]. apply lookup_delete_Some in Ht as [_ Ht]. eauto. }
    pose proof (others_del u _ _ _ Hc) as Ho. rewrite <- Hfull in Ho.
    destruct (Nat.eq_dec x u) as [->|Hxu].
    { destruct fuel as [|fuel]; [lia|]. rewrite dig_flat. cbn. split; discriminate. }
    assert (Hnc : has_corner u t0 = false).
    { rewrite (rots_corner u _ _ H0). apply corner_false. cbn. auto. }
    rewrite Hnc in Ho.
    assert (R1 : in_range s1 (u, v, x)). { apply (range_same _ _ _ Hs1). unfold in_range in *. cbn in *. tauto. }
    destruct (IH u v x s1 H1 R1 Hv Hxu Hst ltac:(lia)) as [E1 K1]. split.
    - apply ends_bind; [exact E1|]. intros s2 D1. destruct (K1 _ D1) as [St2 O2]. destruct (dig_ok _ _ _ _ _ _ H1 R1 D1) as [H2 S2].
      apply IH; auto; [|lia]. apply (range_same _ _ _ S2), (range_same _ _ _ Hs1). unfold in_range in *. cbn in *. tauto.
    - intros st' E. apply bind_ret_inv in E as (s2 & D1 & D2). destruct (K1 _ D1) as [St2 O2]. destruct (dig_ok _ _ _ _ _ _ H1 R1 D1) as [H2 S2].
      assert (R2 : in_range s2 (u, x, w)). { apply (range_same _ _ _ S2), (range_same _ _ _ Hs1). unfold in_range in *. cbn in *. tauto. }
      destruct (IH u x w s2 H2 R2 Hxu Hw St2 ltac:(lia)) as [_ K2]. destruct (K2 _ D2). split; [assumption|lia]. }
  destruct (_ || _); [exact Hadd|]. unfold pl_adjacent. destruct (t_tris st !! (w, v)) as [x|] eqn:Hx; [|exact Hadd].
  destruct (triangle_dir g st (u, v, w)) eqn:Hd; cbn [is_negative].
  - now apply Hdeep.
  - destruct (pl_in_circle g st (u, v, w) x false) as [[]| | |] eqn:Hi; cbn [mbind out_bind]; [|exact Hadd|split; discriminate..|].
    + apply Hdeep; [reflexivity|]. intros ->. rewrite in_circle_corner in Hi. discriminate.
    + exfalso. exact (pl_in_circle_ends st (u, v, w) x false Hi).
  - destruct (pl_in_circle g st (u, v, w) x false) as [[]| | |] eqn:Hi; cbn [mbind out_bind]; [|exact Hadd|split; discriminate..|].
    + apply Hdeep; [reflexivity|]. intros ->. rewrite in_circle_corner in Hi. discriminate.
    + exfalso. exact (pl_in_circle_ends st (u, v, w) x false Hi).
Qed.

(** the vertex is new: no stored triangle has it *)
Definition absent (u : nat) (F : gmap tri A) : Prop := forall t, is_Some (F !! t) -> has_corner u t = false.
Lemma others_absent u F : absent u F -> others u F = size F.
Proof. intros H. unfold others. f_equal. apply map_filter_id. intros t c Hc. apply H. eauto. Qed.
Lemma insert_ends fuel u t st : mesh_ok g st -> u < n_pts st -> absent u (t_full st) -> size (t_full st) < fuel ->
  ends (insert_vertex g fuel u t st).
Proof.
  intros H Hu Hab Hf. destruct t as [[a b] c]. unfold insert_vertex. cbn [fst snd].
  destruct (delete_triangle st (a, b, c)) as [s1|] eqn:Ed; [|discriminate]. cbn [unwrap mbind out_bind].
  destruct (mesh_del _ _ _ _ H Ed) as (H1 & S1' & Hr & t0 & H0 & [k Hk] & Hfull).
  pose proof (others_absent _ _ Hab) as Ho. rewrite (others_del u _ _ _ Hk), <- Hfull in Ho. rewrite (Hab t0) in Ho by eauto.
  pose proof (Hab t0 ltac:(eauto)) as Hc0. rewrite (rots_corner u _ _ H0) in Hc0. apply corner_false in Hc0 as (n1 & n2 & n3). cbn in n1, n2, n3.
  assert (Hst : star u (t_full s1)). { intros t Ht Hc. rewrite Hfull in Ht. destruct Ht as [c' Ht]. apply lookup_delete_Some in Ht as [_ Ht]. rewrite (Hab t) in Hc by eauto. discriminate. }
  assert (R1 : in_range s1 (u, a, b)). { apply (range_same _ _ _ S1'). unfold in_range in *. cbn in *. tauto. }
  destruct (dig_ends fuel u a b s1 H1 R1 n1 n2 Hst ltac:(lia)) as [E1 K1].
  apply ends_bind; [exact E1|]. intros s2 D1. destruct (K1 _ D1) as [St2 O2]. destruct (dig_ok _ _ _ _ _ _ H1 R1 D1) as [H2 S2].
  assert (R2 : in_range s2 (u, b, c)). { apply (range_same _ _ _ S2), (range_same _ _ _ S1'). unfold in_range in *. cbn in *. tauto. }
  destruct (dig_ends fuel u b c s2 H2 R2 n2 n3 St2 ltac:(lia)) as [E2 K2].
  apply ends_bind; [exact E2|]. intros s3 D2. destruct (K2 _ D2) as [St3 O3]. destruct (dig_ok _ _ _ _ _ _ H2 R2 D2) as [H3 S3].
  assert (R3 : in_range s3 (u, c, a)). { apply (range_same _ _ _ S3), (range_same _ _ _ S2), (range_same _ _ _ S1'). unfold in_range in *. cbn in *. tauto. }
  apply (dig_ends fuel u c a s3 H3 R3 n3 n1 St3 ltac:(lia)).
Qed.
End dig.
End ends.
