(** The theorems on the mesher as a whole. *)
From Verif Require Export PlaneAsm.

Section final.
Context {A : arith} (g : geo A).
Implicit Types st : plane A.

(** ** Oriented boundary *)
Lemma excess_zero st e : excess 0%Z Z.add Z.sub (fun _ => mark e) st = 0%Z -> boundary (t_full st) e = outlined (b_set (t_bound st)) e.
Proof. unfold excess, meshed, outline_of. rewrite tsum_boundary, ssum_outlined. lia. Qed.
Lemma insert_boundary fuel u t st st' : mesh_state g st -> u ∈ all_vertices st -> insert_vertex g fuel u t st = Ret st' ->
  forall e, boundary (t_full st') e = boundary (t_full st) e.
Proof.
  intros H Hu E e. destruct (state_inv g st H) as [base Hi].
  destruct (insert_excess g 0%Z 1%Z Z.add Z.mul Z.sub Z.opp Zth (fun _ => mark e) (fun _ a b => mark_anti e a b) fuel u t st st' base Hi (pi_all g _ _ _ Hi Hu) E) as (_ & [Hb _] & Ex).
  unfold excess, meshed, outline_of in Ex. rewrite Hb, !tsum_boundary in Ex. lia.
Qed.
Lemma insert_new fuel u t st st' : mesh_state g st -> u ∈ all_vertices st -> insert_vertex g fuel u t st = Ret st' ->
  t_bound st' = t_bound st /\ t_verts st' = t_verts st /\
  forall t', is_Some (t_full st' !! t') -> triangle_dir g st' t' = Positive /\ (is_Some (t_full st !! t') \/ t'.1.1 = u).
Proof.
  intros H Hu E. destruct (state_inv g st H) as [base Hi].
  destruct (insert_total g 0%Z 1%Z Z.add Z.mul Z.sub Z.opp Zth (fun _ => 0%Z) (fun _ _ => eq_refl) fuel u t st st' (pi_mesh _ _ _ Hi) (pi_all g _ _ _ Hi Hu) E) as (H1 & [Hb Hv] & Hg & _).
  split; [exact Hb|]. split; [exact Hv|]. intros t' [c Hc]. split; [apply (mo_geo _ _ H1 _ _ Hc)|]. apply Hg. eauto.
Qed.
Lemma gift_boundary pk fuel (b : bound A) polys r : bd_built g b polys -> pick_ok pk -> gift_wrap g pk fuel (pl_new b) = Ret r ->
  r.2 = [] -> inner_only r.1 -> forall e, excess 0%Z Z.add Z.sub (fun _ => mark e) r.1 = 0%Z.
Proof.
  intros Hb Hp E Hl Hin e. destruct (bd_built_inv g b polys Hb) as (base & cs & Hi & _).
  destruct (gift_top g 0%Z 1%Z Z.add Z.mul Z.sub Z.opp Zth (fun _ => mark e) (fun _ a c => mark_anti e a c) pk fuel b base cs r Hi Hp E) as (_ & _ & _ & X).
  rewrite (X Hin), Hl. reflexivity.
Qed.

(** ** Refinement *)
Definition fine st (h : A) : Prop := forall t, is_Some (t_full st !! t) ->
  sltb h (g_cr g (tget st t.1.1) (tget st t.1.2) (tget st t.2)) = false.
Lemma chew_fine pk ft ord fuel h (b : bound A) polys st : bd_built g b polys -> pick_ok pk -> order_ok ft ->
  chew_mesh g pk ft ord fuel h (pl_new b) = Ret st -> fine st h.
Proof.
  intros Hb Hp Ho E. destruct (chew_state g pk ft ord fuel h b polys st Hb Hp E) as (b' & r & _ & _ & Hm & El & _).
  destruct (state_inv g _ Hm) as [base Hi].
  destruct (chew_loop_inv g 0%Z 1%Z Z.add Z.mul Z.sub Z.opp Zth (fun _ _ => 0%Z) (fun _ _ _ => eq_refl) (fun _ _ _ _ _ _ => eq_refl) ft fuel h base Ho fuel r.1 st Hi El) as (H1 & _ & _ & Hf).
  intros t [c Hc]. destruct (mo_geo _ _ (pi_mesh _ _ _ H1) t c Hc) as (_ & _ & Er). unfold radius_of in Er. rewrite <- Er. now apply (Hf t).
Qed.
Lemma ruppert_fine pk ft fuel h (b : bound A) polys st : bd_built g b polys -> pick_ok pk -> order_ok ft ->
  ruppert_mesh g pk ft fuel h (pl_new b) = Ret st ->
  forall t, is_Some (t_full st !! t) -> is_skinny st ratio_bound h (t, g_cr g (tget st t.1.1) (tget st t.1.2) (tget st t.2)) = false.
Proof.
  intros Hb Hp Ho E. destruct (ruppert_state g pk ft fuel h b polys st Hb Hp E) as (r & s1 & _ & Hm & Ew & El & _).
  pose proof (ruppert_walls_state g _ _ _ _ _ Hm Ew) as Hs. destruct (state_inv g _ Hs) as [base Hi].
  destruct (ruppert_loop_inv g 0%Z 1%Z Z.add Z.mul Z.sub Z.opp Zth (fun _ _ => 0%Z) (fun _ _ _ => eq_refl) (fun _ _ _ _ _ _ => eq_refl) ft fuel h base Ho fuel s1 st Hi El) as (H1 & _ & Hf).
  intros t [c Hc]. destruct (mo_geo _ _ (pi_mesh _ _ _ H1) t c Hc) as (_ & _ & Er). unfold radius_of in Er. rewrite <- Er. now apply (Hf t).
Qed.

Section conserve.
Context {R : Type} (rO rI : R) (radd rmul rsub : R -> R -> R) (ropp : R -> R).
Hypothesis RT : ring_theory rO rI radd rmul rsub ropp eq.
Variable W : list (Bounds.xy A) -> edge -> R.
Hypothesis anti : forall pts a b, radd (W pts (a, b)) (W pts (b, a)) = rO.
Hypothesis stable : forall pts l a b, a < length pts -> b < length pts -> W (pts ++ l) (a, b) = W pts (a, b).
Notation ex := (excess rO radd rsub W).
Lemma chew_excess pk ft ord fuel h (b : bound A) polys st : bd_built g b polys -> pick_ok pk -> order_ok ft ->
  chew_mesh g pk ft ord fuel h (pl_new b) = Ret st ->
  exists b' r, divide_all_segments g b ord h = Ret b' /\ gift_wrap g pk fuel (pl_new b') = Ret r /\ bd_built g b' polys /\
    b_set (t_bound st) = b_set b' /\ ex st = ex r.1.
Proof.
  intros Hb Hp Ho E. destruct (chew_state g pk ft ord fuel h b polys st Hb Hp E) as (b' & r & Ed & Er & Hm & El & _).
  destruct (state_inv g _ Hm) as [base Hi]. exists b', r.
  destruct (chew_loop_inv g rO rI radd rmul rsub ropp RT W anti stable ft fuel h base Ho fuel r.1 st Hi El) as (_ & Ex & Es & _).
  split; [exact Ed|]. split; [exact Er|]. pose proof (built_divide g b polys ord h b' Hb Ed) as Hb'. split; [exact Hb'|]. split; [|exact Ex].
  destruct (bd_built_inv g b' polys Hb') as (base' & cs & Hi' & _).
  destruct (gift_top g rO rI radd rmul rsub ropp RT W anti pk fuel b' base' cs r Hi' Hp Er) as (_ & Hbb & _). now rewrite Es, Hbb.
Qed.
Lemma ruppert_excess pk ft fuel h (b : bound A) polys st : bd_built g b polys -> pick_ok pk -> order_ok ft ->
  ruppert_mesh g pk ft fuel h (pl_new b) = Ret st ->
  exists r, gift_wrap g pk fuel (pl_new b) = Ret r /\ ex st = ex r.1.
Proof.
  intros Hb Hp Ho E. destruct (ruppert_state g pk ft fuel h b polys st Hb Hp E) as (r & s1 & Er & Hm & Ew & El & _).
  destruct (state_inv g _ Hm) as [base Hi]. exists r. split; [exact Er|].
  destruct (ruppert_walls_inv g rO rI radd rmul rsub ropp RT W anti stable fuel base fuel r.1 _ s1 Hi Ew) as [Hi1 X1].
  destruct (ruppert_loop_inv g rO rI radd rmul rsub ropp RT W anti stable ft fuel h base Ho fuel s1 st Hi1 El) as (_ & X2 & _). congruence.
Qed.
End conserve.

(** ** Running twice *)
Definition over (F : gmap tri A) st : plane A := Pl (t_bound st) (t_verts st) (t_tris st) (t_full st ∪ F) (t_rec st).
Lemma search_over F st e vis : search g (over F st) e vis = search g st e vis.
Proof. reflexivity. Qed.
Lemma add_over F st t : add_triangle g (over F st) t = over F <$> add_triangle g st t.
Proof.
  unfold add_triangle. change (triangle_dir g (over F st) t) with (triangle_dir g st t). cbn [over t_tris t_bound t_verts t_full t_rec].
  destruct (negb _); [reflexivity|]. destruct (existsb _ _); [reflexivity|]. cbn. unfold over. cbn. now rewrite insert_union_l.
Qed.
Lemma loop_over F (pk : pick_fn) : forall fuel st X lost, gift_loop g pk fuel (over F st) X lost = (r ← gift_loop g pk fuel st X lost; Ret (over F r.1, r.2)).
Proof.
  induction fuel as [|fuel IH]; intros st X lost; [reflexivity|]. cbn [gift_loop]. case_bool_decide; [reflexivity|].
  destruct (unwrap (pk fuel X)) as [e| | |]; [|reflexivity..]. cbn [mbind out_bind].
  change (gift_wrap_finish g (over F st) e) with (gift_wrap_finish g st e).
  destruct (gift_wrap_finish g st e) as [o| | |]; [|reflexivity..]. cbn [mbind out_bind]. destruct o as [[[t a] b]|]; [|apply IH].
  rewrite add_over. destruct (add_triangle g st t) as [s1|]; [|reflexivity]. cbn [fmap option_fmap option_map unwrap mbind out_bind]. apply IH.
Qed.
Lemma gift_over (pk : pick_fn) fuel st :
  gift_wrap g pk fuel st = (r ← gift_wrap g pk fuel (Pl (t_bound st) (t_verts st) ∅ ∅ ∅); Ret (over (t_full st) r.1, r.2)).
Proof.
  unfold gift_wrap. cbn [t_bound t_verts t_full]. destruct (all_walls (t_bound st)) as [w| | |]; [|reflexivity..]. cbn [mbind out_bind].
  rewrite <- loop_over. unfold over. cbn. now rewrite (left_id_L ∅ (∪)).
Qed.

(** ** Termination *)
Lemma gift_ends pk fuel (b : bound A) polys : bd_built g b polys -> pick_ok pk ->
  size (b_set b) + 2 * (length (b_verts b) * length (b_verts b)) < fuel -> gift_wrap g pk fuel (pl_new b) <> Fuel.
Proof.
  intros Hb Hp Hf. destruct (bd_built_inv g b polys Hb) as (base & cs & Hi & _). unfold gift_wrap. cbn [pl_new t_bound t_verts t_full].
  destruct cs as [|c cs].
  { unfold all_walls. rewrite (bi_starts _ _ _ Hi). cbn. discriminate. }
  assert (Ew : all_walls b = Ret (edges_of (c :: cs))).
  { unfold all_walls. rewrite (bi_starts _ _ _ Hi). apply all_walls_loops; [apply (bi_loops _ _ _ Hi)|discriminate]. }
  rewrite Ew. cbn [mbind out_bind]. destruct (walls_ret _ _ _ _ Hi Ew) as (_ & _ & ->).
  change (Pl b [] ∅ ∅ ∅) with (pl_new b). apply (gift_loop_ends g pk base (c :: cs) Hp); [exact Hi| | |].
  - intros e He. unfold all_vertices. cbn. apply (bi_set _ _ _ Hi) in He. split; apply (bi_stored _ _ _ Hi).
    + rewrite <- edges_fst. apply elem_of_list_fmap. eauto.
    + rewrite <- edges_snd. apply elem_of_list_fmap. eauto.
  - intros e [w Hw]. cbn in Hw. rewrite lookup_empty in Hw. discriminate.
  - unfold all_vertices. cbn [t_bound t_verts t_tris pl_new app]. lia.
Qed.
Lemma insert_stops (OL : ord_laws A) (flat : forall p q, g_dir g p q p = Zero) fuel u t st : mesh_state g st -> u ∈ all_vertices st ->
  (forall t', is_Some (t_full st !! t') -> t'.1.1 <> u /\ t'.1.2 <> u /\ t'.2 <> u) -> size (t_full st) < fuel ->
  insert_vertex g fuel u t st <> Fuel.
Proof.
  intros H Hu Hab Hf. destruct (state_inv g st H) as [base Hi]. apply (insert_ends g OL flat); [apply Hi|now apply (pi_all g _ base)| |exact Hf].
  intros t' Ht. apply corner_false. now apply Hab.
Qed.
End final.

Section order.
Context {A : arith} (OL : ord_laws A).
Let FL : field_laws A := ol_field A OL.
Add Field Afield49 : (fl_field A FL).
Lemma smin_spec (x y : A) : (smin x y = x \/ smin x y = y) /\ les (smin x y) x /\ les (smin x y) y.
Proof.
  unfold smin. assert (E : seqb x x = true) by (now apply (fl_eqb A FL)). rewrite E. cbn [negb orb]. rewrite orb_false_r. destruct (sltb y x) eqn:L.
  - split; [auto|]. split; [apply (lts_les OL); exact L|apply (les_refl OL)].
  - split; [auto|]. split; [apply (les_refl OL)|exact L].
Qed.
Lemma neg_zero : sneg (s0 : A) = s0.
Proof. pose proof (FRth OL) as RT. rewrite <- (Radd_0_l RT (sneg s0)). apply (Ropp_def RT). Qed.
Lemma flat_turn (x y z w : A) : ((z - x) * (y - y) - (x - x) * (w - y))%A = s0.
Proof. ring. Qed.
Lemma area_excess (st : plane A) : excess (s0 : A) sadd ssub lace st = s0 -> mesh_area st = outline_area st.
Proof.
  unfold excess, meshed, outline_of. rewrite (area_sum OL), lace_sum. intros H.
  pose proof (FRth OL) as RT. rewrite (Rsub_def RT) in H.
  rewrite <- (Radd_0_l RT (outline_area st)), <- H, <- (Radd_assoc RT), (Radd_comm RT (sneg _)), (Ropp_def RT), (Radd_comm RT), (Radd_0_l RT). reflexivity.
Qed.
End order.

Section covers.
Context {A : arith} (g : geo A).
Lemma gift_lace (OL : ord_laws A) pk fuel (b : bound A) polys r : bd_built g b polys -> pick_ok pk -> gift_wrap g pk fuel (pl_new b) = Ret r ->
  r.2 = [] -> inner_only r.1 -> excess (s0 : A) sadd ssub lace r.1 = s0.
Proof.
  intros Hb Hp E Hl Hin. destruct (bd_built_inv g b polys Hb) as (base & cs & Hi & _).
  destruct (gift_top g _ _ _ _ _ _ (FRth OL) lace (lace_anti OL) pk fuel b base cs r Hi Hp E) as (_ & _ & _ & X).
  rewrite (X Hin), Hl. apply (neg_zero OL).
Qed.
Lemma chew_covers pk ft ord fuel h (b : bound A) polys st :
  bd_built g b polys -> pick_ok pk -> order_ok ft -> chew_mesh g pk ft ord fuel h (pl_new b) = Ret st ->
  exists b' r, divide_all_segments g b ord h = Ret b' /\ gift_wrap g pk fuel (pl_new b') = Ret r /\ b_set (t_bound st) = b_set b' /\
  (r.2 = [] -> inner_only r.1 ->
   (forall e, boundary (t_full st) e = outlined (b_set (t_bound st)) e) /\ (ord_laws A -> mesh_area st = outline_area st)).
Proof.
  intros Hb Hp Ho E. destruct (chew_state g pk ft ord fuel h b polys st Hb Hp E) as (b' & r & Ed & Er & _).
  exists b', r. split; [exact Ed|]. split; [exact Er|]. split.
  { destruct (chew_excess g 0%Z 1%Z Z.add Z.mul Z.sub Z.opp Zth (fun _ _ => 0%Z) (fun _ _ _ => eq_refl) (fun _ _ _ _ _ _ => eq_refl) pk ft ord fuel h b polys st Hb Hp Ho E)
      as (b2 & r2 & Ed2 & _ & _ & Es & _). rewrite Ed in Ed2. injection Ed2 as <-. exact Es. }
  intros Hl Hin. split.
  - intros e. apply excess_zero.
    destruct (chew_excess g 0%Z 1%Z Z.add Z.mul Z.sub Z.opp Zth (fun _ => mark e) (fun _ a c => mark_anti e a c) (fun _ _ _ _ _ _ => eq_refl) pk ft ord fuel h b polys st Hb Hp Ho E)
      as (b2 & r2 & Ed2 & Er2 & Hb2 & _ & ->). rewrite Ed in Ed2. injection Ed2 as <-. rewrite Er in Er2. injection Er2 as <-.
    now apply (gift_boundary g pk fuel b' polys).
  - intros OL. apply (area_excess OL).
    destruct (chew_excess g _ _ _ _ _ _ (FRth OL) lace (lace_anti OL) lace_more pk ft ord fuel h b polys st Hb Hp Ho E)
      as (b2 & r2 & Ed2 & Er2 & Hb2 & _ & ->). rewrite Ed in Ed2. injection Ed2 as <-. rewrite Er in Er2. injection Er2 as <-.
    now apply (gift_lace OL pk fuel b' polys).
Qed.
Lemma ruppert_covers pk ft fuel h (b : bound A) polys st :
  bd_built g b polys -> pick_ok pk -> order_ok ft -> ruppert_mesh g pk ft fuel h (pl_new b) = Ret st ->
  exists r, gift_wrap g pk fuel (pl_new b) = Ret r /\
  (r.2 = [] -> inner_only r.1 ->
   (forall e, boundary (t_full st) e = outlined (b_set (t_bound st)) e) /\ (ord_laws A -> mesh_area st = outline_area st)).
Proof.
  intros Hb Hp Ho E. destruct (ruppert_state g pk ft fuel h b polys st Hb Hp E) as (r & s1 & Er & _).
  exists r. split; [exact Er|]. intros Hl Hin. split.
  - intros e. apply excess_zero.
    destruct (ruppert_excess g 0%Z 1%Z Z.add Z.mul Z.sub Z.opp Zth (fun _ => mark e) (fun _ a c => mark_anti e a c) (fun _ _ _ _ _ _ => eq_refl) pk ft fuel h b polys st Hb Hp Ho E)
      as (r2 & Er2 & ->). rewrite Er in Er2. injection Er2 as <-. now apply (gift_boundary g pk fuel b polys).
  - intros OL. apply (area_excess OL).
    destruct (ruppert_excess g _ _ _ _ _ _ (FRth OL) lace (lace_anti OL) lace_more pk ft fuel h b polys st Hb Hp Ho E)
      as (r2 & Er2 & ->). rewrite Er in Er2. injection Er2 as <-. now apply (gift_lace OL pk fuel b polys).
Qed.
End covers.
