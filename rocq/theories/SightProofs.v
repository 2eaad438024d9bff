(** What the sight test answers, and that refining does not change it. *)
From Coq Require Import Reals Lra Lia.
From Verif Require Export CrossProofs MeshEnds.
Local Close Scope R_scope.
Local Open Scope nat_scope.

(** the side from the [i]-th corner to the next, the last side closing the outline *)
Definition wall_of (poly : list nat) (s : segment) : Prop :=
  exists i, poly !! i = Some s.1 /\ poly !! (if S i =? length poly then 0 else S i) = Some s.2.

Lemma loop_wall_iff (l : loop) s : s ∈ loop_edges l <-> wall_of (loop_list l) s.
Proof.
  destruct l as [a l]. unfold loop_edges, loop_list, wall_of. cbn [fst snd]. rewrite chain_lookup.
  assert (K : forall i u, (a :: l) !! i = Some u -> (a :: l ++ [a]) !! i = Some u).
  { intros i u H. change (a :: l ++ [a]) with ((a :: l) ++ [a]). now apply lookup_app_l_Some. }
  split; intros (i & H1 & H2); exists i.
  - pose proof (lookup_lt_Some _ _ _ H2) as Hlt. cbn in Hlt. rewrite app_length in Hlt. cbn in Hlt. change ((l ++ [a]) !! i = Some s.2) in H2.
    change (a :: l ++ [a]) with ((a :: l) ++ [a]) in H1. rewrite lookup_app_l in H1 by (cbn; lia). split; [exact H1|].
    destruct (Nat.eqb_spec (S i) (length (a :: l))) as [E|E]; cbn in E.
    + replace i with (length l) in H2 by lia. rewrite lookup_app_r, Nat.sub_diag in H2 by lia. exact H2.
    + rewrite lookup_app_l in H2 by lia. exact H2.
  - pose proof (lookup_lt_Some _ _ _ H1) as Hlt. cbn in Hlt. split; [now apply K|].
    destruct (Nat.eqb_spec (S i) (length (a :: l))) as [E|E]; cbn in E.
    + change ((l ++ [a]) !! i = Some s.2). replace i with (length l) by lia. rewrite lookup_app_r, Nat.sub_diag by lia. exact H2.
    + change ((l ++ [a]) !! i = Some s.2). apply lookup_app_l_Some. exact H2.
Qed.
Lemma walls_iff (base : list loop) s : s ∈ edges_of base <-> exists poly, poly ∈ map loop_list base /\ wall_of poly s.
Proof.
  unfold edges_of. rewrite elem_of_list_In, in_concat. split.
  - intros (es & Hes & Hs). apply in_map_iff in Hes as (l & <- & Hl). exists (loop_list l). split; [apply elem_of_list_In, in_map, Hl|]. apply loop_wall_iff, elem_of_list_In, Hs.
  - intros (poly & Hp & Hs). apply elem_of_list_In, in_map_iff in Hp as (l & <- & Hl). exists (loop_edges l). split; [now apply in_map|]. apply elem_of_list_In, loop_wall_iff, Hs.
Qed.

Lemma visible_iff (g : geo R_arith) (b : bound R_arith) polys s x : bd_built g b polys -> polys <> [] ->
  exists v, midpoint_visible g b s x = Ret v /\
  (v = true <-> forall poly w, poly ∈ polys -> wall_of poly w ->
     let m := at_frac (vget b s.1) (vget b s.2) (1 / 2) in
     g_meet g (vget b w.1) (vget b w.2) m (vget b x) = true ->
     (g_sdist g (vget b w.1) (vget b w.2) m < 1 / 1000000 \/ g_sdist g (vget b w.1) (vget b w.2) (vget b x) < 1 / 1000000)%R).
Proof.
  intros Hb Hne. destruct (bd_built_inv g b polys Hb) as (base & cs & Hi & ->). assert (Hbase : base <> []) by (now intros ->).
  unfold midpoint_visible. rewrite (base_walls_ret b base cs Hi Hbase). cbn [mbind out_bind]. eexists. split; [reflexivity|].
  assert (Hm : xy_mid (vget b s.1) (vget b s.2) = at_frac (vget b s.1) (vget b s.2) (1 / 2)).
  { unfold xy_mid, at_frac. destruct (vget b s.1) as [a1 a2], (vget b s.2) as [c1 c2]. cbn. f_equal; unfold Rdiv; rewrite ?sz_R; field. }
  assert (Ht : @tolerance R_arith = (1 / 1000000)%R) by (unfold tolerance, slit; rewrite !sz_R; reflexivity).
  rewrite Hm. cbv zeta. rewrite forallb_forall. split.
  - intros H poly w Hp Hw Hg. specialize (H w). assert (Hin : List.In w (edges_of base)) by (apply elem_of_list_In, walls_iff; eauto). specialize (H Hin).
    rewrite Hg in H. cbn [negb orb] in H. apply orb_true_iff in H as [H|H]; apply R_ltb_iff in H; rewrite Ht in H; auto.
  - intros H w Hin. apply elem_of_list_In, walls_iff in Hin as (poly & Hp & Hw). specialize (H poly w Hp Hw).
    destruct (g_meet g _ _ _ _); [|reflexivity]. cbn [negb orb]. apply orb_true_iff. destruct (H eq_refl) as [H1|H1]; [left|right]; apply R_ltb_iff; rewrite Ht; exact H1.
Qed.

Section keep.
Context {A : arith} (g : geo A).
Implicit Types b : bound A.
(** everything but drawing a further outline *)
Definition no_outline (o : bd_op A) : Prop := match o with DPoly _ => False | _ => True end.
Definition same_base b b' : Prop := b_base_map b' = b_base_map b /\ b_base_starts b' = b_base_starts b /\ exists more, b_pts b' = b_pts b ++ more.
Lemma same_base_refl b : same_base b b.
Proof. split; [reflexivity|]. split; [reflexivity|]. exists []. now rewrite app_nil_r. Qed.
Lemma same_base_trans b1 b2 b3 : same_base b1 b2 -> same_base b2 b3 -> same_base b1 b3.
Proof.
  intros (H1 & H2 & m & H3) (K1 & K2 & m' & K3). split; [congruence|]. split; [congruence|]. exists (m ++ m'). rewrite K3, H3, <- app_assoc. reflexivity.
Qed.
Lemma divide_same b s h b' : divide_segment g b s h = Ret b' -> same_base b b'.
Proof. intros E. apply divide_ret in E as (_ & _ & ->). split; [reflexivity|]. split; [reflexivity|]. eexists. reflexivity. Qed.
Lemma step_same o st st' : no_outline o -> bd_step g o st = Ret st' -> same_base st.1 st'.1 /\ st'.2 = st.2.
Proof.
  intros Ho E. destruct st as [b polys]. destruct o; cbn [bd_step] in E; cbn [no_outline] in Ho.
  - contradiction.
  - injection E as <-. split; [|reflexivity]. split; [reflexivity|]. split; [reflexivity|]. exists [p]. reflexivity.
  - injection E as <-. split; [|reflexivity]. split; [reflexivity|]. split; [reflexivity|]. exists [p]. reflexivity.
  - apply bind_ret_inv in E as (r & E & H). injection H as <-. split; [|reflexivity]. apply split_ret in E as [_ ->]. split; [reflexivity|]. split; [reflexivity|]. eexists. reflexivity.
  - apply bind_ret_inv in E as (r & E & H). injection H as <-. split; [|reflexivity]. exact (divide_same b s h r E).
  - apply bind_ret_inv in E as (r & E & H). injection H as <-. split; [|reflexivity]. cbn [fst]. unfold divide_all_segments in E. clear polys. revert b E.
    induction ord as [|s ord IH]; intros b E; cbn [foldM] in E; [injection E as <-; apply same_base_refl|]. apply bind_ret_inv in E as (b1 & E1 & E2).
    apply (same_base_trans _ b1); [exact (divide_same b s h b1 E1)|exact (IH b1 E2)].
  - injection E as <-. split; [|reflexivity]. split; [reflexivity|]. split; [reflexivity|]. exists []. cbn. now rewrite app_nil_r.
  - injection E as <-. split; [|reflexivity]. split; [reflexivity|]. split; [reflexivity|]. exists []. cbn. now rewrite app_nil_r.
  - injection E as <-. split; [|reflexivity]. split; [reflexivity|]. split; [reflexivity|]. exists []. cbn. now rewrite app_nil_r.
  - injection E as <-. split; [|reflexivity]. split; [reflexivity|]. split; [reflexivity|]. exists []. cbn. now rewrite app_nil_r.
  - injection E as <-. split; [|reflexivity]. split; [reflexivity|]. split; [reflexivity|]. exists []. cbn. now rewrite app_nil_r.
Qed.
Lemma history_same ops : forall st st', Forall no_outline ops -> foldM (bd_step g) ops st = Ret st' -> same_base st.1 st'.1 /\ st'.2 = st.2.
Proof.
  induction ops as [|o ops IH]; intros st st' Ho E; cbn [foldM] in E; [injection E as <-; split; [apply same_base_refl|reflexivity]|]. apply Forall_cons in Ho as [H1 H2].
  apply bind_ret_inv in E as (s1 & E1 & E2). destruct (step_same o st s1 H1 E1) as [Q1 Q2], (IH s1 st' H2 E2) as [Q3 Q4]. split; [exact (same_base_trans _ _ _ Q1 Q3)|congruence].
Qed.

Lemma visible_same b b' base cs s x : bd_inv b base cs -> same_base b b' ->
  s.1 < length (b_pts b) -> s.2 < length (b_pts b) -> x < length (b_pts b) -> midpoint_visible g b' s x = midpoint_visible g b s x.
Proof.
  intros Hi (Q1 & Q2 & more & Q3) H1 H2 Hx.
  assert (Hv : forall v, v < length (b_pts b) -> vget b' v = vget b v) by (intros v Hv; unfold vget at 1; rewrite Q3; now apply vget_more).
  unfold midpoint_visible, all_base_walls. rewrite Q1, Q2, (Hv _ H1), (Hv _ H2), (Hv _ Hx).
  destruct base as [|l base0] eqn:Eb; [rewrite (bi_base_starts _ _ _ Hi); reflexivity|]. rewrite <- Eb in Hi. assert (Hbase : base <> []) by (rewrite Eb; discriminate).
  pose proof (base_walls_ret b base cs Hi Hbase) as Hw. unfold all_base_walls in Hw. rewrite Hw. cbn [mbind out_bind]. f_equal.
  assert (Hok : forall w, w ∈ edges_of base -> w.1 < length (b_pts b) /\ w.2 < length (b_pts b)).
  { intros w Hin. pose proof (bi_refines _ _ _ Hi) as Hr. split; apply (bi_fresh _ _ _ Hi), (bi_stored _ _ _ Hi), (refines_verts _ _ _ Hr).
    - rewrite <- edges_fst. apply elem_of_list_fmap. eauto.
    - rewrite <- edges_snd. apply elem_of_list_fmap. eauto. }
  clear Hw. revert Hok. generalize (edges_of base). intros es Hok. induction es as [|w ws IH]; [reflexivity|]. cbn [forallb]. destruct (Hok w (elem_of_list_here _ _)) as [W1 W2]. rewrite (Hv _ W1), (Hv _ W2). f_equal.
  apply IH. intros w' Hw'. apply Hok. now apply elem_of_list_further.
Qed.

Lemma visible_keep b polys ops st' s x : bd_built g b polys -> Forall no_outline ops -> foldM (bd_step g) ops (b, polys) = Ret st' ->
  s.1 < length (b_pts b) -> s.2 < length (b_pts b) -> x < length (b_pts b) -> midpoint_visible g st'.1 s x = midpoint_visible g b s x.
Proof.
  intros Hb Ho E. destruct (bd_built_inv g b polys Hb) as (base & cs & Hi & ->). destruct (history_same ops _ _ Ho E) as [Hs _]. exact (visible_same b st'.1 base cs s x Hi Hs).
Qed.
End keep.
