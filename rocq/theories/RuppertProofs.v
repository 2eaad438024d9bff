(** The wall splitting of the quality mesher. *)
From Coq Require Import Reals Lra Lia.
From Verif Require Export SightProofs PlaneTop CliMesh.
Local Close Scope R_scope.
Local Open Scope nat_scope.

(** ** one split, in any arithmetic *)
Section split.
Context {A : arith} (g : geo A).
Lemma split_bound fuel st s r : ruppert_split_segment g fuel st s = Ret r ->
  exists q, split_segment (t_bound st) s = Ret q /\ t_bound r.1 = q.1 /\ r.2 = q.2.
Proof.
  intros E. unfold ruppert_split_segment in E. apply bind_ret_inv in E as (x & _ & E). apply bind_ret_inv in E as (s1 & Hd & E). apply bind_ret_inv in E as (q & Hq & E).
  apply bind_ret_inv in E as (s3 & D1 & E). apply bind_ret_inv in E as (s4 & D2 & E). injection E as <-. cbn [fst snd].
  assert (Hb : t_bound s1 = t_bound st).
  { apply unwrap_inv in Hd. unfold delete_triangle in Hd. case_bool_decide; [|discriminate]. injection Hd as <-. reflexivity. }
  rewrite Hb in Hq. exists q. split; [exact Hq|]. split; [|reflexivity]. apply dig_bound in D1, D2. rewrite D2, D1. reflexivity.
Qed.
End split.

Local Open Scope R_scope.
(** negative or zero inside and on the circle over the segment (Thales) *)
Definition thales (b : bound R_arith) (s : segment) (p : nat) : R :=
  (fst (vget b p) - fst (vget b s.1)) * (fst (vget b p) - fst (vget b s.2)) + (snd (vget b p) - snd (vget b s.1)) * (snd (vget b p) - snd (vget b s.2)).
(** some segment that contains [s] has a middle that does not see [p] *)
Definition hidden (g : geo R_arith) (b : bound R_arith) (s : segment) (p : nat) : Prop :=
  exists t, (t.1 < length (b_pts b) /\ t.2 < length (b_pts b))%nat /\
    on_seg (vget b t.1) (vget b t.2) (vget b s.1) /\ on_seg (vget b t.1) (vget b t.2) (vget b s.2) /\
    thales b t p <= 0 /\ midpoint_visible g b t p = Ret false.
Definition calm (g : geo R_arith) (b : bound R_arith) (s : segment) (p : nat) : Prop :=
  p = s.1 \/ p = s.2 \/ 0 < thales b s p \/ hidden g b s p.
Definition proper_set (b : bound R_arith) : Prop := forall s, s ∈ b_set b -> vget b s.1 <> vget b s.2.

Lemma dist_sq (a c : xy R_arith) : xy_dist a c = R_sqrt.sqrt ((fst a - fst c) * (fst a - fst c) + (snd a - snd c) * (snd a - snd c)).
Proof. destruct a, c. unfold xy_dist. cbn. reflexivity. Qed.

Lemma sqrt_lt_iff x y : 0 <= x -> R_sqrt.sqrt x < R_sqrt.sqrt y <-> x < y.
Proof.
  intros Hx. split; [apply sqrt_lt_0_alt|]. intros H. apply sqrt_lt_1_alt. lra.
Qed.
Lemma mid_frac (a c : xy R_arith) : xy_mid a c = at_frac a c (1 / 2).
Proof. unfold xy_mid, at_frac. destruct a as [a1 a2], c as [c1 c2]. cbn. f_equal; unfold Rdiv; rewrite ?sz_R; field. Qed.
Lemma disc_iff (b : bound R_arith) s p : @sltb R_arith (xy_dist (xy_mid (vget b s.1) (vget b s.2)) (vget b s.1)) (xy_dist (xy_mid (vget b s.1) (vget b s.2)) (vget b p)) = true <-> 0 < thales b s p.
Proof.
  etransitivity; [apply R_ltb_iff|]. rewrite mid_frac, !dist_sq. unfold thales. destruct (vget b s.1) as [a1 a2], (vget b s.2) as [c1 c2], (vget b p) as [p1 p2]. unfold at_frac. cbn [fst snd].
  rewrite sqrt_lt_iff.
  - match goal with |- ?x < ?y <-> 0 < ?z => replace z with (y - x) by field end. lra.
  - apply Rplus_le_le_0_compat; apply Rle_0_sqr.
Qed.

Lemma encroaches_calm (g : geo R_arith) (st : plane R_arith) s p : (s.1 < length (b_pts (t_bound st)))%nat -> (s.2 < length (b_pts (t_bound st)))%nat ->
  ruppert_encroaches g st p s = Ret false -> calm g (t_bound st) s p.
Proof.
  intros H1 H2. unfold ruppert_encroaches, calm. destruct (seg_has s p) eqn:Eh.
  - intros _. unfold seg_has in Eh. apply orb_true_iff in Eh as [Eh|Eh]; apply Nat.eqb_eq in Eh; auto.
  - unfold tget. destruct (@sltb R_arith _ _) eqn:Ed.
    + intros _. apply disc_iff in Ed. auto.
    + intros Hv. right. right. right. exists s. split; [split; assumption|]. split; [exists 0; split; [lra|now rewrite at_frac_0]|].
      split; [exists 1; split; [lra|now rewrite at_frac_1]|]. split; [|exact Hv].
      apply Rnot_lt_le. intros Hlt. apply disc_iff in Hlt. congruence.
Qed.

Lemma thales_more (b b' : bound R_arith) more s p : b_pts b' = b_pts b ++ more -> (s.1 < length (b_pts b))%nat -> (s.2 < length (b_pts b))%nat -> (p < length (b_pts b))%nat -> thales b' s p = thales b s p.
Proof.
  intros Hp H1 H2 H3. assert (Hv : forall v, (v < length (b_pts b))%nat -> vget b' v = vget b v) by (intros v Hv; unfold vget at 1; rewrite Hp; now apply vget_more).
  unfold thales. now rewrite !Hv.
Qed.

(** what was calm stays so *)
Lemma calm_keep (g : geo R_arith) (b b' : bound R_arith) base cs s p : bd_inv b base cs -> same_base b b' -> (s.1 < length (b_pts b))%nat -> (s.2 < length (b_pts b))%nat -> (p < length (b_pts b))%nat ->
  calm g b s p -> calm g b' s p.
Proof.
  intros Hi Hs H1 H2 H3 Hc. pose proof Hs as (_ & _ & more & Hp).
  assert (Hv : forall v, (v < length (b_pts b))%nat -> vget b' v = vget b v) by (intros v Hv; unfold vget at 1; rewrite Hp; now apply vget_more).
  destruct Hc as [->|[->|[Hc|Hc]]]; [now left|right; now left|..].
  - right. right. left. now rewrite (thales_more b b' more).
  - right. right. right. destruct Hc as (t & [T1 T2] & O1 & O2 & Ht & Hm). exists t. rewrite !Hv, (thales_more b b' more), (visible_same g b b' base cs) by assumption.
    rewrite Hp, app_length. split; [lia|]. auto.
Qed.

(** a part of a calm segment is calm *)
Lemma calm_half (g : geo R_arith) (b : bound R_arith) s m p : vget b m = at_frac (vget b s.1) (vget b s.2) (1 / 2) -> vget b s.1 <> vget b s.2 -> calm g b s p ->
  calm g b (s.1, m) p /\ calm g b (m, s.2) p.
Proof.
  intros Hm Hne Hc.
  assert (Hs1 : on_seg (vget b s.1) (vget b s.2) (vget b s.1)) by (exists 0; split; [lra|now rewrite at_frac_0]).
  assert (Hs2 : on_seg (vget b s.1) (vget b s.2) (vget b s.2)) by (exists 1; split; [lra|now rewrite at_frac_1]).
  assert (Hsm : on_seg (vget b s.1) (vget b s.2) (vget b m)) by (exists (1 / 2); split; [lra|exact Hm]).
  assert (Hpos : 0 < (fst (vget b s.1) - fst (vget b s.2)) * (fst (vget b s.1) - fst (vget b s.2)) + (snd (vget b s.1) - snd (vget b s.2)) * (snd (vget b s.1) - snd (vget b s.2))).
  { destruct (vget b s.1) as [a1 a2], (vget b s.2) as [c1 c2]. cbn. pose proof (Rle_0_sqr (a1 - c1)) as Q1. pose proof (Rle_0_sqr (a2 - c2)) as Q2. unfold Rsqr in *.
    destruct (Rle_lt_or_eq_dec _ _ Q1) as [L1|L1]; [lra|]. destruct (Rle_lt_or_eq_dec _ _ Q2) as [L2|L2]; [lra|]. exfalso. apply Hne.
    symmetry in L1, L2. apply Rmult_integral in L1, L2. f_equal; lra. }
  destruct Hc as [->|[->|[Hc|Hc]]].
  - split; [now left|]. right. right. left. unfold thales. cbn [fst snd]. rewrite Hm. unfold at_frac. destruct (vget b s.1) as [a1 a2], (vget b s.2) as [c1 c2]. cbn in *. lra.
  - split; [|right; now left]. right. right. left. unfold thales. cbn [fst snd]. rewrite Hm. unfold at_frac. destruct (vget b s.1) as [a1 a2], (vget b s.2) as [c1 c2]. cbn in *. lra.
  - unfold thales in Hc. split; right; right; left; unfold thales; cbn [fst snd]; rewrite Hm; unfold at_frac; destruct (vget b s.1) as [a1 a2], (vget b s.2) as [c1 c2], (vget b p) as [p1 p2]; cbn in *.
    + pose proof (Rle_0_sqr (p1 - a1)) as Q1. pose proof (Rle_0_sqr (p2 - a2)) as Q2. unfold Rsqr in *. nra.
    + pose proof (Rle_0_sqr (p1 - c1)) as Q1. pose proof (Rle_0_sqr (p2 - c2)) as Q2. unfold Rsqr in *. nra.
  - destruct Hc as (t & T & O1 & O2 & Ht & Hv).
    assert (Om : on_seg (vget b t.1) (vget b t.2) (vget b m)).
    { destruct O1 as (l & Hl & E1), O2 as (k & Hk & E2). exists (l + 1 / 2 * (k - l)). split; [lra|]. rewrite Hm, E1, E2. apply at_frac_frac. }
    split; right; right; right; exists t; cbn [fst snd]; auto.
Qed.

Section walls.
Context (g : geo R_arith) (base : list loop).
Definition ready (b : bound R_arith) : Prop := (exists cs, bd_inv b base cs) /\ proper_set b.
Lemma ready_range b s : ready b -> s ∈ b_set b -> (s.1 < length (b_pts b) /\ s.2 < length (b_pts b))%nat.
Proof.
  intros [(cs & Hb) _] He. apply (bi_set _ _ _ Hb) in He.
  assert (K : forall v, v ∈ verts_of cs -> (v < length (b_pts b))%nat). { intros v Hv. apply (bi_fresh _ _ _ Hb), (bi_stored _ _ _ Hb), Hv. }
  split; apply K.
  - rewrite <- edges_fst. apply elem_of_list_fmap. eauto.
  - rewrite <- edges_snd. apply elem_of_list_fmap. eauto.
Qed.

Lemma split_step fuel (st : plane R_arith) s r : ready (t_bound st) -> ruppert_split_segment g fuel st s = Ret r ->
  let b := t_bound st in let b' := t_bound r.1 in let m := length (b_pts b) in
  ready b' /\ same_base b b' /\ r.2 = ((s.1, m), (m, s.2), m) /\ b_verts b' = b_verts b ++ [m] /\ s ∈ b_set b /\
  (forall t, t ∈ b_set b' <-> (t ∈ b_set b /\ t <> s) \/ t = (s.1, m) \/ t = (m, s.2)) /\ vget b' m = at_frac (vget b s.1) (vget b s.2) (1 / 2).
Proof.
  intros Hr E. cbv zeta. apply split_bound in E as (q & Hq & Eb & E2). rewrite Eb, E2. pose proof (split_ret _ _ _ Hq) as [Hin Eq]. cbv zeta in Eq.
  destruct (ready_range _ _ Hr Hin) as [R1 R2]. pose proof Hr as [(cs & Hb) Hp]. destruct (inv_split _ _ _ _ _ Hb Hq) as [cs' Hb'].
  set (b := t_bound st) in *. set (m := length (b_pts b)) in *.
  assert (Hpts : b_pts q.1 = b_pts b ++ [xy_mid (vget b s.1) (vget b s.2)]) by (rewrite Eq; reflexivity).
  assert (Hset : forall t, t ∈ b_set q.1 <-> (t ∈ b_set b /\ t <> s) \/ t = (s.1, m) \/ t = (m, s.2)).
  { intros t. rewrite Eq. cbn [fst b_set]. rewrite elem_of_set_all, elem_of_difference, elem_of_singleton. unfold pieces. cbn [seq app chain]. fold m. rewrite !elem_of_cons, elem_of_nil. tauto. }
  assert (Hm : vget q.1 m = at_frac (vget b s.1) (vget b s.2) (1 / 2)).
  { unfold vget at 1. rewrite Hpts, app_nth2, Nat.sub_diag by (unfold m; lia). cbn [nth]. apply mid_frac. }
  assert (Hv : forall v, (v < length (b_pts b))%nat -> vget q.1 v = vget b v) by (intros v Hv; unfold vget at 1; rewrite Hpts; now apply vget_more).
  assert (Hne : vget b s.1 <> vget b s.2) by (apply Hp, Hin).
  split; [split; [eauto|]|].
  - intros t Ht. apply Hset in Ht as [[Ht _]|[->| ->]].
    + destruct (ready_range _ _ Hr Ht). rewrite !Hv by assumption. now apply Hp.
    + cbn [fst snd]. rewrite Hm, Hv by assumption. intros H. assert (H' : at_frac (vget b s.1) (vget b s.2) 0 = at_frac (vget b s.1) (vget b s.2) (1 / 2)) by (rewrite at_frac_0; exact H). apply at_frac_inj in H'; [lra|exact Hne].
    + cbn [fst snd]. rewrite Hm, Hv by assumption. intros H. assert (H' : at_frac (vget b s.1) (vget b s.2) (1 / 2) = at_frac (vget b s.1) (vget b s.2) 1) by (rewrite at_frac_1; exact H). apply at_frac_inj in H'; [lra|exact Hne].
  - split; [split; [rewrite Eq; reflexivity|split; [rewrite Eq; reflexivity|eauto]]|]. split; [rewrite Eq; reflexivity|]. split; [rewrite Eq; reflexivity|]. split; [exact Hin|]. split; [exact Hset|exact Hm].
Qed.

Lemma many_calm inner v (rest : list nat) : forall fuel (st : plane R_arith) stack res r, ready (t_bound st) ->
  (forall s p, s ∈ b_set (t_bound st) -> p ∈ b_verts (t_bound st) -> p ∈ rest \/ p ∈ res \/ (p = v /\ s ∈ stack) \/ calm g (t_bound st) s p) ->
  split_many g inner fuel v true st stack res = Ret r ->
  ready (t_bound r.1) /\ forall s p, s ∈ b_set (t_bound r.1) -> p ∈ b_verts (t_bound r.1) -> p ∈ rest \/ p ∈ r.2 \/ calm g (t_bound r.1) s p.
Proof.
  induction fuel as [|fuel IH]; intros st stack res r Hr Hall E; [discriminate|]. cbn [split_many] in E. destruct stack as [|s stack].
  { injection E as <-. cbn [fst snd]. split; [exact Hr|]. intros s p Hs Hp. destruct (Hall s p Hs Hp) as [H|[H|[[_ H]|H]]]; auto. now apply elem_of_nil in H. }
  apply bind_ret_inv in E as (q & Es & E). destruct (split_step inner st s q Hr Es) as (Hr' & Hsb & E2 & Hverts & Hin & Hset & Hm). cbv zeta in *.
  destruct q as [st1 [[ca cb] m']]. cbn [fst snd] in *. injection E2 as -> -> ->. set (b := t_bound st) in *. set (m := length (b_pts b)) in *. set (b' := t_bound st1) in *.
  apply bind_ret_inv in E as (ea & Ea & E). apply bind_ret_inv in E as (eb & Eb & E). pose proof Hr as [(cs & Hb) Hp]. destruct (ready_range _ _ Hr Hin) as [R1 R2].
  refine (IH st1 _ (res ++ [m]) r Hr' _ E). fold b'. intros t p Ht Hpv. rewrite Hverts in Hpv. apply elem_of_app in Hpv as [Hpv|Hpv].
  2:{ right. left. apply elem_of_app. now right. }
  assert (Hpl : (p < length (b_pts b))%nat) by (now apply (bi_fresh _ _ _ Hb)).
  assert (Hv : forall v, (v < length (b_pts b))%nat -> vget b' v = vget b v).
  { intros w Hw. destruct Hsb as (_ & _ & more & Hpts). unfold vget at 1. rewrite Hpts. now apply vget_more. }
  apply Hset in Ht as Ht'. destruct Ht' as [[Hold Hns]|Hnew].
  - destruct (Hall t p Hold Hpv) as [H|[H|[[-> H]|H]]]; [now left|right; left; apply elem_of_app; now left|..].
    + right. right. left. split; [reflexivity|]. apply elem_of_cons in H as [H|H]; [contradiction|]. destruct ea, eb; rewrite ?elem_of_cons; auto.
    + destruct (ready_range _ _ Hr Hold). right. right. right. apply (calm_keep g b b' base cs); assumption.
  - destruct (ready_range _ _ Hr' Ht) as [T1 T2].
    destruct (Nat.eq_dec p v) as [->|Hpv'].
    + right. right. destruct Hnew as [->| ->].
      * destruct ea; [left; split; [reflexivity|]; destruct eb; rewrite ?elem_of_cons; auto|right]. apply encroaches_calm; assumption.
      * destruct eb; [left; split; [reflexivity|]; rewrite ?elem_of_cons; auto|right]. apply encroaches_calm; assumption.
    + destruct (Hall s p Hin Hpv) as [H|[H|[[H _]|H]]]; [now left|right; left; apply elem_of_app; now left|contradiction|].
      right. right. right. apply (calm_keep g b b' base cs s p Hb Hsb R1 R2 Hpl) in H.
      destruct (calm_half g b' s m p) as [H1 H2]; [rewrite Hm, !Hv by assumption; reflexivity|rewrite !Hv by assumption; apply Hp, Hin|exact H|].
      destruct Hnew as [->| ->]; assumption.
Qed.

Lemma encroached_calm (st : plane R_arith) v segs s : ready (t_bound st) -> segments_encroached_by g st v = Ret segs -> s ∈ b_set (t_bound st) -> s ∈ segs \/ calm g (t_bound st) s v.
Proof.
  intros Hr E Hs. unfold segments_encroached_by in E. apply bind_ret_inv in E as (walls & Ew & E). apply bind_ret_inv in E as (fl & Ef & E). injection E as <-.
  pose proof Hr as [(cs & Hb) _]. destruct (walls_ret _ _ _ _ Hb Ew) as (_ & _ & Hset).
  assert (Hw : s ∈ walls) by (rewrite <- Hset in Hs; now apply elem_of_list_to_set in Hs).
  assert (K : exists e, ruppert_encroaches g st v s = Ret e /\ (s, e) ∈ fl).
  { clear Hset Ew. revert fl Ef. induction walls as [|w walls IH]; intros fl Ef; [now apply elem_of_nil in Hw|]. cbn [mapM_out] in Ef. apply bind_ret_inv in Ef as (y & Ey & Ef). apply bind_ret_inv in Ef as (ys & Eys & Ef).
    injection Ef as <-. apply bind_ret_inv in Ey as (e & Ee & Ey). injection Ey as <-. apply elem_of_cons in Hw as [->|Hw].
    - exists e. split; [exact Ee|apply elem_of_list_here].
    - destruct (IH Hw ys Eys) as (e' & H1 & H2). exists e'. split; [exact H1|now apply elem_of_list_further]. }
  destruct K as (e & Ee & Hf). destruct e.
  - left. apply elem_of_list_In, in_map_iff. exists (s, true). split; [reflexivity|]. apply filter_In. split; [now apply elem_of_list_In|reflexivity].
  - right. destruct (ready_range _ _ Hr Hs). now apply encroaches_calm.
Qed.

Lemma walls_calm inner : forall fuel (st : plane R_arith) stack st', ready (t_bound st) ->
  (forall s p, s ∈ b_set (t_bound st) -> p ∈ b_verts (t_bound st) -> p ∈ stack \/ calm g (t_bound st) s p) ->
  ruppert_walls g inner fuel st stack = Ret st' ->
  ready (t_bound st') /\ forall s p, s ∈ b_set (t_bound st') -> p ∈ b_verts (t_bound st') -> calm g (t_bound st') s p.
Proof.
  induction fuel as [|fuel IH]; intros st stack st' Hr Hall E; [discriminate|]. cbn [ruppert_walls] in E. destruct stack as [|v stack].
  { injection E as <-. split; [exact Hr|]. intros s p Hs Hp. destruct (Hall s p Hs Hp) as [H|H]; [now apply elem_of_nil in H|exact H]. }
  apply bind_ret_inv in E as (segs & Es & E).
  assert (Hseg : forall s p, s ∈ b_set (t_bound st) -> p ∈ b_verts (t_bound st) -> p ∈ stack \/ (p = v /\ s ∈ segs) \/ calm g (t_bound st) s p).
  { intros s p Hs Hp. destruct (Hall s p Hs Hp) as [H|H]; [|auto]. apply elem_of_cons in H as [->|H]; [|auto].
    destruct (encroached_calm st v segs s Hr Es Hs); auto. }
  destruct segs as [|s0 segs].
  - refine (IH st stack st' Hr _ E). intros s p Hs Hp. destruct (Hseg s p Hs Hp) as [H|[[_ H]|H]]; auto. now apply elem_of_nil in H.
  - apply bind_ret_inv in E as (r & Er & E). destruct (many_calm inner v stack inner st (rev (s0 :: segs)) [] r Hr) as [Hr' Hall']; [|exact Er|].
    + intros s p Hs Hp. destruct (Hseg s p Hs Hp) as [H|[[-> H]|H]]; auto. right. right. left. split; [reflexivity|]. apply elem_of_list_In. rewrite <- in_rev. now apply elem_of_list_In.
    + refine (IH r.1 _ st' Hr' _ E). intros s p Hs Hp. destruct (Hall' s p Hs Hp) as [H|[H|H]]; auto; left; apply elem_of_app; [now right|left].
      apply elem_of_list_In. rewrite <- in_rev. now apply elem_of_list_In.
Qed.
End walls.

(** ** the refinement loop *)
Section tverts.
Context {A : arith} (g : geo A).
Lemma add_tverts (st : plane A) t st' : add_triangle g st t = Some st' -> t_verts st' = t_verts st.
Proof. unfold add_triangle. repeat (match goal with |- context [if ?c then _ else _] => destruct c end; try discriminate). now injection 1 as <-. Qed.
Lemma del_tverts (st : plane A) t st' : delete_triangle st t = Some st' -> t_verts st' = t_verts st.
Proof. unfold delete_triangle. destruct (bool_decide _); [|discriminate]. now injection 1 as <-. Qed.
Lemma dig_tverts fuel : forall u v w (st st' : plane A), dig g fuel u v w st = Ret st' -> t_verts st' = t_verts st.
Proof.
  induction fuel as [|fuel IH]; intros u v w st st' E; [discriminate|]. cbn [dig] in E.
  assert (Hadd : forall s', unwrap (add_triangle g st (u, v, w)) = Ret s' -> t_verts s' = t_verts st).
  { intros s' H. apply unwrap_inv in H. exact (add_tverts _ _ _ H). }
  assert (Hdeep : forall x s', (st ← unwrap (delete_triangle st (w, v, x)); st ← dig g fuel u v x st; dig g fuel u x w st) = Ret s' -> t_verts s' = t_verts st).
  { intros x s' H. apply bind_ret_inv in H as (s1 & H1 & H). apply bind_ret_inv in H as (s2 & H2 & H).
    rewrite (IH _ _ _ _ _ H), (IH _ _ _ _ _ H2). apply unwrap_inv in H1. exact (del_tverts _ _ _ H1). }
  destruct (is_segment _ _ || is_segment _ _); [exact (Hadd _ E)|]. destruct (pl_adjacent st (w, v)) as [x|]; [|exact (Hadd _ E)].
  destruct (is_negative _); [exact (Hdeep _ _ E)|]. apply bind_ret_inv in E as (ins & _ & E). destruct ins; [exact (Hdeep _ _ E)|exact (Hadd _ E)].
Qed.
Lemma insert_tverts fuel u t (st st' : plane A) : insert_vertex g fuel u t st = Ret st' -> t_verts st' = t_verts st.
Proof.
  unfold insert_vertex. intros E. apply bind_ret_inv in E as (s1 & E1 & E). apply bind_ret_inv in E as (s2 & E2 & E).
  apply bind_ret_inv in E as (s3 & E3 & E). rewrite (dig_tverts _ _ _ _ _ _ E), (dig_tverts _ _ _ _ _ _ E3), (dig_tverts _ _ _ _ _ _ E2).
  apply unwrap_inv in E1. exact (del_tverts _ _ _ E1).
Qed.
Lemma split_tverts fuel (st : plane A) s r : ruppert_split_segment g fuel st s = Ret r -> t_verts r.1 = t_verts st.
Proof.
  unfold ruppert_split_segment. intros E. apply bind_ret_inv in E as (x & _ & E). apply bind_ret_inv in E as (s1 & E1 & E).
  apply bind_ret_inv in E as (q & Eq & E). cbv zeta in E. apply bind_ret_inv in E as (s2 & E2 & E). apply bind_ret_inv in E as (s3 & E3 & E).
  injection E as <-. cbn [fst]. rewrite (dig_tverts _ _ _ _ _ _ E3), (dig_tverts _ _ _ _ _ _ E2). cbn [t_verts with_bound].
  apply unwrap_inv in E1. exact (del_tverts _ _ _ E1).
Qed.
Lemma many_tverts inner p rc fuel : forall (st : plane A) stack res r, split_many g inner fuel p rc st stack res = Ret r -> t_verts r.1 = t_verts st.
Proof.
  induction fuel as [|fuel IH]; intros st stack res r E; [discriminate|]. cbn [split_many] in E. destruct stack as [|s stack]; [now injection E as <-|].
  apply bind_ret_inv in E as (q & Es & E). destruct q as [s1 [[ca cb] v]]. apply bind_ret_inv in E as (ea & _ & E). apply bind_ret_inv in E as (eb & _ & E).
  rewrite (IH _ _ _ _ E). exact (split_tverts _ _ _ _ Es).
Qed.
Lemma walls_tverts inner fuel : forall (st : plane A) stack st', ruppert_walls g inner fuel st stack = Ret st' -> t_verts st' = t_verts st.
Proof.
  induction fuel as [|fuel IH]; intros st stack st' E; [discriminate|]. cbn [ruppert_walls] in E.
  destruct stack as [|v stack]; [now injection E as <-|]. apply bind_ret_inv in E as (segs & _ & E).
  destruct segs as [|s segs]; [eauto|]. apply bind_ret_inv in E as (r & Es & E). rewrite (IH _ _ _ E). exact (many_tverts _ _ _ _ _ _ _ _ Es).
Qed.
Lemma gift_loop_tverts pk fuel : forall (st : plane A) X lost r, gift_loop g pk fuel st X lost = Ret r -> t_verts r.1 = t_verts st.
Proof.
  induction fuel as [|fuel IH]; intros st X lost r E; [discriminate|]. cbn [gift_loop] in E.
  destruct (bool_decide (X = ∅)); [now injection E as <-|]. apply bind_ret_inv in E as (e & _ & E). cbv zeta in E.
  apply bind_ret_inv in E as (o & _ & E). destruct o as [[[t a] b]|]; [|exact (IH _ _ _ _ E)].
  apply bind_ret_inv in E as (s1 & E1 & E). rewrite (IH _ _ _ _ E). apply unwrap_inv in E1. exact (add_tverts _ _ _ E1).
Qed.
Lemma gift_tverts pk fuel (st : plane A) r : gift_wrap g pk fuel st = Ret r -> t_verts r.1 = t_verts st.
Proof. unfold gift_wrap. intros E. apply bind_ret_inv in E as (w & _ & E). now rewrite (gift_loop_tverts _ _ _ _ _ _ E). Qed.
End tverts.
Lemma many_verts (g : geo R_arith) base inner c rc : forall fuel (st : plane R_arith) stack res r, ready base (t_bound st) -> split_many g inner fuel c rc st stack res = Ret r ->
  ready base (t_bound r.1) /\ forall p, p ∈ b_verts (t_bound st) -> p ∈ b_verts (t_bound r.1).
Proof.
  induction fuel as [|fuel IH]; intros st stack res r Hr E; [discriminate|]. cbn [split_many] in E. destruct stack as [|s stack]; [injection E as <-; auto|].
  apply bind_ret_inv in E as (q & Es & E). destruct (split_step g base inner st s q Hr Es) as (Hr' & _ & _ & Hverts & _). cbv zeta in *.
  destruct q as [st1 [[ca cb] m']]. cbn [fst snd] in *. apply bind_ret_inv in E as (ea & _ & E). apply bind_ret_inv in E as (eb & _ & E).
  destruct (IH _ _ _ _ Hr' E) as [H1 H2]. split; [exact H1|]. intros p Hp. apply H2. rewrite Hverts. apply elem_of_app. now left.
Qed.
Lemma walls_verts (g : geo R_arith) inner base : forall fuel (st : plane R_arith) stack st', ready base (t_bound st) -> ruppert_walls g inner fuel st stack = Ret st' ->
  forall p, p ∈ b_verts (t_bound st) -> p ∈ b_verts (t_bound st').
Proof.
  induction fuel as [|fuel IH]; intros st stack st' Hr E p Hp; [discriminate|]. cbn [ruppert_walls] in E.
  destruct stack as [|v stack]; [now injection E as <-|]. apply bind_ret_inv in E as (segs & _ & E).
  destruct segs as [|s segs]; [eauto|]. apply bind_ret_inv in E as (r & Es & E). destruct (many_verts _ _ _ _ _ _ _ _ _ _ Hr Es) as [H1 H2]. apply (IH _ _ _ H1 E), H2, Hp.
Qed.

Section refine.
Context (g : geo R_arith) (base : list loop).
(** the vertices of [Q] are calm for all walls *)
Definition quiet_for (b : bound R_arith) (Q : list nat) : Prop :=
  forall s p, s ∈ b_set b -> p ∈ Q -> (p < length (b_pts b))%nat /\ calm g b s p.

Lemma many_quiet inner c rc Q : forall fuel (st : plane R_arith) stack res r, ready base (t_bound st) -> quiet_for (t_bound st) Q ->
  split_many g inner fuel c rc st stack res = Ret r -> ready base (t_bound r.1) /\ quiet_for (t_bound r.1) Q.
Proof.
  induction fuel as [|fuel IH]; intros st stack res r Hr HQ E; [discriminate|]. cbn [split_many] in E. destruct stack as [|s stack].
  { injection E as <-. auto. }
  apply bind_ret_inv in E as (q & Es & E). destruct (split_step g base inner st s q Hr Es) as (Hr' & Hsb & E2 & Hverts & Hin & Hset & Hm). cbv zeta in *.
  destruct q as [st1 [[ca cb] m']]. cbn [fst snd] in *. injection E2 as -> -> ->. set (b := t_bound st) in *. set (m := length (b_pts b)) in *. set (b' := t_bound st1) in *.
  apply bind_ret_inv in E as (ea & _ & E). apply bind_ret_inv in E as (eb & _ & E). pose proof Hr as [(cs & Hb) Hp]. destruct (ready_range _ _ _ Hr Hin) as [R1 R2].
  refine (IH st1 _ (res ++ [m]) r Hr' _ E). fold b'. intros t p Ht HpQ. pose proof Hsb as (_ & _ & more & Hpts).
  assert (Hpl : (p < length (b_pts b))%nat) by (exact (proj1 (HQ s p Hin HpQ))).
  split; [rewrite Hpts, app_length; lia|].
  assert (Hv : forall v, (v < length (b_pts b))%nat -> vget b' v = vget b v).
  { intros w Hw. unfold vget at 1. rewrite Hpts. now apply vget_more. }
  apply Hset in Ht as [[Hold Hns]|Hnew].
  - destruct (ready_range _ _ _ Hr Hold). apply (calm_keep g b b' base cs); try assumption. apply (HQ t p Hold HpQ).
  - pose proof (calm_keep g b b' base cs s p Hb Hsb R1 R2 Hpl (proj2 (HQ s p Hin HpQ))) as H.
    destruct (calm_half g b' s m p) as [H1 H2]; [rewrite Hm, !Hv by assumption; reflexivity|rewrite !Hv by assumption; apply Hp, Hin|exact H|].
    destruct Hnew as [->| ->]; assumption.
Qed.

(** adding a point *)
Lemma ready_more b b' more : ready base b -> same_base b b' -> b_pts b' = b_pts b ++ more -> (forall cs, bd_inv b base cs -> bd_inv b' base cs) -> b_set b' = b_set b -> ready base b'.
Proof.
  intros Hr Hsb Hp Hi Hs. split; [destruct Hr as [(cs & H) _]; eauto|]. intros s Hin. rewrite Hs in Hin. destruct (ready_range _ _ _ Hr Hin).
  assert (Hv : forall v, (v < length (b_pts b))%nat -> vget b' v = vget b v) by (intros v Hv; unfold vget at 1; rewrite Hp; now apply vget_more).
  rewrite !Hv by assumption. now apply Hr.
Qed.
Lemma quiet_more b b' more Q : ready base b -> same_base b b' -> b_pts b' = b_pts b ++ more -> b_set b' = b_set b -> quiet_for b Q -> quiet_for b' Q.
Proof.
  intros Hr Hsb Hp Hs HQ s p Hin HpQ. rewrite Hs in Hin. destruct (HQ s p Hin HpQ) as [Hpl Hc]. destruct (ready_range _ _ _ Hr Hin). pose proof Hr as [(cs & Hb) _].
  split; [rewrite Hp, app_length; lia|]. apply (calm_keep g b b' base cs); assumption.
Qed.
Lemma calm_same_place b s p q : vget b p = vget b q -> p <> s.1 -> p <> s.2 -> calm g b s p -> calm g b s q.
Proof.
  intros Hv H1 H2 [H|[H|[H|H]]]; [contradiction|contradiction|..].
  - right. right. left. unfold thales in *. now rewrite <- Hv.
  - right. right. right. destruct H as (t & T & O1 & O2 & Ht & Hm). exists t. split; [exact T|]. split; [exact O1|]. split; [exact O2|].
    unfold thales, midpoint_visible in *. rewrite <- Hv. auto.
Qed.

Lemma loop_quiet ft inner h Q : forall fuel (st st' : plane R_arith), ready base (t_bound st) -> quiet_for (t_bound st) (Q ++ t_verts st) ->
  ruppert_loop g ft inner fuel h st = Ret st' -> ready base (t_bound st') /\ quiet_for (t_bound st') (Q ++ t_verts st').
Proof.
  induction fuel as [|fuel IH]; intros st st' Hr HQ E; [discriminate|]. cbn [ruppert_loop] in E.
  destruct (skinny_triangle _ _ _ _) as [t|]; [|injection E as <-; auto].
  apply bind_ret_inv in E as (o & _ & E). apply bind_ret_inv in E as (x & _ & E). cbn [vertex_new] in E.
  set (b := t_bound st) in *. set (b1 := with_pts b (b_pts b ++ [x])) in *.
  assert (Hsb1 : same_base b b1) by (split; [reflexivity|split; [reflexivity|eexists; reflexivity]]).
  assert (Hr1 : ready base b1) by (apply (ready_more b b1 [x]); auto; intros cs H; exact (bd_more b base cs [x] H)).
  assert (HQ1 : quiet_for b1 (Q ++ t_verts st)) by (apply (quiet_more b b1 [x]); auto).
  apply bind_ret_inv in E as (segs & Es & E). destruct segs as [|s0 segs].
  - assert (Hc1 : forall s, s ∈ b_set b1 -> calm g b1 s (length (b_pts b))).
    { intros s Hs. destruct (encroached_calm g base (with_bound st b1) (length (b_pts b)) [] s Hr1 Es Hs) as [H|H]; [now apply elem_of_nil in H|exact H]. }
    unfold pl_store_vertex in E. cbn [vertex_new t_bound with_bound] in E. set (b2 := with_pts b1 (b_pts b1 ++ [x])) in *.
    assert (Hsb2 : same_base b1 b2) by (split; [reflexivity|split; [reflexivity|eexists; reflexivity]]).
    assert (Hr2 : ready base b2) by (apply (ready_more b1 b2 [x]); auto; intros cs H; exact (bd_more b1 base cs [x] H)).
    assert (HQ2 : quiet_for b2 (Q ++ t_verts st)) by (apply (quiet_more b1 b2 [x]); auto).
    apply bind_ret_inv in E as (s2 & Ei & E). pose proof (insert_bound _ _ _ _ _ _ Ei) as Eb. pose proof (insert_tverts _ _ _ _ _ _ Ei) as Et. cbn [t_bound t_verts with_tverts with_bound] in Eb, Et.
    refine (IH s2 st' _ _ E); rewrite Eb; [exact Hr2|]. rewrite Et. cbn [t_verts with_bound]. intros s p Hs Hp. rewrite app_assoc in Hp. apply elem_of_app in Hp as [Hp|Hp]; [exact (HQ2 s p Hs Hp)|].
    apply elem_of_list_singleton in Hp as ->. assert (L1 : length (b_pts b1) = S (length (b_pts b))) by (unfold b1; cbn; rewrite app_length; cbn; lia).
    assert (L2 : length (b_pts b2) = S (length (b_pts b1))) by (unfold b2; cbn; rewrite !app_length; cbn; lia). split; [lia|].
    change (b_set b2) with (b_set b1) in Hs. pose proof (Hc1 s Hs) as Hc. destruct (ready_range _ _ _ Hr1 Hs) as [R1 R2].
    pose proof (ready_range base b s Hr Hs) as [R3 R4].
    apply (calm_same_place b2 s (length (b_pts b))); [|lia|lia|].
    + assert (V1 : vget b2 (length (b_pts b)) = x).
      { unfold vget, b2, b1. cbn [b_pts with_pts]. rewrite app_nth1 by (rewrite app_length; cbn; lia). rewrite app_nth2, Nat.sub_diag by lia. reflexivity. }
      assert (V2 : vget b2 (length (b_pts b1)) = x).
      { unfold vget, b2. cbn [b_pts with_pts]. rewrite app_nth2, Nat.sub_diag by lia. reflexivity. }
      now rewrite V1, V2.
    + pose proof Hr1 as [(cs & Hb1) _]. apply (calm_keep g b1 b2 base cs); try assumption. lia.
  - apply bind_ret_inv in E as (r & Er & E). destruct (many_quiet inner (length (b_pts b)) false (Q ++ t_verts st) _ (with_bound st b1) _ _ _ Hr1 HQ1 Er) as [Hr2 HQ2].
    refine (IH r.1 st' Hr2 _ E). rewrite (many_tverts _ _ _ _ _ _ _ _ _ Er). exact HQ2.
Qed.

(** the whole mesher: the corners and the inner vertices *)
Lemma mesh_calm pk ft fuel h b st : ready base b -> ruppert_mesh g pk ft fuel h (pl_new b) = Ret st ->
  forall s p, s ∈ b_set (t_bound st) -> p ∈ b_verts b \/ p ∈ t_verts st -> calm g (t_bound st) s p.
Proof.
  intros Hr E s p Hs Hp. unfold ruppert_mesh in E. apply bind_ret_inv in E as (r & Eg & E). apply bind_ret_inv in E as (s1 & Ew & E).
  pose proof (gift_bound _ _ _ _ _ Eg) as Eb. cbn [pl_new t_bound] in Eb. pose proof (gift_tverts _ _ _ _ _ Eg) as Et. cbn [pl_new t_verts] in Et.
  assert (Hr0 : ready base (t_bound r.1)) by (rewrite Eb; exact Hr).
  destruct (walls_calm g base fuel fuel r.1 (rev (b_verts (t_bound r.1))) s1 Hr0) as [Hr1 Hc1].
  2:{ exact Ew. }
  { intros t q _ Hq. left. apply elem_of_list_In. rewrite <- in_rev. now apply elem_of_list_In. }
  pose proof (walls_verts _ _ base _ _ _ _ Hr0 Ew) as Hsub. rewrite Eb in Hsub.
  destruct (loop_quiet ft fuel h (b_verts b) fuel s1 st Hr1) as [_ HQ]; [|exact E|].
  - rewrite (walls_tverts _ _ _ _ _ _ Ew), Et, app_nil_r. intros t q Ht Hq. pose proof (Hsub _ Hq) as Hq1. pose proof Hr1 as [(cs & Hb) _]. split; [now apply (bi_fresh _ _ _ Hb)|]. now apply Hc1.
  - apply (HQ s p Hs). apply elem_of_app. exact Hp.
Qed.
End refine.

Lemma walls_calm_built (g : geo R_arith) (st st' : plane R_arith) polys inner fuel : bd_built g (t_bound st) polys -> proper_set (t_bound st) ->
  ruppert_walls g inner fuel st (rev (b_verts (t_bound st))) = Ret st' ->
  forall s p, s ∈ b_set (t_bound st') -> p ∈ b_verts (t_bound st') ->
  let P := vget (t_bound st') in
  p = s.1 \/ p = s.2 \/ (0 < (fst (P p) - fst (P s.1)) * (fst (P p) - fst (P s.2)) + (snd (P p) - snd (P s.1)) * (snd (P p) - snd (P s.2)))%R \/
  exists t, (t.1 < length (b_pts (t_bound st')))%nat /\ (t.2 < length (b_pts (t_bound st')))%nat /\ on_seg (P t.1) (P t.2) (P s.1) /\ on_seg (P t.1) (P t.2) (P s.2) /\
    ((fst (P p) - fst (P t.1)) * (fst (P p) - fst (P t.2)) + (snd (P p) - snd (P t.1)) * (snd (P p) - snd (P t.2)) <= 0)%R /\ midpoint_visible g (t_bound st') t p = Ret false.
Proof.
  intros Hb Hp E s p Hs Hv P. destruct (bd_built_inv g _ polys Hb) as (base & cs & Hi & ->).
  destruct (walls_calm g base inner fuel st (rev (b_verts (t_bound st))) st') as [_ H]; [split; [eauto|exact Hp]| |exact E|].
  { intros t q _ Hq. left. apply elem_of_list_In. rewrite <- in_rev. now apply elem_of_list_In. }
  destruct (H s p Hs Hv) as [Hc|[Hc|[Hc|(t & [H1 H2] & H3 & H4 & H5 & H6)]]]; [tauto|tauto|tauto|].
  right; right; right. exists t. repeat (split; [assumption|]). assumption.
Qed.
Lemma mesh_calm_built (g : geo R_arith) (b : bound R_arith) polys pk ft fuel h st : bd_built g b polys -> proper_set b ->
  ruppert_mesh g pk ft fuel h (pl_new b) = Ret st ->
  forall s p, s ∈ b_set (t_bound st) -> p ∈ b_verts b \/ p ∈ t_verts st ->
  let P := vget (t_bound st) in
  p = s.1 \/ p = s.2 \/ (0 < (fst (P p) - fst (P s.1)) * (fst (P p) - fst (P s.2)) + (snd (P p) - snd (P s.1)) * (snd (P p) - snd (P s.2)))%R \/
  exists t, (t.1 < length (b_pts (t_bound st)))%nat /\ (t.2 < length (b_pts (t_bound st)))%nat /\ on_seg (P t.1) (P t.2) (P s.1) /\ on_seg (P t.1) (P t.2) (P s.2) /\
    ((fst (P p) - fst (P t.1)) * (fst (P p) - fst (P t.2)) + (snd (P p) - snd (P t.1)) * (snd (P p) - snd (P t.2)) <= 0)%R /\ midpoint_visible g (t_bound st) t p = Ret false.
Proof.
  intros Hb Hp E s p Hs Hv P. destruct (bd_built_inv g _ polys Hb) as (base & cs & Hi & ->).
  destruct (mesh_calm g base pk ft fuel h b st (conj (ex_intro _ cs Hi) Hp) E s p Hs Hv) as [Hc|[Hc|[Hc|(t & [H1 H2] & H3 & H4 & H5 & H6)]]]; [tauto|tauto|tauto|].
  right; right; right. exists t. repeat (split; [assumption|]). assumption.
Qed.
