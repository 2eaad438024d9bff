(** The initial triangulation: what it covers, and that it ends. *)
From Verif Require Export MeshLoops.
From Coq Require Import Ring.

Section gift.
Context {A : arith} (g : geo A).
Implicit Types st : plane A.

Definition erev (e : edge) : edge := (e.2, e.1).
Lemma erev_erev e : erev (erev e) = e.
Proof. now destruct e. Qed.

Lemma search_in st e vis r : search g st e vis = Ret (Some r) -> r ∈ all_vertices st.
Proof.
  intros E. unfold search in E.
  refine (foldM_ret_inv (fun _ (o : option nat) => match o with Some v => v ∈ all_vertices st | None => True end) _ _ _ _ _ _ E); [|exact I].
  intros pre x post s s' Hl Hs Hf. assert (Hx : x ∈ all_vertices st) by (rewrite Hl; apply elem_of_app; right; left).
  destruct (to_left g st e x); [|now injection Hf as <-]. apply bind_ret_inv in Hf as (ok & _ & Hf). destruct ok; [|now injection Hf as <-].
  apply bind_ret_inv in Hf as (seen & _ & Hf). destruct seen; now injection Hf as <-.
Qed.
Lemma finish_ret st e t a b : gift_wrap_finish g st e = Ret (Some (t, a, b)) ->
  exists x, x ∈ all_vertices st /\ t = (e.1, e.2, x) /\ a = (e.2, x) /\ b = (x, e.1).
Proof.
  unfold gift_wrap_finish. intros E. apply bind_ret_inv in E as (r & E1 & E). destruct r as [v|]; [|discriminate].
  apply bind_ret_inv in E as (seen & _ & E). apply bind_ret_inv in E as (r & Er & E).
  destruct r as [x|]; [|discriminate]. cbn in E. injection E as <- <- <-. exists x. split; [|auto].
  destruct seen; [injection Er as <-; now apply search_in in E1|now apply search_in in Er].
Qed.

Lemma pick_inv pk n X e : pick_ok pk -> X <> ∅ -> unwrap (pk n X) = Ret e -> e ∈ X.
Proof. intros Hp HX E. destruct (Hp n X HX) as (e' & H1 & H2). rewrite H1 in E. injection E as <-. exact H2. Qed.
Lemma add_tris st t st' e : add_triangle g st t = Some st' ->
  is_Some (t_tris st' !! e) <-> e ∈ tri_edges t \/ is_Some (t_tris st !! e).
Proof.
  intros H. apply add_ret in H as (_ & _ & _ & Ht & _). rewrite Ht. destruct (decide (e ∈ tri_edges t)) as [He|He].
  - split; [auto|]. intros _. apply in_edges in He as [->|[->| ->]]; eexists; apply tris_add_lookup; eauto.
  - split.
    + intros [w Hw]. apply tris_add_lookup in Hw. destruct Hw as [[-> _]|[[-> _]|[[-> _]|[_ Hw]]]]; [exfalso; apply He, in_edges; auto..|eauto].
    + intros [?|[w Hw]]; [tauto|]. exists w. apply tris_add_lookup. auto.
Qed.

Lemma toggle_in X a f : f ∈ toggle X a -> f ∈ X \/ f = erev a.
Proof. unfold toggle, erev. case_bool_decide; set_solver. Qed.
Lemma toggle_in2 X e a b f : f ∈ toggle (toggle (X ∖ {[e]}) a) b -> f ∈ X \/ f = erev a \/ f = erev b.
Proof. intros H. apply toggle_in in H as [H|H]; [|auto]. apply toggle_in in H as [H|H]; [|auto]. left. set_solver. Qed.

Lemma gift_loop_sub pk fuel : forall st X lost r, gift_loop g pk fuel st X lost = Ret r ->
  forall e, is_Some (t_tris st !! e) -> is_Some (t_tris r.1 !! e).
Proof.
  induction fuel as [|fuel IH]; intros st X lost r E e He; [discriminate|]. cbn [gift_loop] in E. case_bool_decide; [injection E as <-; exact He|].
  apply bind_ret_inv in E as (e0 & _ & E). apply bind_ret_inv in E as (o & _ & E). destruct o as [[[t a] b]|]; [|eauto].
  apply bind_ret_inv in E as (s1 & Ha & E). apply unwrap_inv in Ha. apply (IH _ _ _ _ E). apply (add_tris _ _ _ _ Ha). auto.
Qed.

(** consistency, without any condition on the result *)
Lemma gift_loop_ok (pk : pick_fn) : pick_ok pk -> forall fuel st X lost r, mesh_ok g st -> (forall v, v ∈ all_vertices st -> v < n_pts st) ->
  (forall e, e ∈ X -> e.1 < n_pts st /\ e.2 < n_pts st) -> gift_loop g pk fuel st X lost = Ret r ->
  mesh_ok g r.1 /\ same_verts st r.1.
Proof.
  intros Hp. induction fuel as [|fuel IH]; intros st X lost r H Hv HX E; [discriminate|]. cbn [gift_loop] in E.
  case_bool_decide as HE; [injection E as <-; split; [exact H|apply same_refl]|].
  apply bind_ret_inv in E as (e & Hpk & E). pose proof (pick_inv _ _ _ _ Hp HE Hpk) as He. destruct (HX e He) as [He1 He2].
  apply bind_ret_inv in E as (o & Ho & E). destruct o as [[[t a] b]|].
  - apply finish_ret in Ho as (x & Hx & -> & -> & ->). apply bind_ret_inv in E as (s1 & Ha & E). apply unwrap_inv in Ha.
    assert (Hr : in_range st (e.1, e.2, x)). { unfold in_range. cbn. split; [exact He1|]. split; [exact He2|now apply Hv]. }
    destruct (mesh_add _ _ _ _ H Hr Ha) as (H1 & [Hb1 Hv1] & _ & _).
    assert (Hr' : e.1 < n_pts s1 /\ e.2 < n_pts s1 /\ x < n_pts s1). { unfold n_pts. rewrite Hb1. exact Hr. }
    specialize (fun a b => IH _ _ _ _ H1 a b E).
    destruct IH as [H2 S2].
    + intros v. unfold all_vertices, n_pts. rewrite Hb1, Hv1. apply Hv.
    + assert (HXe : forall f, f ∈ X -> f.1 < n_pts s1 /\ f.2 < n_pts s1). { unfold n_pts. rewrite Hb1. exact HX. }
      intros f Hf. apply toggle_in2 in Hf as [Hf|[->| ->]]; [now apply HXe|..]; cbn; tauto.
    + split; [exact H2|]. eapply same_trans; [|exact S2]. now split.
  - refine (IH _ _ _ _ H Hv _ E). intros f Hf. apply HX. set_solver.
Qed.

Section sums.
Context {R : Type} (rO rI : R) (radd rmul rsub : R -> R -> R) (ropp : R -> R).
Hypothesis RT : ring_theory rO rI radd rmul rsub ropp eq.
Add Ring RR4 : RT.
Variable w : edge -> R.
Hypothesis anti : forall a b, radd (w (a, b)) (w (b, a)) = rO.
Local Notation total st := (tsum rO radd (around radd w) (t_full st)).
Local Notation SS := (ssum rO radd w).
Local Notation ES := (esum rO radd w).

Lemma toggle_sum X a : (a ∈ X \/ erev a ∉ X) -> radd (SS (toggle X a)) (w a) = SS X.
Proof.
  intros H. unfold toggle. case_bool_decide as Ha.
  - rewrite (ssum_remove _ _ _ _ _ _ RT w X a Ha). ring.
  - destruct H as [H|H]; [tauto|]. unfold erev in H. rewrite (ssum_insert _ _ _ _ _ _ RT) by exact H.
    destruct a as [p q]. cbn. pose proof (anti p q) as Q.
    transitivity (radd (SS X) (radd (w (p, q)) (w (q, p)))); [ring|]. rewrite Q. ring.
Qed.

Lemma gift_loop_sum (pk : pick_fn) (Wl : gset edge) : pick_ok pk -> forall fuel st X lost r, mesh_ok g st -> (forall v, v ∈ all_vertices st -> v < n_pts st) ->
  (forall e, e ∈ X -> e.1 < n_pts st /\ e.2 < n_pts st) -> (forall e, e ∈ X -> e ∈ Wl \/ is_Some (t_tris st !! erev e)) ->
  gift_loop g pk fuel st X lost = Ret r -> (forall s, s ∈ Wl -> t_tris r.1 !! erev s = None) ->
  radd (total r.1) (ES r.2) = radd (radd (total st) (ES lost)) (SS X).
Proof.
  intros Hp. induction fuel as [|fuel IH]; intros st X lost r H Hv HX HW E Hn; [discriminate|]. cbn [gift_loop] in E.
  case_bool_decide as HE; [injection E as <-; cbn [fst snd]; rewrite HE, ssum_empty; ring|].
  apply bind_ret_inv in E as (e & Hpk & E). pose proof (pick_inv _ _ _ _ Hp HE Hpk) as He. destruct (HX e He) as [He1 He2].
  apply bind_ret_inv in E as (o & Ho & E). destruct o as [[[t a] b]|].
  - apply finish_ret in Ho as (x & Hx & -> & -> & ->). apply bind_ret_inv in E as (s1 & Ha & E). apply unwrap_inv in Ha.
    assert (Hr : in_range st (e.1, e.2, x)). { unfold in_range. cbn. split; [exact He1|]. split; [exact He2|now apply Hv]. }
    destruct (add_total g _ _ _ _ _ _ RT w _ _ _ H Hr Ha) as (H1 & [Hb1 Hv1] & _ & T1).
    destruct (add_ret _ _ _ _ Ha) as (_ & Hnone & _ & _ & _).
    assert (Hr' : e.1 < n_pts s1 /\ e.2 < n_pts s1 /\ x < n_pts s1). { unfold n_pts. rewrite Hb1. exact Hr. }
    assert (Hed : forall f, f ∈ tri_edges (e.1, e.2, x) -> is_Some (t_tris s1 !! f)). { intros f Hf. apply (add_tris _ _ _ _ Ha). auto. }
    assert (Hin : (e.2, x) ∈ tri_edges (e.1, e.2, x) /\ (x, e.1) ∈ tri_edges (e.1, e.2, x)). { split; apply in_edges; auto. }
    destruct Hin as [Hia Hib].
    (* neither of the new edges has its reverse waiting *)
    assert (Hfree : forall f, f ∈ tri_edges (e.1, e.2, x) -> erev f ∉ X).
    { intros f Hf Hi. destruct (HW _ Hi) as [Hw|Hs].
      - specialize (Hn _ Hw). rewrite erev_erev in Hn. pose proof (gift_loop_sub _ _ _ _ _ _ E f (Hed f Hf)) as [? K]. congruence.
      - rewrite erev_erev in Hs. rewrite (Hnone f Hf) in Hs. destruct Hs. discriminate. }
    specialize (fun a b c => IH _ _ _ _ H1 a b c E Hn). rewrite IH; clear IH.
    + rewrite T1. rewrite (ssum_remove _ _ _ _ _ _ RT w X e He). set (X0 := X ∖ {[e]}) in *.
      assert (F1 : (e.2, x) ∈ X0 \/ erev (e.2, x) ∉ X0). { right. intros K. apply (Hfree _ Hia). unfold X0 in K. set_solver. }
      pose proof (toggle_sum X0 (e.2, x) F1) as Q1.
      assert (F2 : (x, e.1) ∈ toggle X0 (e.2, x) \/ erev (x, e.1) ∉ toggle X0 (e.2, x)).
      { destruct (decide ((x, e.1) = (e.2, x))) as [K|K].
        - (* only for a triangle with three equal corners *)
          injection K as -> K. rewrite K. unfold toggle. case_bool_decide as B.
          + unfold X0 in B. rewrite elem_of_difference, elem_of_singleton in B. destruct B as [_ B]. exfalso. apply B. destruct e as [e1 e2]. cbn in *. congruence.
          + left. cbn. set_solver.
        - right. unfold toggle. case_bool_decide as B.
          + intros Hi. apply elem_of_difference in Hi as [Hi _]. apply (Hfree _ Hib). unfold X0 in Hi. set_solver.
          + rewrite elem_of_union, elem_of_singleton. intros [Hi|Hi].
            * apply K. unfold erev in Hi. cbn in Hi. congruence.
            * apply (Hfree _ Hib). unfold X0 in Hi. set_solver. }
      pose proof (toggle_sum (toggle X0 (e.2, x)) (x, e.1) F2) as Q2. rewrite <- Q1, <- Q2. generalize (total st). intros z.
      unfold around. cbn [fst snd]. replace (w e) with (w (e.1, e.2)) by (now destruct e). ring.
    + intros v. unfold all_vertices, n_pts. rewrite Hb1, Hv1. apply Hv.
    + assert (HXe : forall f, f ∈ X -> f.1 < n_pts s1 /\ f.2 < n_pts s1). { unfold n_pts. rewrite Hb1. exact HX. }
      intros f Hf. apply toggle_in2 in Hf as [Hf|[->| ->]]; [now apply HXe|..]; cbn; tauto.
    + assert (HXe : forall f, f ∈ X -> f ∈ Wl \/ is_Some (t_tris s1 !! erev f)).
      { intros f Hf. destruct (HW f Hf) as [K|K]; [now left|]. right. apply (add_tris _ _ _ _ Ha). now right. }
      intros f Hf. apply toggle_in2 in Hf as [Hf|[->| ->]]; [now apply HXe|..]; right; rewrite erev_erev; now apply Hed.
  - specialize (fun a b => IH _ _ _ _ H Hv a b E Hn). rewrite IH; clear IH.
    + rewrite (esum_app _ _ _ _ _ _ RT), (ssum_remove _ _ _ _ _ _ RT w X e He). unfold esum at 2. cbn. generalize (total st). intros z. ring.
    + intros f Hf. apply HX. set_solver.
    + intros f Hf. apply HW. set_solver.
Qed.
End sums.
End gift.
