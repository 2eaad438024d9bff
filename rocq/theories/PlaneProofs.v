(** The triangle tables and the sums over triangles. *)
From Verif Require Export Plane BoundsProofs.
From Coq Require Import Ring.

Definition tri_rots (t : tri) : list tri := [t; tri_rot t; tri_rot (tri_rot t)].

Section tables.
Context {A : arith}.
Implicit Types (T : gmap edge nat) (F : gmap tri A).

(** [F] lists every triangle once and [T] finds it from each directed edge *)
Record tables_ok T F : Prop := {
  to_found : forall t, is_Some (F !! t) -> T !! (t.1.1, t.1.2) = Some t.2 /\ T !! (t.1.2, t.2) = Some t.1.1 /\ T !! (t.2, t.1.1) = Some t.1.2;
  to_once : forall t t' e, is_Some (F !! t) -> is_Some (F !! t') -> e ∈ tri_edges t -> e ∈ tri_edges t' -> t = t';
  to_only : forall u v w, T !! (u, v) = Some w -> exists t, t ∈ tri_rots (u, v, w) /\ is_Some (F !! t) }.

Lemma tables_empty : tables_ok ∅ (∅ : gmap tri A).
Proof.
  split.
  - intros t [? H]. rewrite lookup_empty in H. discriminate.
  - intros t t' e [? H]. rewrite lookup_empty in H. discriminate.
  - intros u v w H. rewrite lookup_empty in H. discriminate.
Qed.

Lemma in_rots u v w t : t ∈ tri_rots (u, v, w) <-> t = (u, v, w) \/ t = (v, w, u) \/ t = (w, u, v).
Proof. unfold tri_rots, tri_rot. cbn. rewrite !elem_of_cons, elem_of_nil. tauto. Qed.
Lemma in_edges t (e : edge) : e ∈ tri_edges t <-> e = (t.1.1, t.1.2) \/ e = (t.1.2, t.2) \/ e = (t.2, t.1.1).
Proof. unfold tri_edges. rewrite !elem_of_cons, elem_of_nil. tauto. Qed.
Lemma rots_edges t t' e : t ∈ tri_rots t' -> e ∈ tri_edges t <-> e ∈ tri_edges t'.
Proof. destruct t' as [[a b] c]. rewrite in_rots. intros [->|[->| ->]]; rewrite !in_edges; cbn; tauto. Qed.

Definition tris_add T (t : tri) : gmap edge nat := <[(t.2, t.1.1) := t.1.2]> (<[(t.1.2, t.2) := t.1.1]> (<[(t.1.1, t.1.2) := t.2]> T)).
Lemma tris_add_lookup T t e w : tris_add T t !! e = Some w <->
  (e = (t.1.1, t.1.2) /\ w = t.2) \/ (e = (t.1.2, t.2) /\ w = t.1.1) \/ (e = (t.2, t.1.1) /\ w = t.1.2) \/ (e ∉ tri_edges t /\ T !! e = Some w).
Proof.
  destruct t as [[a b] c]. unfold tris_add. cbn. rewrite in_edges. cbn.
  destruct (decide (e = (c, a))) as [->|H3].
  { rewrite lookup_insert. split.
    - intros [= <-]. tauto.
    - intros [[[= -> ->] ->]|[[[= -> ->] ->]|[[_ ->]|[H _]]]]; auto. tauto. }
  rewrite lookup_insert_ne by congruence. destruct (decide (e = (b, c))) as [->|H2].
  { rewrite lookup_insert. split.
    - intros [= <-]. tauto.
    - intros [[[= -> ->] ->]|[[_ ->]|[[H _]|[H _]]]]; tauto. }
  rewrite lookup_insert_ne by congruence. destruct (decide (e = (a, b))) as [->|H1].
  { rewrite lookup_insert. split.
    - intros [= <-]. tauto.
    - intros [[_ ->]|[[H _]|[[H _]|[H _]]]]; tauto. }
  rewrite lookup_insert_ne by congruence. tauto.
Qed.

Lemma tables_add T F t c : tables_ok T F -> (forall e, e ∈ tri_edges t -> T !! e = None) ->
  tables_ok (tris_add T t) (<[t := c]> F) /\ F !! t = None.
Proof.
  intros H Hn.
  assert (Ht : F !! t = None).
  { destruct (F !! t) eqn:E; [|reflexivity]. destruct (to_found _ _ H t) as [H1 _]; [eauto|].
    rewrite (Hn (t.1.1, t.1.2)) in H1; [discriminate|]. apply in_edges. auto. }
  split; [|exact Ht].
  assert (Hold : forall t' e, is_Some (F !! t') -> e ∈ tri_edges t' -> e ∉ tri_edges t).
  { intros t' e Hs He He'. destruct (to_found _ _ H t' Hs) as (h1 & h2 & h3). specialize (Hn e He').
    apply in_edges in He as [->|[->| ->]]; congruence. }
  split.
  - intros t' Hs. destruct (decide (t' = t)) as [->|Hne].
    { rewrite !tris_add_lookup. tauto. }
    rewrite lookup_insert_ne in Hs by congruence. destruct (to_found _ _ H t' Hs) as (h1 & h2 & h3).
    rewrite !tris_add_lookup. repeat split; right; right; right; split; auto; eapply Hold; eauto; apply in_edges; auto.
  - intros t1 t2 e H1 H2 He1 He2. destruct (decide (t1 = t)) as [->|n1], (decide (t2 = t)) as [->|n2]; auto.
    + rewrite lookup_insert_ne in H2 by congruence. exfalso. eapply Hold; eauto.
    + rewrite lookup_insert_ne in H1 by congruence. exfalso. eapply Hold; eauto.
    + rewrite lookup_insert_ne in H1, H2 by congruence. eapply to_once; eauto.
  - intros u v w Hl. apply tris_add_lookup in Hl. destruct t as [[a b] c']. cbn in Hl.
    destruct Hl as [[[= -> ->] ->]|[[[= -> ->] ->]|[[[= -> ->] ->]|[Hne Hl]]]].
    1-3: exists (a, b, c'); rewrite lookup_insert, in_rots; split; [tauto|eauto].
    destruct (to_only _ _ H u v w Hl) as (t' & Ht' & Hs). exists t'. split; [exact Ht'|].
    destruct (decide (t' = (a, b, c'))) as [->|n]; [rewrite lookup_insert; eauto|]. now rewrite lookup_insert_ne by congruence.
Qed.

Definition tris_del T (t : tri) : gmap edge nat := fold_left (fun m e => delete e m) (tri_edges t) T.
Lemma tris_del_lookup T t e : tris_del T t !! e = if bool_decide (e ∈ tri_edges t) then None else T !! e.
Proof.
  unfold tris_del, tri_edges. cbn [fold_left]. set (e1 := (t.1.1, t.1.2)). set (e2 := (t.1.2, t.2)). set (e3 := (t.2, t.1.1)).
  case_bool_decide as H.
  - rewrite !elem_of_cons, elem_of_nil in H. rewrite !lookup_delete_None. assert (e = e1 \/ e = e2 \/ e = e3) as [->|[->| ->]] by tauto; auto.
  - rewrite !elem_of_cons, elem_of_nil in H. rewrite !lookup_delete_ne; tauto || (intros ->; tauto).
Qed.

Lemma remove_first_rot T F t : tables_ok T F -> T !! (t.1.1, t.1.2) = Some t.2 ->
  exists t0, t0 ∈ tri_rots t /\ is_Some (F !! t0) /\ remove_first F (tri_all t) = delete t0 F.
Proof.
  intros H Hl. destruct t as [[a b] c]. cbn in Hl. destruct (to_only _ _ H _ _ _ Hl) as (t0 & H0 & Hs).
  exists t0. split; [exact H0|]. split; [exact Hs|].
  assert (Hu : forall t', t' ∈ tri_rots (a, b, c) -> is_Some (F !! t') -> t' = t0).
  { intros t' Ht' Hs'. apply (to_once _ _ H t' t0 (a, b)); auto.
    - apply (rots_edges _ _ _ Ht'). apply in_edges. auto.
    - apply (rots_edges _ _ _ H0). apply in_edges. auto. }
  unfold tri_all. cbn [remove_first].
  assert (K0 : (a, b, c) ∈ tri_rots (a, b, c)) by (apply in_rots; auto).
  assert (K1 : tri_rot (a, b, c) ∈ tri_rots (a, b, c)) by (apply in_rots; auto).
  assert (K2 : tri_rot (tri_rot (a, b, c)) ∈ tri_rots (a, b, c)) by (apply in_rots; auto).
  case_bool_decide as B0; [now rewrite (Hu _ K0 B0)|].
  case_bool_decide as B1; [now rewrite (Hu _ K1 B1)|].
  case_bool_decide as B2; [now rewrite (Hu _ K2 B2)|].
  exfalso. unfold tri_rots in H0. rewrite !elem_of_cons, elem_of_nil in H0. destruct H0 as [->|[->|[->|[]]]]; auto.
Qed.

Lemma tables_del T F t t0 : tables_ok T F -> t0 ∈ tri_rots t -> is_Some (F !! t0) -> tables_ok (tris_del T t) (delete t0 F).
Proof.
  intros H H0 Hs.
  assert (Hsub : forall t', is_Some (delete t0 F !! t') -> t' <> t0 /\ is_Some (F !! t')).
  { intros t' [c Hc]. apply lookup_delete_Some in Hc as [? ?]. eauto. }
  split.
  - intros t' Hs'. apply Hsub in Hs' as [Hn Hs']. destruct (to_found _ _ H t' Hs') as (h1 & h2 & h3).
    assert (Hd : forall e, e ∈ tri_edges t' -> e ∉ tri_edges t).
    { intros e He He'. apply Hn. apply (to_once _ _ H t' t0 e); auto. now apply (rots_edges _ _ _ H0). }
    rewrite !tris_del_lookup, !bool_decide_false; auto; apply Hd, in_edges; auto.
  - intros t1 t2 e H1 H2. apply Hsub in H1 as [_ H1], H2 as [_ H2]. now apply (to_once _ _ H).
  - intros u v w Hl. rewrite tris_del_lookup in Hl. case_bool_decide as He; [discriminate|].
    destruct (to_only _ _ H _ _ _ Hl) as (t' & Ht' & Hs'). exists t'. split; [exact Ht'|].
    rewrite lookup_delete_ne; [exact Hs'|]. intros ->. apply He. apply (rots_edges _ _ _ H0). apply (rots_edges _ _ _ Ht'). apply in_edges. auto.
Qed.
End tables.

(** ** Sums over the triangles *)
Section tsum.
Context {A : arith} {R : Type} (rO rI : R) (radd rmul rsub : R -> R -> R) (ropp : R -> R).
Hypothesis RT : ring_theory rO rI radd rmul rsub ropp eq.
Add Ring RR : RT.
Definition tsum (f : tri -> R) (F : gmap tri A) : R := foldr (fun x acc => radd (f x.1) acc) rO (map_to_list F).
Lemma tsum_empty f : tsum f ∅ = rO.
Proof. unfold tsum. now rewrite map_to_list_empty. Qed.
Lemma tsum_insert f F t c : F !! t = None -> tsum f (<[t := c]> F) = radd (f t) (tsum f F).
Proof.
  intros H. unfold tsum. pose proof (map_to_list_insert F t c H) as P.
  rewrite (foldr_permutation eq (fun x acc => radd (f x.1) acc) rO (map_to_list (<[t:=c]> F)) _ (fun _ _ _ _ _ _ _ _ => ltac:(cbn; ring)) P). reflexivity.
Qed.
Lemma tsum_delete f F t : is_Some (F !! t) -> tsum f F = radd (f t) (tsum f (delete t F)).
Proof. intros [c H]. rewrite <- (tsum_insert f (delete t F) t c); [|apply lookup_delete]. now rewrite insert_delete. Qed.

(** an edge quantity summed around a triangle *)
Definition around (w : edge -> R) (t : tri) : R := radd (radd (w (t.1.1, t.1.2)) (w (t.1.2, t.2))) (w (t.2, t.1.1)).
Lemma around_rot w t t0 : t0 ∈ tri_rots t -> around w t0 = around w t.
Proof. destruct t as [[a b] c]. rewrite in_rots. intros [->|[->| ->]]; unfold around; cbn; ring. Qed.

(** sums over edge sets and lists *)
Definition esum (w : edge -> R) (l : list edge) : R := foldr (fun e acc => radd (w e) acc) rO l.
Lemma esum_app w l l' : esum w (l ++ l') = radd (esum w l) (esum w l').
Proof. induction l as [|e l IH]; cbn; [unfold esum; cbn; ring|]. fold (esum w (l ++ l')) (esum w l). rewrite IH. ring. Qed.
Lemma esum_perm w l l' : l ≡ₚ l' -> esum w l = esum w l'.
Proof. induction 1 as [|e l l' _ IH|e e' l|l l2 l3 _ IH1 _ IH2]; cbn; [reflexivity|now f_equal|ring|congruence]. Qed.
Definition ssum (w : edge -> R) (X : gset edge) : R := esum w (elements X).
Lemma ssum_insert w X e : e ∉ X -> ssum w ({[e]} ∪ X) = radd (w e) (ssum w X).
Proof. intros H. unfold ssum. rewrite (esum_perm _ _ _ (elements_union_singleton X e H)). reflexivity. Qed.
Lemma ssum_remove w X e : e ∈ X -> ssum w X = radd (w e) (ssum w (X ∖ {[e]})).
Proof.
  intros H. rewrite <- ssum_insert; [|set_solver]. f_equal. rewrite (union_difference_L {[e]} X) at 1; [reflexivity|set_solver].
Qed.
Lemma ssum_empty w : ssum w ∅ = rO.
Proof. unfold ssum. now rewrite elements_empty. Qed.
Lemma ssum_list w l : NoDup l -> ssum w (list_to_set l) = esum w l.
Proof. intros H. unfold ssum. apply esum_perm. now apply elements_list_to_set. Qed.
End tsum.
