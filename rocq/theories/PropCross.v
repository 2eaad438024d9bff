(** C108: which outlines are accepted, whether they are simple, and that refining keeps them so. *)
From Coq Require Import Reals Lra Lia.
From Verif Require Import CrossProofs.
Local Close Scope R_scope.
Local Open Scope nat_scope.

(** storing a segment fails exactly when a stored segment without a common end meets it *)
Theorem C108_segment {A : arith} (g : geo A) (b : bound A) s :
  (store_segment g b s = Panic <-> exists t, t ∈ b_set b /\ loose t s /\ g_meet g (vget b t.1) (vget b t.2) (vget b s.1) (vget b s.2) = true) /\
  (store_segment g b s = Panic \/ exists b', store_segment g b s = Ret b' /\ b_map b' = <[s.1 := s.2]> (b_map b) /\ b_pts b' = b_pts b /\
     forall t, t ∈ b_set b' <-> t = s \/ t ∈ b_set b).
Proof. exact (store_segment_iff g b s). Qed.
Print Assumptions C108_segment.

(** an outline is refused exactly when it is empty, two of its sides without a common corner meet,
    or a side meets a stored segment *)
Theorem C108_polygon {A : arith} (g : geo A) b (poly : list (xy A)) : (forall a c u w, g_meet g a c u w = g_meet g u w a c) -> drawn g b ->
  (store_polygon g b poly = Panic <->
   poly = [] \/ (exists i j a c u w, far (length poly) i j /\ side poly i a c /\ side poly j u w /\ g_meet g a c u w = true) \/
   (exists i a c t, side poly i a c /\ t ∈ b_set b /\ g_meet g (vget b t.1) (vget b t.2) a c = true)) /\
  (store_polygon g b poly = Panic \/ exists r, store_polygon g b poly = Ret r).
Proof. intros Hs Hd. split; [exact (polygon_iff g b poly Hs (drawn_uncrossed g b Hd))|exact (polygon_ends g b poly)]. Qed.
Print Assumptions C108_polygon.

(** in a drawn boundary, segments without a common end do not meet *)
Theorem C108_checked {A : arith} (g : geo A) (b : bound A) s t : (forall a c u w, g_meet g a c u w = g_meet g u w a c) -> drawn g b ->
  s ∈ b_set b -> t ∈ b_set b -> loose s t -> g_meet g (vget b s.1) (vget b s.2) (vget b t.1) (vget b t.2) = false.
Proof. intros Hs Hd H1 H2 Hl. destruct (proj2 (drawn_uncrossed g b Hd) s t H1 H2 Hl) as [H|H]; [|rewrite Hs]; exact H. Qed.
Print Assumptions C108_checked.

(** yet whatever the crossing test, an outline that runs back over itself is accepted *)
Theorem C108_refuted : exists poly : list (xy R_arith), NoDup poly /\ forall g : geo R_arith, (forall a c u w, g_meet g a c u w = g_meet g u w a c) ->
  exists r, store_polygon g (b_new []) poly = Ret r /\
  exists s t x, s ∈ b_set r.1 /\ t ∈ b_set r.1 /\ s <> t /\ on_seg (vget r.1 s.1) (vget r.1 s.2) x /\ on_seg (vget r.1 t.1) (vget r.1 t.2) x /\
    forall v, v < length (b_pts r.1) -> x <> vget r.1 v.
Proof.
  exists [(0, 0); (2, 0); (1, 0)]%R. split.
  { repeat constructor; rewrite ?elem_of_cons, ?elem_of_nil; intros H; repeat destruct H as [H|H]; try contradiction; injection H; lra. }
  intros g Hg. destruct (C108_polygon g (b_new []) [(0, 0); (2, 0); (1, 0)]%R Hg (drawn_new g [])) as [Hiff [Hp|(r & Er)]].
  { exfalso. apply Hiff in Hp as [H|[(i & j & a & c & u & w & Hf & _)|(i & a & c & t & _ & Ht & _)]]; [discriminate| |now apply elem_of_empty in Ht].
    unfold far in Hf. cbn in Hf. lia. }
  exists r. split; [exact Er|]. apply polygon_ret in Er as (p & rest & Ep & ->). injection Ep as <- <-. cbv zeta. cbn [fst b_set b_pts].
  exists (0, 1), (1, 2), ((3 / 2)%R, 0%R). split; [apply elem_of_set_all; left; apply elem_of_list_here|].
  split; [apply elem_of_set_all; left; apply elem_of_list_further, elem_of_list_here|]. split; [discriminate|].
  unfold vget. cbn [fst snd b_pts b_new app nth]. split; [|split].
  - exists (3 / 4)%R. unfold at_frac. cbn. split; [lra|]. f_equal; lra.
  - exists (1 / 2)%R. unfold at_frac. cbn. split; [lra|]. f_equal; lra.
  - intros v Hv. cbn in Hv. destruct v as [|[|[|v]]]; [| | |lia]; cbn; intros H; injection H; lra.
Qed.
Print Assumptions C108_refuted.

(** if the test sees every common point, and sides with a common corner share nothing else, the outline is simple *)
Theorem C108_simple_partial (g : geo R_arith) (b : bound R_arith) : sees g -> drawn g b -> (forall s, s ∈ b_set b -> vget b s.1 <> vget b s.2) ->
  (forall s t x, s ∈ b_set b -> t ∈ b_set b -> s <> t -> ~ loose s t -> on_seg (vget b s.1) (vget b s.2) x -> on_seg (vget b t.1) (vget b t.2) x ->
    exists v, (v = s.1 \/ v = s.2) /\ (v = t.1 \/ v = t.2) /\ x = vget b v) -> clean b.
Proof. exact (drawn_clean g b). Qed.
Print Assumptions C108_simple_partial.

(** any history of splits and divisions keeps a simple outline simple *)
Theorem C108_refine_partial (g : geo R_arith) ops st st' : floor_ok g -> Forall refining ops -> clean st.1 -> foldM (bd_step g) ops st = Ret st' -> clean st'.1.
Proof. exact (clean_history g ops st st'). Qed.
Print Assumptions C108_refine_partial.

(** a test that qualifies: the unit square is accepted and simple, and still is with a side split;
    the same corners in crossing order are refused *)
Example C108_example :
  sees full_geo /\ floor_ok full_geo /\ (forall a c u w, g_meet full_geo a c u w = g_meet full_geo u w a c) /\
  store_polygon full_geo (b_new []) [(0, 0); (1, 1); (1, 0); (0, 1)]%R = Panic /\
  exists r, store_polygon full_geo (b_new []) [(0, 0); (1, 0); (1, 1); (0, 1)]%R = Ret r /\ drawn full_geo r.1 /\ clean r.1 /\
  exists st, foldM (bd_step full_geo) [DSplit (0, 1)] (r.1, [r.2]) = Ret st /\ clean st.1 /\ (4, 1) ∈ b_set st.1.
Proof.
  split; [exact full_sees|]. split; [exact full_floor|]. split; [exact full_sym|]. split.
  { apply (C108_polygon full_geo (b_new []) _ full_sym (drawn_new _ [])). right. left. exists 0, 2, (0, 0)%R, (1, 1)%R, (1, 0)%R, (0, 1)%R.
    split; [unfold far; cbn; lia|]. split; [split; reflexivity|]. split; [split; reflexivity|]. apply (full_sees _ _ _ _ (1 / 2, 1 / 2)%R).
    - exists (1 / 2)%R. unfold at_frac. cbn. split; [lra|]. f_equal; lra.
    - exists (1 / 2)%R. unfold at_frac. cbn. split; [lra|]. f_equal; lra. }
  set (poly := [(0, 0); (1, 0); (1, 1); (0, 1)]%R : list (xy R_arith)).
  destruct (C108_polygon full_geo (b_new []) poly full_sym (drawn_new _ [])) as [Hiff [Hp|(r & Er)]].
  { exfalso. apply Hiff in Hp as [H|[(i & j & a & c & u & w & Hf & [Ha Hc] & [Hu Hw] & Hm)|(i & a & c & t & _ & Ht & _)]]; [discriminate| |now apply elem_of_empty in Ht].
    cbn [g_meet full_geo] in Hm. apply andb_true_iff in Hm as [Hm _]. apply andb_true_iff in Hm as [Hm _]. apply rle_true in Hm.
    unfold far in Hf. cbn [length poly] in Hf, Hc, Hw. assert (Hij : (i = 0 /\ j = 2) \/ (i = 1 /\ j = 3)) by lia.
    destruct Hij as [[-> ->]|[-> ->]]; cbn in Ha, Hc, Hu, Hw; injection Ha as <-; injection Hc as <-; injection Hu as <-; injection Hw as <-; unfold turnR in Hm; cbn in Hm; lra. }
  assert (Hd : drawn full_geo r.1) by (apply (drawn_poly _ (b_new []) poly r); [apply drawn_new|exact Er]).
  pose proof Er as Er0. apply polygon_ret in Er as (p & rest & Ep & Er). injection Ep as <- <-. cbv zeta in Er.
  assert (Hset : forall t, t ∈ b_set r.1 <-> t = (0, 1) \/ t = (1, 2) \/ t = (2, 3) \/ t = (3, 0)).
  { intros t. rewrite Er. cbn [fst b_set b_new b_pts length seq loop_edges snd app chain]. rewrite elem_of_set_all, !elem_of_cons, elem_of_nil. cbn.
    split; [intros [H|H]; [tauto|now apply elem_of_empty in H]|tauto]. }
  assert (V : vget r.1 0 = (0, 0)%R /\ vget r.1 1 = (1, 0)%R /\ vget r.1 2 = (1, 1)%R /\ vget r.1 3 = (0, 1)%R) by (rewrite Er; repeat split).
  destruct V as (V0 & V1 & V2 & V3).
  assert (Hc : clean r.1).
  { apply (C108_simple_partial full_geo); [exact full_sees|exact Hd| |].
    - intros s Hs. apply Hset in Hs as [->|[->|[->| ->]]]; cbn [fst snd]; rewrite ?V0, ?V1, ?V2, ?V3; intros H; injection H; lra.
    - intros s t x Hs Ht Hst Hl Hx Hy.
      assert (K : forall u v w, turnR (vget r.1 u) (vget r.1 v) (vget r.1 w) <> 0%R ->
        on_seg (vget r.1 u) (vget r.1 v) x \/ on_seg (vget r.1 v) (vget r.1 u) x -> on_seg (vget r.1 u) (vget r.1 w) x \/ on_seg (vget r.1 w) (vget r.1 u) x -> x = vget r.1 u).
      { intros u v w Hn H1 H2. apply (corner _ (vget r.1 v) (vget r.1 w)); [exact Hn| |].
        - destruct H1; [assumption|now apply on_seg_sym].
        - destruct H2; [assumption|now apply on_seg_sym]. }
      assert (T0 : turnR (vget r.1 0) (vget r.1 1) (vget r.1 3) <> 0%R) by (rewrite V0, V1, V3; unfold turnR; cbn; lra).
      assert (T1 : turnR (vget r.1 1) (vget r.1 0) (vget r.1 2) <> 0%R) by (rewrite V0, V1, V2; unfold turnR; cbn; lra).
      assert (T2 : turnR (vget r.1 2) (vget r.1 1) (vget r.1 3) <> 0%R) by (rewrite V1, V2, V3; unfold turnR; cbn; lra).
      assert (T3 : turnR (vget r.1 3) (vget r.1 2) (vget r.1 0) <> 0%R) by (rewrite V0, V2, V3; unfold turnR; cbn; lra).
      clear V0 V1 V2 V3 Er Er0 Hd Hiff.
      apply Hset in Hs as [->|[->|[->| ->]]]; apply Hset in Ht as [->|[->|[->| ->]]]; cbn [fst snd] in *; try (now destruct Hst);
        try (exfalso; apply Hl; repeat split; discriminate).
      + exists 1. split; [auto|split; [auto|]]. apply (K 1 0 2); auto.
      + exists 0. split; [auto|split; [auto|]]. apply (K 0 1 3); auto.
      + exists 1. split; [auto|split; [auto|]]. apply (K 1 0 2); auto.
      + exists 2. split; [auto|split; [auto|]]. apply (K 2 1 3); auto.
      + exists 2. split; [auto|split; [auto|]]. apply (K 2 1 3); auto.
      + exists 3. split; [auto|split; [auto|]]. apply (K 3 2 0); auto.
      + exists 0. split; [auto|split; [auto|]]. apply (K 0 1 3); auto.
      + exists 3. split; [auto|split; [auto|]]. apply (K 3 2 0); auto. }
  exists r. split; [exact Er0|]. split; [exact Hd|]. split; [exact Hc|].
  assert (Hs : exists q, split_segment r.1 (0, 1) = Ret q).
  { unfold split_segment. unfold is_segment. rewrite bool_decide_eq_true_2 by (apply Hset; now left). cbn [assert_ mbind out_bind]. 
    repeat (match goal with |- context [let '(_, _) := ?e in _] => destruct e end). eauto. }
  destruct Hs as (q & Eq). assert (Ef : foldM (bd_step full_geo) [DSplit (0, 1)] (r.1, [r.2]) = Ret (q.1, [r.2])).
  { cbn [foldM bd_step]. rewrite Eq. reflexivity. }
  exists (q.1, [r.2]). split; [exact Ef|]. split.
  - apply (C108_refine_partial full_geo [DSplit (0, 1)] (r.1, [r.2])); [exact full_floor|repeat constructor|exact Hc|exact Ef].
  - apply split_ret in Eq as [_ ->]. cbn [fst b_set]. apply elem_of_set_all. left. rewrite Er. cbn. apply elem_of_list_further, elem_of_list_here.
Qed.
