(** C109: the sight test of the triangulation. *)
From Coq Require Import Reals Lra Lia.
From Verif Require Import SightProofs.
Local Close Scope R_scope.
Local Open Scope nat_scope.

(** visible means: every wall of the outlines as they were drawn that meets the line of sight
    passes within a millionth of one of its ends *)
Theorem C109_visible (g : geo R_arith) (b : bound R_arith) polys s x : bd_built g b polys -> polys <> [] ->
  exists v, midpoint_visible g b s x = Ret v /\
  (v = true <-> forall poly w, poly ∈ polys -> wall_of poly w ->
     let m := at_frac (vget b s.1) (vget b s.2) (1 / 2) in
     g_meet g (vget b w.1) (vget b w.2) m (vget b x) = true ->
     (g_sdist g (vget b w.1) (vget b w.2) m < 1 / 1000000 \/ g_sdist g (vget b w.1) (vget b w.2) (vget b x) < 1 / 1000000)%R).
Proof. exact (visible_iff g b polys s x). Qed.
Print Assumptions C109_visible.

(** no history of splits, divisions, further points and attributes changes the answer, in any arithmetic *)
Theorem C109_refine {A : arith} (g : geo A) (b : bound A) polys ops st' s x : bd_built g b polys -> Forall no_outline ops -> foldM (bd_step g) ops (b, polys) = Ret st' ->
  s.1 < length (b_pts b) -> s.2 < length (b_pts b) -> x < length (b_pts b) -> midpoint_visible g st'.1 s x = midpoint_visible g b s x.
Proof. exact (visible_keep g b polys ops st' s x). Qed.
Print Assumptions C109_refine.

(** the unit square and a point outside: from the middle of the left side the corner (1,0) is
    visible, the point (3,1/2) is not, before and after the right side is split *)
Example C109_example :
  let g := Geo R_arith full_meet (fun a c p => Rabs (turnR a c p)) (fun _ _ _ => Zero) (fun _ _ _ => s0) (fun _ => s0) Int_part in
  exists b polys st, bd_built g b polys /\ polys <> [] /\ midpoint_visible g b (3, 0) 1 = Ret true /\ midpoint_visible g b (3, 0) 4 = Ret false /\
    foldM (bd_step g) [DSplit (1, 2)] (b, polys) = Ret st /\ length (b_pts st.1) = 6 /\
    midpoint_visible g st.1 (3, 0) 1 = Ret true /\ midpoint_visible g st.1 (3, 0) 4 = Ret false.
Proof.
  intros g. set (poly := [(0, 0); (1, 0); (1, 1); (0, 1)]%R : list (xy R_arith)).
  assert (Hsym : forall a c u w, g_meet g a c u w = g_meet g u w a c) by exact full_sym.
  destruct (polygon_ends g (b_new []) poly) as [Hp|(r & Er)].
  { exfalso. apply (polygon_iff g (b_new []) poly Hsym (drawn_uncrossed g _ (drawn_new g []))) in Hp as [H|[(i & j & a & c & u & w & Hf & [Ha Hc] & [Hu Hw] & Hm)|(i & a & c & t & _ & Ht & _)]]; [discriminate| |now apply elem_of_empty in Ht].
    cbn [g_meet g] in Hm. apply andb_true_iff in Hm as [Hm _]. apply andb_true_iff in Hm as [Hm _]. apply rle_true in Hm.
    unfold far in Hf. cbn [length poly] in Hf, Hc, Hw. assert (Hij : (i = 0 /\ j = 2) \/ (i = 1 /\ j = 3)) by lia.
    destruct Hij as [[-> ->]|[-> ->]]; cbn in Ha, Hc, Hu, Hw; injection Ha as <-; injection Hc as <-; injection Hu as <-; injection Hw as <-; unfold turnR in Hm; cbn in Hm; lra. }
  set (b := (store_vertex r.1 (3, 1 / 2)%R).1).
  assert (Hb : bd_built g b [r.2]). { exists [], [DPoly poly; DVertex (A := R_arith) (3, 1 / 2)%R]. cbn [foldM bd_step]. rewrite Er. reflexivity. }
  pose proof Er as Er0. apply polygon_ret in Er as (p & rest & Ep & Er). injection Ep as <- <-. cbv zeta in Er.
  assert (Epts : b_pts b = poly ++ [(3, 1 / 2)%R]) by (unfold b; rewrite Er; reflexivity).
  assert (Hids : r.2 = [0; 1; 2; 3]) by (rewrite Er; reflexivity).
  assert (V : vget b 0 = (0, 0)%R /\ vget b 1 = (1, 0)%R /\ vget b 2 = (1, 1)%R /\ vget b 3 = (0, 1)%R /\ vget b 4 = (3, 1 / 2)%R) by (unfold vget; rewrite Epts; repeat split).
  destruct V as (V0 & V1 & V2 & V3 & V4).
  assert (M1 : midpoint_visible g b (3, 0) 1 = Ret true).
  { destruct (C109_visible g b [r.2] (3, 0) 1 Hb ltac:(discriminate)) as (v & -> & Hv). f_equal. apply Hv. intros q w Hq (i & Hi & Hn). apply elem_of_list_singleton in Hq as ->.
    rewrite Hids in Hi, Hn. cbn [fst snd length] in *. rewrite V0, V1, V3. cbv zeta. destruct i as [|[|[|[|i]]]]; cbn in Hi, Hn; try discriminate; injection Hi as <-; injection Hn as <-; rewrite ?V0, ?V1, ?V2, ?V3; cbn [g_meet g_sdist g]; intros Hm.
    - right. replace (turnR _ _ _) with 0%R by (unfold turnR; cbn; ring). rewrite Rabs_R0. lra.
    - right. replace (turnR _ _ _) with 0%R by (unfold turnR; cbn; ring). rewrite Rabs_R0. lra.
    - exfalso. apply andb_true_iff in Hm as [Hm _]. apply andb_true_iff in Hm as [Hm _]. apply rle_true in Hm. unfold turnR, at_frac in Hm. cbn in Hm. lra.
    - left. replace (turnR _ _ _) with 0%R by (unfold turnR, at_frac; cbn; ring). rewrite Rabs_R0. lra. }
  assert (M2 : midpoint_visible g b (3, 0) 4 = Ret false).
  { destruct (C109_visible g b [r.2] (3, 0) 4 Hb ltac:(discriminate)) as (v & -> & Hv). f_equal. destruct v; [exfalso|reflexivity].
    pose proof (proj1 Hv eq_refl r.2 (1, 2) (elem_of_list_here _ _)) as H. cbn [fst snd] in H. rewrite V0, V1, V2, V3, V4 in H. cbv zeta in H. destruct H as [H|H].
    - rewrite Hids. exists 1. split; reflexivity.
    - cbn [g_meet g]. apply (full_sees _ _ _ _ (1, 1 / 2)%R).
      + exists (1 / 2)%R. unfold at_frac. cbn. split; [lra|]. f_equal; lra.
      + exists (1 / 3)%R. unfold at_frac. cbn. split; [lra|]. f_equal; field.
    - cbn [g_sdist g] in H. replace (turnR _ _ _) with 1%R in H by (unfold turnR, at_frac; cbn; field). rewrite Rabs_R1 in H. lra.
    - cbn [g_sdist g] in H. replace (turnR _ _ _) with (- (2))%R in H by (unfold turnR, at_frac; cbn; field). rewrite Rabs_Ropp, Rabs_right in H by lra. lra. }
  assert (Hset : (1, 2) ∈ b_set b).
  { unfold b. cbn [store_vertex vertex_new fst b_set with_verts with_pts]. rewrite Er. cbn [fst b_set]. apply elem_of_set_all. left. apply elem_of_list_further, elem_of_list_here. }
  assert (Hs : exists q, split_segment b (1, 2) = Ret q).
  { unfold split_segment. unfold is_segment. rewrite bool_decide_eq_true_2 by exact Hset. cbn [assert_ mbind out_bind].
    repeat (match goal with |- context [let '(_, _) := ?e in _] => destruct e end). eauto. }
  destruct Hs as (q & Eq). assert (Ef : foldM (bd_step g) [DSplit (1, 2)] (b, [r.2]) = Ret (q.1, [r.2])).
  { cbn [foldM bd_step]. rewrite Eq. reflexivity. }
  exists b, [r.2], (q.1, [r.2]). split; [exact Hb|]. split; [discriminate|]. split; [exact M1|]. split; [exact M2|]. split; [exact Ef|]. split.
  - apply split_ret in Eq as [_ ->]. cbn [fst b_pts]. rewrite app_length, Epts. reflexivity.
  - rewrite <- M1, <- M2. split; apply (C109_refine g b [r.2] [DSplit (1, 2)]); try exact Hb; try exact Ef; try (repeat constructor; fail); rewrite Epts; cbn; lia.
Qed.
