(** C110: the walls the quality mesher leaves encroached. *)
From Coq Require Import Floats Reals Lra Lia String.
From Verif Require Import RuppertProofs MeshEx InstQc InstF64 PropPlane.
Local Close Scope R_scope.
Local Open Scope list_scope.
Local Open Scope nat_scope.

(** a box with a spike from above and a dent from below: the whole mesher returns, and the
    encroachment test it uses itself still answers yes for a wall and a corner of the outline *)
Definition spike_ops : list (bd_op F64_arith) :=
  [DPoly [(fl 0, fl 0); (fl 16, fl 0); (fl 16, fl 12); (fl 5.5, fl 12); (fl 5, fl 0.5); (fl 4.5, fl 12); (fl 0, fl 12); (fl 2, fl 1.5)]].
Definition spike_run : out (plane F64_arith) :=
  r ← foldM (bd_step f64_geo) spike_ops (b_new [], []);
  ruppert_mesh f64_geo first_pick plain_order 300 (fl 100) (pl_new r.1).
Definition spike_left : out (bool * bool * nat) :=
  st ← spike_run;
  e ← ruppert_encroaches f64_geo st 7 (0, 12);
  Ret (e, is_segment (t_bound st) (0, 12), length (all_vertices st)).
Lemma spike_left_run : spike_left = Ret (true, true, 22).
Proof. vm_compute. reflexivity. Qed.
Theorem C110_refuted : exists (b : bound F64_arith) polys st s p, bd_built f64_geo b polys /\
  ruppert_mesh f64_geo first_pick plain_order 300 (fl 100) (pl_new b) = Ret st /\ s ∈ b_set (t_bound st) /\ p ∈ concat polys /\ seg_has s p = false /\
  ruppert_encroaches f64_geo st p s = Ret true.
Proof.
  pose proof spike_left_run as H. unfold spike_left, spike_run in H. apply bind_ret_inv in H as (st & H & E). apply bind_ret_inv in H as ([b polys] & Eb & Em).
  apply bind_ret_inv in E as (e & Ee & E). injection E as -> Hs _. exists b, polys, st, (0, 12), 7.
  assert (Hp : (r ← foldM (bd_step f64_geo) spike_ops (b_new [], []); Ret r.2) = Ret [[0; 1; 2; 3; 4; 5; 6; 7]]) by (vm_compute; reflexivity).
  rewrite Eb in Hp. cbn in Hp. injection Hp as ->.
  split; [exists [], spike_ops; exact Eb|]. split; [exact Em|]. split; [exact (bool_decide_eq_true_1 _ Hs)|]. split; [apply elem_of_list_lookup; exists 7; reflexivity|]. split; [reflexivity|exact Ee].
Qed.
Print Assumptions C110_refuted.

(** after the wall splitting phase, from any triangulation of any outline whose walls have
    length: a vertex is an end of the wall, or outside the circle over it, or was hidden from the
    middle of a wall or segment that contains it.  Missing: the last case. *)
Theorem C110_walls_partial (g : geo R_arith) (st st' : plane R_arith) polys inner fuel : bd_built g (t_bound st) polys ->
  (forall s, s ∈ b_set (t_bound st) -> vget (t_bound st) s.1 <> vget (t_bound st) s.2) ->
  ruppert_walls g inner fuel st (rev (b_verts (t_bound st))) = Ret st' ->
  forall s p, s ∈ b_set (t_bound st') -> p ∈ b_verts (t_bound st') ->
  let P := vget (t_bound st') in
  p = s.1 \/ p = s.2 \/ (0 < (fst (P p) - fst (P s.1)) * (fst (P p) - fst (P s.2)) + (snd (P p) - snd (P s.1)) * (snd (P p) - snd (P s.2)))%R \/
  exists t, t.1 < length (b_pts (t_bound st')) /\ t.2 < length (b_pts (t_bound st')) /\ on_seg (P t.1) (P t.2) (P s.1) /\ on_seg (P t.1) (P t.2) (P s.2) /\
    ((fst (P p) - fst (P t.1)) * (fst (P p) - fst (P t.2)) + (snd (P p) - snd (P t.1)) * (snd (P p) - snd (P t.2)) <= 0)%R /\ midpoint_visible g (t_bound st') t p = Ret false.
Proof. exact (walls_calm_built g st st' polys inner fuel). Qed.
Print Assumptions C110_walls_partial.

(** after the whole mesher the same holds of the corners and of the vertices added inside *)
Theorem C110_mesh_partial (g : geo R_arith) (b : bound R_arith) polys pk ft fuel h st : bd_built g b polys ->
  (forall s, s ∈ b_set b -> vget b s.1 <> vget b s.2) -> ruppert_mesh g pk ft fuel h (pl_new b) = Ret st ->
  forall s p, s ∈ b_set (t_bound st) -> p ∈ b_verts b \/ p ∈ t_verts st ->
  let P := vget (t_bound st) in
  p = s.1 \/ p = s.2 \/ (0 < (fst (P p) - fst (P s.1)) * (fst (P p) - fst (P s.2)) + (snd (P p) - snd (P s.1)) * (snd (P p) - snd (P s.2)))%R \/
  exists t, t.1 < length (b_pts (t_bound st)) /\ t.2 < length (b_pts (t_bound st)) /\ on_seg (P t.1) (P t.2) (P s.1) /\ on_seg (P t.1) (P t.2) (P s.2) /\
    ((fst (P p) - fst (P t.1)) * (fst (P p) - fst (P t.2)) + (snd (P p) - snd (P t.1)) * (snd (P p) - snd (P t.2)) <= 0)%R /\ midpoint_visible g (t_bound st) t p = Ret false.
Proof. exact (mesh_calm_built g b polys pk ft fuel h st). Qed.
Print Assumptions C110_mesh_partial.

(** an acute triangle: its gift wrapping, the wall splitting and the whole mesher return *)
Definition open_geo : geo R_arith :=
  Geo R_arith (fun _ _ _ _ => false) (fun _ _ _ => s0) (fun a c p => if Rlt_dec 0 (turnR a c p) then Positive else Zero) (fun _ _ _ => (25 / 8)%R) (fun _ => s0) Int_part.
Definition three {A : arith} (pts : list (xy A)) : bound A :=
  Bnd pts [0; 1; 2] [0] (insert_all ∅ [(0, 1); (1, 2); (2, 0)]) (set_all ∅ [(0, 1); (1, 2); (2, 0)]) [0] (insert_all ∅ [(0, 1); (1, 2); (2, 0)]) None None ∅ ∅ ∅.
Lemma three_walls {A : arith} (pts : list (xy A)) : all_walls (three pts) = Ret [(0, 1); (1, 2); (2, 0)].
Proof. vm_compute. reflexivity. Qed.
Lemma three_base_walls {A : arith} (pts : list (xy A)) : all_base_walls (three pts) = Ret [(0, 1); (1, 2); (2, 0)].
Proof. vm_compute. reflexivity. Qed.
Lemma three_pick : bool_decide (list_to_set [(0, 1); (1, 2); (2, 0)] = (∅ : gset edge)) = false /\ first_pick 3 (list_to_set [(0, 1); (1, 2); (2, 0)]) = Some (1, 2).
Proof. vm_compute. split; reflexivity. Qed.
Lemma three_done : bool_decide (toggle (toggle (list_to_set [(0, 1); (1, 2); (2, 0)] ∖ {[(1, 2)]}) (2, 0)) (0, 1) = ∅) = true.
Proof. vm_compute. reflexivity. Qed.
Definition acute : bound R_arith := three (A := R_arith) [(0, 0); (6, 0); (3, 4)]%R.
Example C110_example : bd_built open_geo acute [[0; 1; 2]] /\ (forall s, s ∈ b_set acute -> vget acute s.1 <> vget acute s.2) /\
  exists r st, gift_wrap open_geo first_pick 4 (pl_new acute) = Ret r /\ ruppert_walls open_geo 4 4 r.1 (rev (b_verts (t_bound r.1))) = Ret st /\ t_bound st = acute /\
    ruppert_mesh open_geo first_pick plain_order 4 100%R (pl_new acute) = Ret st /\ length (b_verts acute) = 3 /\ size (t_full st) = 1.
Proof.
  assert (V0 : vget acute 0 = (0, 0)%R) by reflexivity. assert (V1 : vget acute 1 = (6, 0)%R) by reflexivity. assert (V2 : vget acute 2 = (3, 4)%R) by reflexivity.
  assert (Ew : all_walls acute = Ret [(0, 1); (1, 2); (2, 0)]) by apply three_walls.
  assert (Eb : all_base_walls acute = Ret [(0, 1); (1, 2); (2, 0)]) by apply three_base_walls.
  split.
  { exists [], [DPoly (A := R_arith) [(0, 0); (6, 0); (3, 4)]%R]. cbn [foldM bd_step].
    destruct (polygon_ends open_geo (b_new []) [(0, 0); (6, 0); (3, 4)]%R) as [Hp|(r & Er)].
    - exfalso. apply (polygon_iff open_geo (b_new []) _ ltac:(reflexivity) (drawn_uncrossed open_geo _ (drawn_new open_geo []))) in Hp as [H|[(i & j & a & c & u & w & Hf & _ & _ & Hm)|(i & a & c & t & _ & Ht & _)]]; [discriminate|discriminate|now apply elem_of_empty in Ht].
    - rewrite Er. apply polygon_ret in Er as (p & rest & Ep & Er). injection Ep as <- <-. cbv zeta in Er. rewrite Er. reflexivity. }
  split.
  { intros s Hs. apply elem_of_set_all in Hs as [Hs|Hs]; [|now apply elem_of_empty in Hs]. repeat (apply elem_of_cons in Hs as [->|Hs]); [..|now apply elem_of_nil in Hs]; cbn [fst snd]; rewrite ?V0, ?V1, ?V2; intros H; injection H; lra. }
  assert (T : forall (st : plane R_arith) p q r, t_bound st = acute -> (triangle_dir open_geo st (p, q, r) = if Rlt_dec 0 (turnR (vget acute p) (vget acute q) (vget acute r)) then Positive else Zero)) by (intros st p q r <-; reflexivity).
  set (st0 := Pl acute [] ∅ ∅ ∅ : plane R_arith).
  assert (Em : midpoint_visible open_geo acute (1, 2) 0 = Ret true) by (unfold midpoint_visible; rewrite Eb; reflexivity).
  assert (Ef : gift_wrap_finish open_geo st0 (1, 2) = Ret (Some ((1, 2, 0), (2, 0), (0, 1)))).
  { unfold gift_wrap_finish, search. change (all_vertices st0) with [0; 1; 2]. cbn [foldM fst snd]. unfold to_left. rewrite !T by reflexivity. cbn [fst snd]. rewrite V0, V1, V2.
    destruct (Rlt_dec 0 (turnR (6, 0)%R (3, 4)%R (6, 0)%R)) as [H|_]; [unfold turnR in H; cbn in H; lra|].
    destruct (Rlt_dec 0 (turnR (6, 0)%R (3, 4)%R (3, 4)%R)) as [H|_]; [unfold turnR in H; cbn in H; lra|].
    destruct (Rlt_dec 0 (turnR (6, 0)%R (3, 4)%R (0, 0)%R)) as [_|H]; [|exfalso; apply H; unfold turnR; cbn; lra].
    cbn [is_positive mbind out_bind]. change (t_bound st0) with acute. rewrite Em. reflexivity. }
  assert (Ea : exists st1, add_triangle open_geo st0 (1, 2, 0) = Some st1 /\ t_bound st1 = acute /\ t_full st1 = <[(1, 2, 0) := (25 / 8)%R]> ∅).
  { unfold add_triangle. rewrite T by reflexivity. rewrite V0, V1, V2.
    destruct (Rlt_dec 0 (turnR (6, 0)%R (3, 4)%R (0, 0)%R)) as [_|H]; [|exfalso; apply H; unfold turnR; cbn; lra].
    cbn [is_positive negb fst snd]. destruct (existsb _ _) eqn:Hx.
    - exfalso. apply existsb_exists in Hx as (e & _ & Hx). apply bool_decide_eq_true_1 in Hx as [v Hx]. cbn [t_tris st0] in Hx. now rewrite lookup_empty in Hx.
    - eexists. split; [reflexivity|]. split; reflexivity. }
  destruct Ea as (st1 & Ea & B1 & F1). exists (st1, []), st1.
  assert (Eg : gift_wrap open_geo first_pick 4 (pl_new acute) = Ret (st1, [])).
  { unfold gift_wrap. cbn [pl_new t_bound t_verts t_full]. rewrite Ew. cbn [mbind out_bind]. fold st0. cbn [gift_loop]. destruct three_pick as [-> ->]. cbn [unwrap mbind out_bind].
    rewrite Ef. cbn [mbind out_bind]. rewrite Ea. cbn [unwrap mbind out_bind gift_loop]. rewrite three_done. reflexivity. }
  assert (N : forall v s, v ∈ [0; 1; 2] -> s ∈ [(0, 1); (1, 2); (2, 0)] -> ruppert_encroaches open_geo st1 v s = Ret false).
  { intros v s Hv Hs. unfold ruppert_encroaches. destruct (seg_has s v) eqn:Hh; [reflexivity|].
    unfold tget. rewrite B1. rewrite (proj2 (disc_iff acute s v)); [reflexivity|].
    unfold thales. repeat (apply elem_of_cons in Hv as [->|Hv]); [..|now apply elem_of_nil in Hv]; repeat (apply elem_of_cons in Hs as [->|Hs]); try (now apply elem_of_nil in Hs); try discriminate; cbn [fst snd]; rewrite ?V0, ?V1, ?V2; cbn [fst snd]; lra. }
  assert (S0 : forall v, v ∈ [0; 1; 2] -> segments_encroached_by open_geo st1 v = Ret []).
  { intros v Hv. unfold segments_encroached_by. rewrite B1, Ew. cbn [mbind out_bind mapM_out]. rewrite !N by first [exact Hv|repeat first [apply elem_of_list_here|apply elem_of_list_further]]. reflexivity. }
  assert (Er : ruppert_walls open_geo 4 4 st1 (rev (b_verts (t_bound st1))) = Ret st1).
  { rewrite B1. change (rev (b_verts acute)) with [2; 1; 0]. cbn [ruppert_walls]. rewrite !S0 by (repeat first [apply elem_of_list_here|apply elem_of_list_further]). reflexivity. }
  split; [exact Eg|]. split; [exact Er|]. split; [exact B1|]. split; [|split; [reflexivity|rewrite F1, insert_empty; apply map_size_singleton]].
  unfold ruppert_mesh. rewrite Eg. cbn [mbind out_bind fst]. rewrite Er. cbn [mbind out_bind ruppert_loop]. unfold plain_order. rewrite F1, insert_empty, map_to_list_singleton.
  unfold skinny_triangle. cbn [List.find]. replace (is_skinny st1 _ _ _) with false; [reflexivity|]. symmetry. unfold is_skinny. cbn [fst snd]. unfold tget. rewrite B1, V0, V1, V2.
  assert (G : forall x y : R, (25 <= x)%R -> (5 <= R_sqrt.sqrt x)%R).
  { intros x _ Hx. rewrite <- (sqrt_square 5) by lra. apply sqrt_le_1; lra. }
  assert (M : forall x y : R, (5 <= x)%R -> (5 <= y)%R -> (5 <= @smin R_arith x y)%R). { intros x y Hx Hy. unfold smin. destruct (_ || _); assumption. }
  match goal with |- context [smin (smin ?a ?b) ?c] => assert (H5 : (5 <= @smin R_arith (smin a b) c)%R); [apply M; [apply M|]; rewrite dist_sq; cbn [fst snd]; apply (G _ 0%R); lra|]; set (m := smin (smin a b) c) in * end.
  apply orb_false_iff. split; apply not_true_iff_false; intros H; apply R_ltb_iff in H.
  - assert (Hm : (25 / 8 / m <= 25 / 8 / 5)%R). { unfold Rdiv. apply Rmult_le_compat_l; [lra|]. apply Rinv_le_contravar; [lra|exact H5]. }
    change (@sdiv R_arith (25 / 8)%R m) with (25 / 8 / m)%R in H. unfold ratio_bound in H. cbn in H. lra.
  - lra.
Qed.
