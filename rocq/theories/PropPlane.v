(** C56 - C60, C71, C74 - C76: the plane triangulation. *)
From Coq Require Import Floats Reals String.
From Verif Require Import PlaneFinal MeshEx InstQc InstF64.
Local Open Scope list_scope.
Local Open Scope nat_scope.

(** ** Example outline and choices *)
Definition square_ops {A : arith} : list (bd_op A) := [DPoly [(sz 0, sz 0); (sz 4, sz 0); (sz 5, sz 4); (sz 0, sz 4)]].
Definition first_pick : pick_fn := fun _ X => head (elements X).
Definition last_pick : pick_fn := fun _ X => last (elements X).
Definition plain_order {A : arith} : order_fn A := fun _ m => map_to_list m.
Example first_pick_ok : pick_ok first_pick.
Proof.
  intros n X H. unfold first_pick. destruct (elements X) as [|e l] eqn:E.
  - exfalso. apply H. apply set_eq. intros e. rewrite <- elem_of_elements, E. set_solver.
  - exists e. split; [reflexivity|]. rewrite <- elem_of_elements, E. left.
Qed.
Example last_pick_ok : pick_ok last_pick.
Proof.
  intros n X H. unfold last_pick. destruct (last (elements X)) as [e|] eqn:E.
  - exists e. split; [reflexivity|]. apply elem_of_elements. apply last_Some in E as [l ->]. apply elem_of_app. right. left.
  - exfalso. apply H. apply last_None in E. apply set_eq. intros e. rewrite <- elem_of_elements, E. set_solver.
Qed.
Example plain_order_ok {A : arith} : order_ok (plain_order (A := A)).
Proof. intros n m. reflexivity. Qed.

(** *** C56 — the edge table and the triangle table describe the same triangles *)
Definition consistent {A : arith} (st : plane A) : Prop :=
  (forall a b c, is_Some (t_full st !! (a, b, c)) -> t_tris st !! (a, b) = Some c /\ t_tris st !! (b, c) = Some a /\ t_tris st !! (c, a) = Some b) /\
  (forall t t' e, is_Some (t_full st !! t) -> is_Some (t_full st !! t') -> e ∈ tri_edges t -> e ∈ tri_edges t' -> t = t') /\
  (forall a b c, t_tris st !! (a, b) = Some c -> is_Some (t_full st !! (a, b, c)) \/ is_Some (t_full st !! (b, c, a)) \/ is_Some (t_full st !! (c, a, b))).
(** any calls, whether they succeed or not *)
Inductive tab_op (A : arith) := TAdd (t : tri) | TDel (t : tri) | TPoint (p : Bounds.xy A).
Global Arguments TAdd {A} _.
Global Arguments TDel {A} _.
Global Arguments TPoint {A} _.
Definition tab_step {A : arith} (g : geo A) (st : plane A) (o : tab_op A) : plane A :=
  match o with
  | TAdd t => default st (add_triangle g st t)
  | TDel t => default st (delete_triangle st t)
  | TPoint p => (pl_store_vertex st p).1
  end.
Lemma tables_consistent {A : arith} (st : plane A) : tables_ok (t_tris st) (t_full st) -> consistent st.
Proof.
  intros H. split; [intros a b c Hs; apply (to_found _ _ H (a, b, c) Hs)|]. split; [apply (to_once _ _ H)|].
  intros a b c Hc. destruct (to_only _ _ H a b c Hc) as (t & Ht & Hs). apply in_rots in Ht as [->|[->| ->]]; auto.
Qed.
Theorem C56_history (A : arith) (g : geo A) (b : bound A) (ops : list (tab_op A)) :
  consistent (foldl (tab_step g) (pl_new b) ops).
Proof.
  apply tables_consistent. assert (H : tables_ok (t_tris (pl_new b)) (t_full (pl_new b))) by apply tables_empty.
  revert H. generalize (pl_new b). induction ops as [|o ops IH]; intros st H; [exact H|]. cbn [foldl]. apply IH. clear IH.
  destruct o as [t|t|p]; cbn [tab_step].
  - destruct (add_triangle g st t) as [st'|] eqn:E; [|exact H]. cbn. destruct (add_ret g _ _ _ E) as (_ & Hn & _ & -> & ->). now apply tables_add.
  - destruct (delete_triangle st t) as [st'|] eqn:E; [|exact H]. cbn. unfold delete_triangle in E. case_bool_decide as K; [|discriminate].
    apply (inj Some) in E. subst st'. cbn [t_tris t_full]. destruct (remove_first_rot _ _ t H K) as (t0 & H0 & Hs & ->). now apply (tables_del _ _ t t0).
  - exact H.
Qed.
Print Assumptions C56_history.
(** every state of the mesher, and in it every triangle is counter-clockwise and stored with its circumradius *)
Theorem C56_states (A : arith) (g : geo A) (st : plane A) : mesh_state g st ->
  consistent st /\
  forall a b c r, t_full st !! (a, b, c) = Some r -> g_dir g (tget st a) (tget st b) (tget st c) = Positive /\ r = g_cr g (tget st a) (tget st b) (tget st c).
Proof.
  intros H. destruct (state_inv g st H) as [base Hi]. pose proof (pi_mesh _ _ _ Hi) as Hm. split; [apply tables_consistent, Hm|].
  intros a b c r Hr. destruct (mo_geo _ _ Hm (a, b, c) r Hr) as (_ & H1 & H2). auto.
Qed.
Print Assumptions C56_states.
Theorem C56_meshers (A : arith) (g : geo A) (b : bound A) polys pk ft ord fuel h st :
  bd_built g b polys -> pick_ok pk ->
  chew_mesh g pk ft ord fuel h (pl_new b) = Ret st \/ ruppert_mesh g pk ft fuel h (pl_new b) = Ret st -> mesh_state g st.
Proof.
  intros Hb Hp [E|E].
  - now destruct (chew_state g pk ft ord fuel h b polys st Hb Hp E) as (_ & _ & _ & _ & _ & _ & H).
  - now destruct (ruppert_state g pk ft fuel h b polys st Hb Hp E) as (_ & _ & _ & _ & _ & _ & H).
Qed.
Print Assumptions C56_meshers.
(** a quadrilateral, triangulated and refined to circumradius 2.5 in binary64 *)
Definition square_mesh : out (plane F64_arith * list edge) :=
  r ← foldM (bd_step f64_geo) square_ops (b_new [], []); gift_wrap f64_geo first_pick 100 (pl_new r.1).
Definition square_fine : out (plane F64_arith) :=
  r ← foldM (bd_step f64_geo) square_ops (b_new [], []);
  ruppert_mesh f64_geo first_pick plain_order 100 (fl 2.5) (pl_new r.1).
Definition square_chew : out (plane F64_arith) :=
  r ← foldM (bd_step f64_geo) square_ops (b_new [], []);
  chew_mesh f64_geo first_pick plain_order (elements (b_set r.1)) 100 (fl 1.875) (pl_new r.1).
Example C56_example : (r ← square_mesh; Ret (map fst (map_to_list (t_full r.1)), r.2, size (t_tris r.1))) = Ret ([(3, 0, 1); (3, 1, 2)], [], 6).
Proof. vm_refl. Qed.
Example C56_example_fine : (r ← square_fine; Ret (size (t_full r), size (t_tris r), length (all_vertices r))) = Ret (5, 15, 7) /\
  (r ← square_chew; Ret (size (t_full r), size (t_tris r), length (all_vertices r))) = Ret (8, 24, 9).
Proof. split; vm_refl. Qed.

(** *** C57 — point insertion keeps the oriented boundary and the area and adds counter-clockwise triangles at the point *)
Theorem C57_boundary (A : arith) (g : geo A) fuel u t (st st' : plane A) :
  mesh_state g st -> u ∈ all_vertices st -> insert_vertex g fuel u t st = Ret st' ->
  (forall e, boundary (t_full st') e = boundary (t_full st) e) /\
  t_bound st' = t_bound st /\ t_verts st' = t_verts st /\
  forall t', is_Some (t_full st' !! t') -> triangle_dir g st' t' = Positive /\ (is_Some (t_full st !! t') \/ t'.1.1 = u).
Proof. intros H Hu E. split; [exact (insert_boundary g fuel u t st st' H Hu E)|exact (insert_new g fuel u t st st' H Hu E)]. Qed.
Print Assumptions C57_boundary.
Theorem C57_area (A : arith) (OL : ord_laws A) (g : geo A) fuel u t (st st' : plane A) :
  mesh_state g st -> u ∈ all_vertices st -> insert_vertex g fuel u t st = Ret st' -> mesh_area st' = mesh_area st.
Proof.
  intros H Hu E. destruct (state_inv g st H) as [base Hi].
  destruct (insert_total g _ _ _ _ _ _ (FRth OL) (lace (b_pts (t_bound st))) (lace_anti OL _) fuel u t st st' (pi_mesh _ _ _ Hi) (pi_all g _ _ _ Hi Hu) E) as (_ & [Hb _] & _ & T).
  rewrite <- !(area_sum OL). rewrite Hb. exact T.
Qed.
Print Assumptions C57_area.
(** the centre of the quadrilateral, inserted into one of its triangles, replaces both *)
Definition centre_in : out (plane Qc_arith * plane Qc_arith) :=
  r ← foldM (bd_step qc_geo) square_ops (b_new [], []);
  r ← gift_wrap qc_geo first_pick 100 (pl_new r.1);
  let st := (pl_store_vertex r.1 (qc 2, qc 2)).1 in
  st' ← insert_vertex qc_geo 3 4 (3, 0, 1) st; Ret (st, st').
Example C57_example :
  (r ← centre_in; Ret (map fst (map_to_list (t_full r.1)), map fst (map_to_list (t_full r.2)), bool_decide (4 ∈ all_vertices r.1),
     map (boundary (t_full r.1)) [(0, 1); (1, 2); (1, 3); (1, 0)], map (boundary (t_full r.2)) [(0, 1); (1, 2); (1, 3); (1, 0)])) =
  Ret ([(3, 0, 1); (3, 1, 2)], [(4, 2, 3); (4, 0, 1); (4, 3, 0); (4, 1, 2)], true, [1; 1; 0; -1]%Z, [1; 1; 0; -1]%Z) /\
  (r ← centre_in; Ret (mesh_area r.1, mesh_area r.2)) = Ret (qc 18, qc 18).
Proof. split; vm_refl. Qed.

(** *** C58 — the initial triangulation covers the outline *)
(** no triangle has a boundary segment reversed among its edges: none lies on the outer side *)
Theorem C58_boundary (A : arith) (g : geo A) (b : bound A) polys pk fuel r :
  bd_built g b polys -> pick_ok pk -> gift_wrap g pk fuel (pl_new b) = Ret r -> r.2 = [] -> inner_only r.1 ->
  t_bound r.1 = b /\ forall e, boundary (t_full r.1) e = outlined (b_set b) e.
Proof.
  intros Hb Hp E Hl Hin. destruct (bd_built_inv g b polys Hb) as (base & cs & Hi & _).
  destruct (gift_top g 0%Z 1%Z Z.add Z.mul Z.sub Z.opp Zth (fun _ _ => 0%Z) (fun _ _ _ => eq_refl) pk fuel b base cs r Hi Hp E) as (_ & Hbb & _).
  split; [exact Hbb|]. intros e. rewrite <- Hbb. apply excess_zero. now apply (gift_boundary g pk fuel b polys).
Qed.
Print Assumptions C58_boundary.
Theorem C58_area (A : arith) (OL : ord_laws A) (g : geo A) (b : bound A) polys pk fuel r :
  bd_built g b polys -> pick_ok pk -> gift_wrap g pk fuel (pl_new b) = Ret r -> r.2 = [] -> inner_only r.1 ->
  mesh_area r.1 = outline_area (pl_new b).
Proof.
  intros Hb Hp E Hl Hin. destruct (bd_built_inv g b polys Hb) as (base & cs & Hi & _).
  destruct (gift_top g _ _ _ _ _ _ (FRth OL) lace (lace_anti OL) pk fuel b base cs r Hi Hp E) as (_ & Hbb & _ & X).
  specialize (X Hin). rewrite Hl in X. transitivity (outline_area r.1).
  - apply (area_excess OL). rewrite X. cbn [esum foldr]. apply (neg_zero OL).
  - unfold outline_area, tget. now rewrite Hbb.
Qed.
Print Assumptions C58_area.
Example C58_example :
  (r ← foldM (bd_step qc_geo) square_ops (b_new [], []); w ← gift_wrap qc_geo first_pick 100 (pl_new r.1);
   Ret (w.2, bool_decide (set_Forall (fun s => Forall (fun t => (s.2, s.1) ∉ tri_edges t) (map fst (map_to_list (t_full w.1)))) (b_set r.1)),
        mesh_area w.1, outline_area (pl_new r.1))) = Ret ([], true, qc 18, qc 18).
Proof. vm_refl. Qed.

(** *** C59 — meshing twice.  False: the triangle table survives.  Two runs on the same outline
    that merely pick edges in different orders leave every triangle stored twice. *)
Lemma C59_run :
  (r ← foldM (bd_step f64_geo) square_ops (b_new [], []);
   w ← gift_wrap f64_geo first_pick 100 (pl_new r.1); w2 ← gift_wrap f64_geo last_pick 100 w.1; fresh ← gift_wrap f64_geo last_pick 100 (pl_new r.1);
   Ret (bool_decide (is_Some (t_full w2.1 !! (3, 0, 1))), bool_decide (is_Some (t_full w2.1 !! (0, 1, 3))), bool_decide (t_full fresh.1 !! (3, 0, 1) = None))) =
  Ret (true, true, true).
Proof. vm_refl. Qed.
Theorem C59_refuted : exists (b : bound F64_arith) polys w w2 fresh,
  bd_built f64_geo b polys /\ gift_wrap f64_geo first_pick 100 (pl_new b) = Ret w /\ gift_wrap f64_geo last_pick 100 w.1 = Ret w2 /\
  gift_wrap f64_geo last_pick 100 (pl_new b) = Ret fresh /\
  is_Some (t_full w2.1 !! (3, 0, 1)) /\ is_Some (t_full w2.1 !! (0, 1, 3)) /\ t_full fresh.1 !! (3, 0, 1) = None.
Proof.
  pose proof C59_run as K. apply bind_ret_inv in K as ([b polys] & Hb & K). apply bind_ret_inv in K as (w & Hw & K).
  apply bind_ret_inv in K as (w2 & Hw2 & K). apply bind_ret_inv in K as (fr & Hf & K). injection K as K1 K2 K3.
  apply bool_decide_eq_true in K1, K2, K3. exists b, polys, w, w2, fr. split; [now exists [], square_ops|]. auto 10.
Qed.
Print Assumptions C59_refuted.
(** what a second run does leave: the edge table of a fresh run, and the triangle table with the old entries kept *)
Theorem C59_partial (A : arith) (g : geo A) pk fuel (st : plane A) r : gift_wrap g pk fuel st = Ret r ->
  exists fresh, gift_wrap g pk fuel (Pl (t_bound st) (t_verts st) ∅ ∅ ∅) = Ret (fresh, r.2) /\
    t_tris r.1 = t_tris fresh /\ t_rec r.1 = t_rec fresh /\ t_full r.1 = t_full fresh ∪ t_full st.
Proof.
  rewrite gift_over. intros E. apply bind_ret_inv in E as ([f l] & Ef & E). injection E as <-. exists f. cbn [snd]. split; [exact Ef|]. auto.
Qed.
Print Assumptions C59_partial.

(** *** C60 — the refinement loops end with the required triangles *)
Theorem C60_size (A : arith) (g : geo A) (b : bound A) polys pk ft ord fuel h st :
  bd_built g b polys -> pick_ok pk -> order_ok ft ->
  chew_mesh g pk ft ord fuel h (pl_new b) = Ret st \/ ruppert_mesh g pk ft fuel h (pl_new b) = Ret st ->
  forall t, is_Some (t_full st !! t) -> sltb h (g_cr g (tget st t.1.1) (tget st t.1.2) (tget st t.2)) = false.
Proof.
  intros Hb Hp Ho [E|E]; [exact (chew_fine g pk ft ord fuel h b polys st Hb Hp Ho E)|].
  intros t Ht. pose proof (ruppert_fine g pk ft fuel h b polys st Hb Hp Ho E t Ht) as K. unfold is_skinny in K. now apply orb_false_iff in K as [_ K].
Qed.
Print Assumptions C60_size.
Theorem C60_shape (A : arith) (OL : ord_laws A) (g : geo A) (b : bound A) polys pk ft fuel h st :
  bd_built g b polys -> pick_ok pk -> order_ok ft -> ruppert_mesh g pk ft fuel h (pl_new b) = Ret st ->
  forall t, is_Some (t_full st !! t) ->
  let u := tget st t.1.1 in let v := tget st t.1.2 in let w := tget st t.2 in
  exists l, l ∈ [xy_dist u v; xy_dist v w; xy_dist w u] /\ Forall (les l) [xy_dist u v; xy_dist v w; xy_dist w u] /\
    les (sdiv (g_cr g u v w) l) (slit 1415 1000).
Proof.
  intros Hb Hp Ho E t Ht u v w. pose proof (ruppert_fine g pk ft fuel h b polys st Hb Hp Ho E t Ht) as K.
  unfold is_skinny in K. apply orb_false_iff in K as [K _]. cbn [fst snd] in K. fold u v w in K.
  exists (smin (smin (xy_dist u v) (xy_dist v w)) (xy_dist w u)).
  destruct (smin_spec OL (xy_dist u v) (xy_dist v w)) as (H1 & L1 & L2). destruct (smin_spec OL (smin (xy_dist u v) (xy_dist v w)) (xy_dist w u)) as (H2 & L3 & L4).
  split; [|split; [|exact K]].
  - destruct H2 as [-> | ->]; [destruct H1 as [-> | ->]|]; set_solver.
  - apply Forall_cons. split; [exact (les_trans OL _ _ _ L3 L1)|]. apply Forall_cons. split; [exact (les_trans OL _ _ _ L3 L2)|].
    apply Forall_cons. split; [exact L4|apply Forall_nil]. exact I.
Qed.
Print Assumptions C60_shape.
Example C60_example : (r ← square_fine; Ret (map (fun x => sltb (fl 2.5) x.2) (map_to_list (t_full r)), map (is_skinny r ratio_bound (fl 2.5)) (map_to_list (t_full r)))) =
  Ret (replicate 5 false, replicate 5 false) /\
  (r ← square_mesh; Ret (map (fun x => sltb (fl 2.5) x.2) (map_to_list (t_full r.1)))) = Ret [true; true].
Proof. split; vm_refl. Qed.

(** *** C71 — the element model of a mesh *)
(** [node_of st v i]: vertex [v] is at place [i] of the vertex list and so becomes node [i] *)
Theorem C71_assemble (A : arith) (g : geo A) (st : plane A) ot os oc ol a :
  mesh_state g st -> ot ≡ₚ (map_to_list (t_full st)).*1 -> os ≡ₚ (map_to_list (b_dcons (t_bound st))).*1 ->
  oc ≡ₚ (map_to_list (all_constraints (t_bound st) os)).*1 -> ol ≡ₚ (map_to_list (b_forces (t_bound st))).*1 ->
  pl_assemble ot os oc ol st = Ret (Some a) ->
  (* one node per vertex, at its place *)
  ea_nodes a = map (fun v => xy_pt (tget st v)) (all_vertices st) /\ NoDup (all_vertices st) /\
  (* one element per triangle, on the nodes of its corners *)
  Forall2 (fun (t : tri) e => exists i j k, node_of st t.1.1 i /\ node_of st t.1.2 j /\ node_of st t.2 k /\
    e = El (i, j, k) (xy_pt (tget st t.1.1), xy_pt (tget st t.1.2), xy_pt (tget st t.2)) (ea_mat a) (ea_cond a)) ot (ea_elems a) /\
  b_mat (t_bound st) = Some (ea_mat a) /\ b_cond (t_bound st) = Some (ea_cond a) /\
  (* each node has a distributed support of one of its segments, or else its own, or none *)
  length (ea_cons a) = length (all_vertices st) /\
  (forall v i, node_of st v i ->
     (exists s c, b_dcons (t_bound st) !! s = Some c /\ (s.1 = v \/ s.2 = v) /\ ea_cons a !! i = Some c) \/
     ((forall s, is_Some (b_dcons (t_bound st) !! s) -> s.1 <> v /\ s.2 <> v) /\ ea_cons a !! i = Some (default Free (b_cons (t_bound st) !! v)))) /\
  (* the loads are exactly those of the boundary *)
  ea_conc a = ∅ /\
  (forall i j f, ea_line a !! (i, j) = Some f <-> exists u v, node_of st u i /\ node_of st v j /\ b_forces (t_bound st) !! (u, v) = Some f).
Proof. exact (C71_lemma g st ot os oc ol a). Qed.
Print Assumptions C71_assemble.
Theorem C71_missing (A : arith) (st : plane A) ot os oc ol :
  (b_mat (t_bound st) = None -> pl_assemble ot os oc ol st = Ret None) /\
  (is_Some (b_mat (t_bound st)) -> b_cond (t_bound st) = None -> pl_assemble ot os oc ol st = Panic).
Proof.
  unfold pl_assemble. split; [intros ->; reflexivity|]. intros [m ->] ->. reflexivity.
Qed.
Print Assumptions C71_missing.

(** the quadrilateral with a support on its first side and a load on its third *)
Definition loaded_ops : list (bd_op F64_arith) :=
  square_ops ++ [DDcons 0 1 XYFixed; DCons 3 XFixed; DForce 2 3 (pt2 (fl 5) (fl 7)); DMat (Mat "soft"%string (fl 15) (fl 0.25) (fl 2)); DCond (PlaneStress (fl 1))].
Example C71_example :
  (r ← foldM (bd_step f64_geo) loaded_ops (b_new [], []); w ← gift_wrap f64_geo first_pick 100 (pl_new r.1);
   o ← pl_assemble (map_to_list (t_full w.1)).*1 [(0, 1)] [3; 0; 1] [(2, 3)] w.1; a ← unwrap o;
   Ret (length (ea_nodes a), map e_ids (ea_elems a), ea_cons a, ea_line a !! (2, 3))) =
  Ret (4, [(3, 0, 1); (3, 1, 2)], [XYFixed; XYFixed; Free; XFixed], Some (pt2 (fl 5) (fl 7))).
Proof. vm_refl. Qed.

(** *** C74 — the initial triangulation always comes to an end *)
Theorem C74_ends (A : arith) (g : geo A) (b : bound A) polys pk fuel :
  bd_built g b polys -> pick_ok pk -> size (b_set b) + 2 * (length (b_verts b) * length (b_verts b)) < fuel ->
  gift_wrap g pk fuel (pl_new b) <> Fuel.
Proof. exact (gift_ends g pk fuel b polys). Qed.
Print Assumptions C74_ends.
Example C74_example : (r ← foldM (bd_step f64_geo) square_ops (b_new [], []); Ret (size (b_set r.1), length (b_verts r.1))) = Ret (4, 4) /\
  (r ← foldM (bd_step f64_geo) square_ops (b_new [], []); r ← gift_wrap f64_geo first_pick 37 (pl_new r.1); Ret (size (t_full r.1))) = Ret 2.
Proof. split; vm_refl. Qed.

(** *** C75 — inserting a point always comes to an end, in exact arithmetic *)
Theorem C75_ends (A : arith) (OL : ord_laws A) (g : geo A) fuel u t (st : plane A) :
  (forall p q, g_dir g p q p = Zero) -> mesh_state g st -> u ∈ all_vertices st ->
  (forall t', is_Some (t_full st !! t') -> t'.1.1 <> u /\ t'.1.2 <> u /\ t'.2 <> u) ->
  size (t_full st) < fuel -> insert_vertex g fuel u t st <> Fuel.
Proof. intros Hf. exact (insert_stops g OL Hf fuel u t st). Qed.
Print Assumptions C75_ends.
(** the insertion of C57_example: two triangles before, three levels suffice *)
Example C75_example : (r ← centre_in; Ret (size (t_full r.1), bool_decide (map_Forall (fun t _ => t.1.1 <> 4 /\ t.1.2 <> 4 /\ t.2 <> 4) (t_full r.1)))) = Ret (2, true) /\
  (forall p q, g_dir qc_geo p q p = Zero).
Proof.
  split; [vm_refl|]. intros p q. cbn. unfold plain_dir, turn.
  match goal with |- context [sltb s0 ?x] => replace x with (s0 : Qc_arith) by (symmetry; apply (flat_turn Qc_ord_laws)) end. reflexivity.
Qed.

(** *** C76 — the refined mesh still covers the refined outline *)
Theorem C76_chew (A : arith) (g : geo A) (b : bound A) polys pk ft ord fuel h st :
  bd_built g b polys -> pick_ok pk -> order_ok ft -> chew_mesh g pk ft ord fuel h (pl_new b) = Ret st ->
  exists b' r, divide_all_segments g b ord h = Ret b' /\ gift_wrap g pk fuel (pl_new b') = Ret r /\ b_set (t_bound st) = b_set b' /\
  (r.2 = [] -> inner_only r.1 ->
   (forall e, boundary (t_full st) e = outlined (b_set (t_bound st)) e) /\ (ord_laws A -> mesh_area st = outline_area st)).
Proof. exact (chew_covers g pk ft ord fuel h b polys st). Qed.
Print Assumptions C76_chew.
Theorem C76_ruppert (A : arith) (g : geo A) (b : bound A) polys pk ft fuel h st :
  bd_built g b polys -> pick_ok pk -> order_ok ft -> ruppert_mesh g pk ft fuel h (pl_new b) = Ret st ->
  exists r, gift_wrap g pk fuel (pl_new b) = Ret r /\
  (r.2 = [] -> inner_only r.1 ->
   (forall e, boundary (t_full st) e = outlined (b_set (t_bound st)) e) /\ (ord_laws A -> mesh_area st = outline_area st)).
Proof. exact (ruppert_covers g pk ft fuel h b polys st). Qed.
Print Assumptions C76_ruppert.
Example C76_example : (r ← square_fine; Ret (map (boundary (t_full r)) (elements (b_set (t_bound r))), size (b_set (t_bound r)), mesh_area r, outline_area r)) =
  Ret (replicate 7 1%Z, 7, fl 18, fl 18).
Proof. vm_refl. Qed.
