(** States of the mesher, and its boundary and area read off the triangle table. *)
From Verif Require Export MeshEnds.
From Coq Require Import Ring.

(** ** Reading a triangle table *)
(** how often a directed edge occurs in a triangle *)
Definition uses (e : edge) (t : tri) : Z := Z.of_nat (length (filter (fun e' => e' = e) (tri_edges t))).
(** the multiplicity of a directed edge in the oriented boundary of the stored triangles *)
Definition boundary {A : arith} (F : gmap tri A) (e : edge) : Z :=
  foldr (fun x acc => (uses e x.1 - uses (e.2, e.1) x.1 + acc)%Z) 0%Z (map_to_list F).
(** the same for a set of directed segments *)
Definition outlined (X : gset edge) (e : edge) : Z :=
  ((if bool_decide (e ∈ X) then 1 else 0) - (if bool_decide ((e.2, e.1) ∈ X) then 1 else 0))%Z.

Section area.
Context {A : arith}.
Local Open Scope arith_scope.
(** signed area of a triangle, and of the region to the left of a set of closed polygons *)
Definition tri_area (pos : nat -> xy A) (t : tri) : A :=
  (((pos t.1.2).1 - (pos t.1.1).1) * ((pos t.2).2 - (pos t.1.1).2) - ((pos t.2).1 - (pos t.1.1).1) * ((pos t.1.2).2 - (pos t.1.1).2)) / sz 2.
Definition mesh_area (st : plane A) : A := foldr (fun x acc => tri_area (tget st) x.1 + acc) 0 (map_to_list (t_full st)).
Definition shoelace (pos : nat -> xy A) (e : edge) : A := ((pos e.1).1 * (pos e.2).2 - (pos e.2).1 * (pos e.1).2) / sz 2.
Definition outline_area (st : plane A) : A := foldr (fun e acc => shoelace (tget st) e + acc) 0 (elements (b_set (t_bound st))).
End area.

(** the states between two top-level steps of the mesher: an initial triangulation of a built
    boundary, then stored vertices, point insertions and boundary splits *)
Inductive mesh_state {A : arith} (g : geo A) : plane A -> Prop :=
| MS_gift b polys pk fuel r : bd_built g b polys -> pick_ok pk -> gift_wrap g pk fuel (pl_new b) = Ret r -> mesh_state g r.1
| MS_point st p : mesh_state g st -> mesh_state g (with_bound st (vertex_new (t_bound st) p).1)
| MS_vertex st p : mesh_state g st -> mesh_state g (pl_store_vertex st p).1
| MS_insert st fuel u t st' : mesh_state g st -> u ∈ all_vertices st -> insert_vertex g fuel u t st = Ret st' -> mesh_state g st'
| MS_split st fuel s r : mesh_state g st -> ruppert_split_segment g fuel st s = Ret r -> mesh_state g r.1.

Section top.
Context {A : arith} (g : geo A).
Implicit Types st : plane A.

Lemma new_inv (b : bound A) base cs : bd_inv b base cs -> pl_inv g (pl_new b) base.
Proof.
  intros H. split.
  - split; [apply tables_empty|]. intros t c Hc. cbn in Hc. rewrite lookup_empty in Hc. discriminate.
  - exists cs. exact H.
  - intros v Hv. cbn in Hv. now apply elem_of_nil in Hv.
  - unfold all_vertices. cbn. apply (bi_distinct _ _ _ H).
Qed.
Lemma walls_ret (b : bound A) base cs l : bd_inv b base cs -> all_walls b = Ret l -> l = edges_of cs /\ NoDup l /\ list_to_set l = b_set b.
Proof.
  intros H E. destruct cs as [|c cs].
  { unfold all_walls in E. rewrite (bi_starts _ _ _ H) in E. cbn in E. discriminate. }
  unfold all_walls in E. rewrite (bi_starts _ _ _ H), (all_walls_loops _ _ (bi_loops _ _ _ H)) in E by discriminate. injection E as <-.
  split; [reflexivity|]. split.
  - apply (NoDup_fmap_1 fst). rewrite edges_fst. apply (bi_loops _ _ _ H).
  - apply set_eq. intros s. rewrite elem_of_list_to_set. symmetry. apply (bi_set _ _ _ H).
Qed.

(** no triangle lies on the outer side of a boundary segment *)
Definition inner_only st : Prop := forall s t, s ∈ b_set (t_bound st) -> is_Some (t_full st !! t) -> (s.2, s.1) ∉ tri_edges t.
Lemma inner_none st : mesh_ok g st -> inner_only st -> forall s, s ∈ b_set (t_bound st) -> t_tris st !! erev s = None.
Proof.
  intros H Hi s Hs. destruct (t_tris st !! erev s) as [w|] eqn:E; [|reflexivity]. exfalso. destruct s as [a b]. unfold erev in E. cbn in E.
  destruct (to_only _ _ (mo_tab _ _ H) _ _ _ E) as (t & Ht & Hf). apply (Hi (a, b) t Hs Hf). cbn. apply (rots_edges _ _ _ Ht). apply in_edges. auto.
Qed.

Section gift.
Context {R : Type} (rO rI : R) (radd rmul rsub : R -> R -> R) (ropp : R -> R).
Hypothesis RT : ring_theory rO rI radd rmul rsub ropp eq.
Add Ring RR5 : RT.
Variable W : list (xy A) -> edge -> R.
Hypothesis anti : forall pts a b, radd (W pts (a, b)) (W pts (b, a)) = rO.

Lemma gift_top pk fuel b base cs r : bd_inv b base cs -> pick_ok pk -> gift_wrap g pk fuel (pl_new b) = Ret r ->
  pl_inv g r.1 base /\ t_bound r.1 = b /\ t_verts r.1 = [] /\
  (inner_only r.1 -> excess rO radd rsub W r.1 = ropp (esum rO radd (W (b_pts b)) r.2)).
Proof.
  intros H Hp E. unfold gift_wrap in E. cbn [pl_new t_bound t_verts t_tris t_full t_rec] in E.
  apply bind_ret_inv in E as (walls & Ew & E). destruct (walls_ret _ _ _ _ H Ew) as (_ & Hnd & Hset). rewrite Hset in E.
  change (Pl b [] ∅ ∅ ∅) with (pl_new b) in E. pose proof (new_inv b base cs H) as I0.
  assert (HX : forall e, e ∈ b_set b -> e.1 < n_pts (pl_new b) /\ e.2 < n_pts (pl_new b)) by (intros e; apply (set_range g (pl_new b) base e I0)).
  destruct (gift_loop_ok g pk Hp _ _ _ _ _ (pi_mesh _ _ _ I0) (fun v => pi_all g _ _ v I0) HX E) as [H1 S1'].
  split; [now apply (inv_same g (pl_new b))|]. destruct S1' as [Hb Hv]. cbn in Hb, Hv. split; [exact Hb|]. split; [exact Hv|].
  intros Hin. pose proof (inner_none _ H1 Hin) as Hn. rewrite Hb in Hn.
  pose proof (gift_loop_sum g rO rI radd rmul rsub ropp RT (W (b_pts b)) (anti _) pk (b_set b) Hp _ _ _ _ _ (pi_mesh _ _ _ I0)
    (fun v => pi_all g _ _ v I0) HX (fun e He => or_introl He) E Hn) as T.
  unfold excess, meshed, outline_of. rewrite Hb. cbn [t_full pl_new] in T. rewrite tsum_empty in T. unfold esum at 2 in T. cbn [foldr] in T.
  set (X := tsum _ _ _ _) in *. set (Y := esum _ _ _ _) in *. set (V := PlaneProofs.ssum _ _ _ _) in *.
  assert (V = radd X Y) as -> by (rewrite T; ring). ring.
Qed.
End gift.

Lemma state_inv st : mesh_state g st -> exists base, pl_inv g st base.
Proof.
  induction 1 as [b polys pk fuel r Hb Hp E|st p H (base & IH)|st p H (base & IH)|st fuel u t st' H (base & IH) Hu E|st fuel s r H (base & IH) E].
  - destruct (bd_built_inv g b polys Hb) as (base & cs & Hi & _). exists base.
    apply (gift_top 0%Z 1%Z Z.add Z.mul Z.sub Z.opp Zth (fun _ _ => 0%Z) (fun _ _ _ => eq_refl) pk fuel b base cs r Hi Hp E).
  - exists base. now apply inv_new.
  - exists base. now apply inv_store.
  - exists base. apply (insert_excess g 0%Z 1%Z Z.add Z.mul Z.sub Z.opp Zth (fun _ _ => 0%Z) (fun _ _ _ => eq_refl) fuel u t st st' base IH (pi_all g _ _ _ IH Hu) E).
  - exists base. apply (split_seg_inv g 0%Z 1%Z Z.add Z.mul Z.sub Z.opp Zth (fun _ _ => 0%Z) (fun _ _ _ => eq_refl) (fun _ _ _ _ _ _ => eq_refl) fuel st s r base IH E).
Qed.

(** the meshers pass through such states only *)
Lemma store_in st p : (pl_store_vertex st p).2 ∈ all_vertices (pl_store_vertex st p).1.
Proof. unfold pl_store_vertex, all_vertices. cbn. rewrite <- app_assoc. apply elem_of_app. right. left. Qed.
Lemma chew_loop_state ft inner h : forall fuel st st', mesh_state g st -> chew_loop g ft inner fuel h st = Ret st' -> mesh_state g st'.
Proof.
  induction fuel as [|fuel IH]; intros st st' H E; [discriminate|]. cbn [chew_loop] in E. destruct (large_triangle _ _) as [t|]; [|now injection E as <-].
  apply bind_ret_inv in E as (o & _ & E). apply bind_ret_inv in E as (p & _ & E). pose proof (MS_vertex g st p H) as H1. pose proof (store_in st p) as Hu.
  destruct (pl_store_vertex st p) as [s1 c]. cbn [fst snd] in *. apply bind_ret_inv in E as (s2 & Ei & E). apply (IH _ _ (MS_insert g _ _ _ _ _ H1 Hu Ei) E).
Qed.
Lemma split_many_state inner p rc : forall fuel st stack res r, mesh_state g st -> split_many g inner fuel p rc st stack res = Ret r -> mesh_state g r.1.
Proof.
  induction fuel as [|fuel IH]; intros st stack res r H E; [discriminate|]. cbn [split_many] in E.
  destruct stack as [|s stack]; [now injection E as <-|]. apply bind_ret_inv in E as (q & Es & E).
  pose proof (MS_split g _ _ _ _ H Es) as H1. destruct q as [s1 [[ca cb] v]]. cbn [fst] in *.
  apply bind_ret_inv in E as (ea & _ & E). apply bind_ret_inv in E as (eb & _ & E). apply (IH _ _ _ _ H1 E).
Qed.
Lemma ruppert_walls_state inner : forall fuel st stack st', mesh_state g st -> ruppert_walls g inner fuel st stack = Ret st' -> mesh_state g st'.
Proof.
  induction fuel as [|fuel IH]; intros st stack st' H E; [discriminate|]. cbn [ruppert_walls] in E.
  destruct stack as [|v stack]; [now injection E as <-|]. apply bind_ret_inv in E as (segs & _ & E).
  destruct segs as [|s segs]; [eauto|]. apply bind_ret_inv in E as (r & Es & E). apply (IH _ _ _ (split_many_state _ _ _ _ _ _ _ _ H Es) E).
Qed.
Lemma ruppert_loop_state ft inner h : forall fuel st st', mesh_state g st -> ruppert_loop g ft inner fuel h st = Ret st' -> mesh_state g st'.
Proof.
  induction fuel as [|fuel IH]; intros st st' H E; [discriminate|]. cbn [ruppert_loop] in E. destruct (skinny_triangle _ _ _ _) as [t|]; [|now injection E as <-].
  apply bind_ret_inv in E as (o & _ & E). apply bind_ret_inv in E as (p & _ & E). pose proof (MS_point g st p H) as H1.
  destruct (vertex_new (t_bound st) p) as [b c]. cbn [fst] in *. apply bind_ret_inv in E as (segs & _ & E). destruct segs as [|s segs].
  - pose proof (MS_vertex g _ p H1) as H2. pose proof (store_in (with_bound st b) p) as Hu.
    destruct (pl_store_vertex (with_bound st b) p) as [s1 i]. cbn [fst snd] in *. apply bind_ret_inv in E as (s2 & Ei & E).
    apply (IH _ _ (MS_insert g _ _ _ _ _ H2 Hu Ei) E).
  - apply bind_ret_inv in E as (r & Es & E). apply (IH _ _ (split_many_state _ _ _ _ _ _ _ _ H1 Es) E).
Qed.
Lemma built_divide b polys ord h b' : bd_built g b polys -> divide_all_segments g b ord h = Ret b' -> bd_built g b' polys.
Proof.
  intros (pts & ops & E) Ed. exists pts, (ops ++ [DDivAll ord h]). rewrite foldM_app, E. cbn. rewrite Ed. reflexivity.
Qed.
Lemma chew_state pk ft ord fuel h b polys st : bd_built g b polys -> pick_ok pk -> chew_mesh g pk ft ord fuel h (pl_new b) = Ret st ->
  exists b' r, divide_all_segments g b ord h = Ret b' /\ gift_wrap g pk fuel (pl_new b') = Ret r /\ mesh_state g r.1 /\
    chew_loop g ft fuel fuel h r.1 = Ret st /\ mesh_state g st.
Proof.
  intros Hb Hp E. unfold chew_mesh in E. cbn [pl_new t_bound] in E. apply bind_ret_inv in E as (b' & Ed & E).
  change (with_bound (pl_new b) b') with (pl_new b') in E. apply bind_ret_inv in E as (r & Er & E).
  exists b', r. pose proof (MS_gift g b' polys pk fuel r (built_divide _ _ _ _ _ Hb Ed) Hp Er) as H. repeat (split; [assumption|]). now apply (chew_loop_state _ _ _ _ _ _ H E).
Qed.
Lemma ruppert_state pk ft fuel h b polys st : bd_built g b polys -> pick_ok pk -> ruppert_mesh g pk ft fuel h (pl_new b) = Ret st ->
  exists r s1, gift_wrap g pk fuel (pl_new b) = Ret r /\ mesh_state g r.1 /\
    ruppert_walls g fuel fuel r.1 (rev (b_verts (t_bound r.1))) = Ret s1 /\ ruppert_loop g ft fuel fuel h s1 = Ret st /\ mesh_state g st.
Proof.
  intros Hb Hp E. unfold ruppert_mesh in E. apply bind_ret_inv in E as (r & Er & E). apply bind_ret_inv in E as (s1 & E1 & E).
  exists r, s1. pose proof (MS_gift g b polys pk fuel r Hb Hp Er) as H. repeat (split; [assumption|]).
  apply (ruppert_loop_state _ _ _ _ _ _ (ruppert_walls_state _ _ _ _ _ H E1) E).
Qed.
End top.

(** ** The two edge quantities *)
Definition mark (e : edge) (f : edge) : Z := ((if bool_decide (f = e) then 1 else 0) - (if bool_decide (f = erev e) then 1 else 0))%Z.
Lemma mark_anti e a b : (mark e (a, b) + mark e (b, a))%Z = 0%Z.
Proof. unfold mark, erev. destruct e as [p q]. cbn. repeat case_bool_decide; try lia; exfalso; congruence. Qed.
Lemma uses_eq e t : uses e t = ((if bool_decide ((t.1.1, t.1.2) = e) then 1 else 0) + (if bool_decide ((t.1.2, t.2) = e) then 1 else 0)
  + (if bool_decide ((t.2, t.1.1) = e) then 1 else 0))%Z.
Proof.
  unfold uses, tri_edges.
  assert (K : forall x l, Z.of_nat (length (filter (fun e' : edge => e' = e) (x :: l))) =
    ((if bool_decide (x = e) then 1 else 0) + Z.of_nat (length (filter (fun e' : edge => e' = e) l)))%Z).
  { intros x l. rewrite filter_cons. case_decide as D; [rewrite bool_decide_true by exact D; cbn [length]; lia|rewrite bool_decide_false by exact D; lia]. }
  rewrite !K. change (filter (fun e' : edge => e' = e) []) with (@nil edge). cbn [length]. lia.
Qed.
Lemma around_mark e t : around Z.add (mark e) t = (uses e t - uses (e.2, e.1) t)%Z.
Proof. rewrite !uses_eq. unfold around, mark, erev. lia. Qed.
Lemma tsum_boundary {A : arith} (F : gmap tri A) e : tsum 0%Z Z.add (around Z.add (mark e)) F = boundary F e.
Proof.
  unfold tsum, boundary. generalize (map_to_list F). intros l. induction l as [|x l IH]; [reflexivity|]. cbn [foldr]. rewrite around_mark. lia.
Qed.
Lemma esum_mark l e : NoDup l -> esum 0%Z Z.add (mark e) l = ((if bool_decide (e ∈ l) then 1 else 0) - (if bool_decide (erev e ∈ l) then 1 else 0))%Z.
Proof.
  induction 1 as [|x l Hx Hl IH]; [reflexivity|]. unfold esum in *. cbn [foldr]. rewrite IH. unfold mark.
  assert (K : forall y, (if bool_decide (y ∈ x :: l) then 1 else 0)%Z = ((if bool_decide (x = y) then 1 else 0) + (if bool_decide (y ∈ l) then 1 else 0))%Z).
  { intros y. destruct (decide (x = y)) as [<-|Hn].
    - rewrite !bool_decide_true, bool_decide_false by (assumption || reflexivity || left). reflexivity.
    - rewrite (bool_decide_false (x = y)) by assumption. rewrite Z.add_0_l. apply (f_equal (fun b : bool => if b then 1%Z else 0%Z)).
      apply bool_decide_ext. rewrite elem_of_cons. split; [intros [->|]; [congruence|assumption]|auto]. }
  rewrite !K. lia.
Qed.
Lemma ssum_outlined X e : PlaneProofs.ssum 0%Z Z.add (mark e) X = outlined X e.
Proof.
  unfold PlaneProofs.ssum. rewrite esum_mark by apply NoDup_elements. unfold outlined, erev.
  f_equal; apply (f_equal (fun b : bool => if b then 1%Z else 0%Z)), bool_decide_ext, elem_of_elements. 
Qed.

Section areas.
Context {A : arith} (OL : ord_laws A).
Let FL : field_laws A := ol_field A OL.
Add Field Afield48 : (fl_field A FL).
Local Open Scope arith_scope.
Definition lace (pts : list (xy A)) (e : edge) : A := shoelace (fun v => nth v pts (0, 0)) e.
Lemma two_ne : (sz 2 : A) <> 0.
Proof. intros E. pose proof (sz_pos OL 2) as H. rewrite E in H. now apply (lts_irr OL) in H. Qed.
Lemma lace_anti pts a b : lace pts (a, b) + lace pts (b, a) = 0.
Proof. unfold lace, shoelace. cbn. field. apply two_ne. Qed.
Lemma lace_more pts l (a b : nat) : a < length pts -> b < length pts -> lace (pts ++ l) (a, b) = lace pts (a, b).
Proof. intros Ha Hb. unfold lace, shoelace. cbn. now rewrite !app_nth1 by assumption. Qed.
Lemma around_lace (st : plane A) t : around (@sadd A) (lace (b_pts (t_bound st))) t = tri_area (tget st) t.
Proof.
  unfold around, lace, shoelace, tri_area, tget, vget. cbn [fst snd]. 
  generalize (nth t.1.1 (b_pts (t_bound st)) (0, 0)) (nth t.1.2 (b_pts (t_bound st)) (0, 0)) (nth t.2 (b_pts (t_bound st)) (0, 0)).
  intros p q r. field. apply two_ne.
Qed.
Lemma area_sum (st : plane A) : tsum 0 (@sadd A) (around (@sadd A) (lace (b_pts (t_bound st)))) (t_full st) = mesh_area st.
Proof. unfold tsum, mesh_area. induction (map_to_list (t_full st)) as [|x l IH]; [reflexivity|]. cbn [foldr]. now rewrite around_lace, IH. Qed.
Lemma lace_sum (st : plane A) : PlaneProofs.ssum 0 (@sadd A) (lace (b_pts (t_bound st))) (b_set (t_bound st)) = outline_area st.
Proof. reflexivity. Qed.
Lemma FRth : ring_theory (R := A) s0 s1 sadd smul ssub sneg eq.
Proof. exact (F_R (fl_field A FL)). Qed.
End areas.
