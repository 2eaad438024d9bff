(** C133, C134: other materials and other thicknesses. *)
From Coq Require Import Ascii String Reals Lra Floats.
From Verif Require Import PropSolve PropCli PropHeld PropEnergy PropFactor PropFrame PropVib InstQc InstR InstFile StudyProofs CliProofs CliMesh CliStudy CliReal CliEx HeldProofs EnergyProofs.
From Verif Require Import Cli FrameProofs VibProofs ScaleProofs.
Local Close Scope R_scope.
Local Close Scope float_scope.
Local Close Scope string_scope.
Local Open Scope nat_scope.
Local Open Scope list_scope.
Local Notation corner := PropVib.corner.

(** *** C133 — how displacements and stresses depend on modulus, thickness and load *)
(** the load vector depends neither on the material nor on the thickness, in any arithmetic *)
Theorem C133_load (A : arith) (kE kR kT : A) (a b : elas A) oc ol : remade kE kR kT a b -> ea_built a -> ea_built b -> calc_load b oc ol = calc_load a oc ol.
Proof. intros Hm Ha Hb. exact (load_remade kE kR kT a b Hm (ea_built_ok a Ha) (ea_built_ok b Hb) oc ol). Qed.
Print Assumptions C133_load.
Theorem C133_displacement (A : arith) (OL : ord_laws A) (Trig : forall th : A, sadd (smul (scos th) (scos th)) (smul (ssin th) (ssin th)) = s1)
  (kE kR kT s : A) (h : hashes A) name (a : elas A) oc ol disp (h' : hashes A) name' (b : elas A) oc' ol' disp' r r' :
  remade kE kR kT a b -> kE <> s0 -> kT <> s0 -> ea_cons b = ea_cons a ->
  computed h name a oc ol disp -> computed h' name' b oc' ol' disp' -> calc_load a oc ol = Ret r -> calc_load b oc' ol' = Ret r' ->
  (forall i, i < node_count a * 2 -> vel r' i = smul s (vel r i)) ->
  forall i, i < node_count a * 2 -> flat_disp disp' i = smul (sdiv s (smul kE kT)) (flat_disp disp i).
Proof. exact (remade_solution OL Trig kE kR kT s h name a oc ol disp h' name' b oc' ol' disp' r r'). Qed.
Print Assumptions C133_displacement.
(** a stiffer material deforms less under the same stresses; twice the thickness carries twice the load *)
Theorem C133_stress (A : arith) (OL : ord_laws A) (Trig : forall th : A, sadd (smul (scos th) (scos th)) (smul (ssin th) (ssin th)) = s1)
  (kE kR kT : A) (h : hashes A) name (a : elas A) oc ol disp (h' : hashes A) name' (b : elas A) oc' ol' disp' r r' :
  remade kE kR kT a b -> kE <> s0 -> kT <> s0 -> ea_cons b = ea_cons a -> (forall e, e ∈ ea_elems a -> twice_area e <> s0) ->
  computed h name a oc ol disp -> computed h' name' b oc' ol' disp' -> calc_load a oc ol = Ret r -> calc_load b oc' ol' = Ret r' ->
  (forall i, i < node_count a * 2 -> vel r' i = smul kT (vel r i)) ->
  ea_von_mises b disp' = ea_von_mises a disp.
Proof.
  intros H1 H2 H3. exact (remade_stress OL Trig kE kR kT kT h name a oc ol disp h' name' b oc' ol' disp' r r' H1 H2 H3 eq_refl).
Qed.
Print Assumptions C133_stress.

(** a mesh file read with another material and another condition *)
Definition remake (mat : material Qc_arith) (cond : strain_cond Qc_arith) (file : text) : out (elas Qc_arith) :=
  p ← parse_bmsh Qc_fmt file;
  match p with Some x => build_elas (Parsed mat cond (pa_nodes x) (pa_elems x) (pa_cons x) (pa_forces x) (pa_dist x)) | None => Panic end.
Lemma remake_built mat cond file a : remake mat cond file = Ret a -> ea_built a.
Proof. unfold remake. intros E. apply bind_ret_inv in E as ([x|] & _ & E); [|discriminate]. exact (build_elas_built _ a E). Qed.
Definition shape_of (m : out (elas Qc_arith)) : out _ :=
  a ← m; Ret (ea_nodes a, map e_ids (ea_elems a), ea_cond a, ea_mat a, ea_cons a, forallb (fun e => negb (seqb (twice_area e) s0)) (ea_elems a)).
Definition run_of (m : out (elas Qc_arith)) : out _ :=
  a ← m; K ← ea_calc_k a; t ← from_constraints (ea_cons a); Kb ← bar_matrix plain_hashes.(h_k) 0 t K;
  d ← calc_displacements plain_hashes.(h_k) (map_to_list (ea_conc a)) (map_to_list (ea_line a)) (@dense_gauss Qc_arith) a;
  l ← calc_load a (map_to_list (ea_conc a)) (map_to_list (ea_line a));
  Ret ((d_shape Kb, [el Kb 0 0; el Kb 0 1; el Kb 1 0; el Kb 1 1]), l, map (fun p => (p_x p, p_y p)) d).
Lemma run_study (a : elas Qc_arith) m load pts : ea_built a -> run_of (Ret a) = Ret (((2, 2), m), load, pts) ->
  (forall f : nat -> nat -> Qc_arith, [f 0 0; f 0 1; f 1 0; f 1 1] = m -> pivots_nonzero 2 f) ->
  exists disp, computed plain_hashes None a (map_to_list (ea_conc a)) (map_to_list (ea_line a)) disp /\
    calc_load a (map_to_list (ea_conc a)) (map_to_list (ea_line a)) = Ret load /\ map (fun p => (p_x p, p_y p)) disp = pts.
Proof.
  unfold run_of. cbn [mbind out_bind]. intros Hb E P. apply bind_ret_inv in E as (K & EK & E). apply bind_ret_inv in E as (t & Et & E).
  apply bind_ret_inv in E as (Kb & EKb & E). apply bind_ret_inv in E as (d & Ed & E). apply bind_ret_inv in E as (l & El & E).
  injection E as E1 E2 E3 E4. subst load. exists d. split; [|split; [exact El|exact E4]].
  split; [exact plain_hashes_ok|]. split; [exact Hb|]. split.
  - left. split; [reflexivity|]. intros K' t' Kb' n HK Ht HKb Hs. assert (K' = K) as -> by congruence. assert (t' = t) as -> by congruence. assert (Kb' = Kb) as -> by congruence.
    assert (n = 2) as -> by congruence. exact (P _ E2).
  - eexists. split; [reflexivity|exact Ed].
Qed.
Definition tri_nodes : list (point Qc_arith) := [Pt 2 (qc 0) (qc 0) (qc 0); Pt 2 (qc 1) (qc 0) (qc 0); Pt 2 (qc 0) (qc 1) (qc 0)].
Lemma shape_spec a cond mat : shape_of (Ret a) = Ret (tri_nodes, [(0, 1, 2)], cond, mat, [XYFixed; XYFixed; Free], true) ->
  ea_nodes a = tri_nodes /\ map e_ids (ea_elems a) = [(0, 1, 2)] /\ ea_cond a = cond /\ ea_mat a = mat /\ ea_cons a = [XYFixed; XYFixed; Free] /\
  (forall e, e ∈ ea_elems a -> twice_area e <> s0).
Proof.
  unfold shape_of. cbn [mbind out_bind]. assert (RI : forall (X : Type) (x y : X), Ret x = Ret y -> x = y) by (intros X x y [=]; assumption).
  intros H. apply RI in H. do 5 (apply pair_equal_spec in H as [H ?]). repeat (split; [assumption|]). intros e He E.
  match goal with F : forallb _ _ = true |- _ => rewrite forallb_forall in F; specialize (F e (proj1 (elem_of_list_In _ _) He)); cbv beta in F; rename F into H6 end. apply (fl_eqb Qc_arith (ol_field _ Qc_ord_laws)) in E. rewrite E in H6. discriminate.
Qed.
Lemma remade_tri kE kR kT a b t t' mat mat' : shape_of (Ret a) = Ret (tri_nodes, [(0, 1, 2)], PlaneStress t, mat, [XYFixed; XYFixed; Free], true) ->
  shape_of (Ret b) = Ret (tri_nodes, [(0, 1, 2)], PlaneStress t', mat', [XYFixed; XYFixed; Free], true) ->
  m_poisson mat' = m_poisson mat -> m_youngs mat' = smul kE (m_youngs mat) -> m_density mat' = smul kR (m_density mat) -> t' = smul kT t ->
  remade kE kR kT a b /\ ea_cons b = ea_cons a.
Proof.
  intros Sa Sb. destruct (shape_spec a _ _ Sa) as (A1 & A2 & A3 & A4 & A5 & _). destruct (shape_spec b _ _ Sb) as (B1 & B2 & B3 & B4 & B5 & _).
  intros. split; [|congruence]. split; rewrite ?A1, ?A2, ?A3, ?A4, ?B1, ?B2, ?B3, ?B4; auto.
Qed.
Lemma of_file mat cond file X (g : elas Qc_arith -> out X) x : (a ← remake mat cond file; g a) = Ret x -> exists a, remake mat cond file = Ret a /\ g a = Ret x.
Proof. intros E. apply bind_ret_inv in E as (a & Ea & E). eauto. Qed.

(** twice the modulus, four times the density and three times the thickness under three times
    the load: half the displacements *)
Definition steel : material Qc_arith := Mat "STEEL" (qc 2) (qc 0) (qc 4).
Definition lying_3 : text := (lying ["count 0"] ["count 1"; "0 2 18/24"])%string.
Lemma stiff_pivots (f : nat -> nat -> Qc_arith) : [f 0 0; f 0 1; f 1 0; f 1 1] = [qcd 3 2; qc 0; qc 0; qc 3] -> pivots_nonzero 2 f.
Proof. intros H. apply (pivots_two f _ _ _ _ H); [unfold lts; vm_refl|apply qc_neq; vm_refl..]. Qed.
Example C133_example : exists a b da db r r',
  remake TEST (PlaneStress (qc 1)) lying_1 = Ret a /\ remake steel (PlaneStress (qc 3)) lying_3 = Ret b /\ ea_built a /\ ea_built b /\
  remade (qc 2) (qc 4) (qc 3) a b /\ qc 2 <> s0 /\ qc 3 <> s0 /\ ea_cons b = ea_cons a /\ (forall e, e ∈ ea_elems a -> twice_area e <> s0) /\
  computed plain_hashes None a (map_to_list (ea_conc a)) (map_to_list (ea_line a)) da /\
  computed plain_hashes None b (map_to_list (ea_conc b)) (map_to_list (ea_line b)) db /\
  calc_load a (map_to_list (ea_conc a)) (map_to_list (ea_line a)) = Ret r /\ calc_load b (map_to_list (ea_conc b)) (map_to_list (ea_line b)) = Ret r' /\
  (forall i, i < node_count a * 2 -> vel r' i = smul (qc 3) (vel r i)) /\
  r = map qc [3; 4; 0; 0; 3; 4]%Z /\
  map (fun p => (p_x p, p_y p)) da = [(qc 0, qc 0); (qc 0, qc 0); (qc 12, qc 8)] /\
  map (fun p => (p_x p, p_y p)) db = [(qc 0, qc 0); (qc 0, qc 0); (qc 6, qc 4)].
Proof.
  destruct (of_file TEST (PlaneStress (qc 1)) lying_1 _ (fun a => x ← shape_of (Ret a); y ← run_of (Ret a); Ret (x, y))
    ((tri_nodes, [(0, 1, 2)], PlaneStress (qc 1), TEST, [XYFixed; XYFixed; Free], true),
     (((2, 2), [qcd 1 4; qc 0; qc 0; qcd 1 2]), map qc [3; 4; 0; 0; 3; 4]%Z, [(qc 0, qc 0); (qc 0, qc 0); (qc 12, qc 8)]))) as (a & Ea & Fa); [vm_refl|].
  destruct (of_file steel (PlaneStress (qc 3)) lying_3 _ (fun a => x ← shape_of (Ret a); y ← run_of (Ret a); Ret (x, y))
    ((tri_nodes, [(0, 1, 2)], PlaneStress (qc 3), steel, [XYFixed; XYFixed; Free], true),
     (((2, 2), [qcd 3 2; qc 0; qc 0; qc 3]), map qc [9; 12; 0; 0; 9; 12]%Z, [(qc 0, qc 0); (qc 0, qc 0); (qc 6, qc 4)]))) as (b & Eb & Fb); [vm_refl|].
  apply bind_ret_inv in Fa as (xa & Sa & Fa). apply bind_ret_inv in Fa as (ya & Ra & Fa). apply (f_equal (fun o => match o with Ret z => z | _ => (xa, ya) end)) in Fa. apply pair_equal_spec in Fa as [-> ->].
  apply bind_ret_inv in Fb as (xb & Sb & Fb). apply bind_ret_inv in Fb as (yb & Rb & Fb). apply (f_equal (fun o => match o with Ret z => z | _ => (xb, yb) end)) in Fb. apply pair_equal_spec in Fb as [-> ->].
  pose proof (remake_built _ _ _ _ Ea) as Ha. pose proof (remake_built _ _ _ _ Eb) as Hb.
  destruct (run_study a _ _ _ Ha Ra lying_pivots) as (da & Ca & La & Pa). destruct (run_study b _ _ _ Hb Rb stiff_pivots) as (db & Cb & Lb & Pb).
  destruct (remade_tri (qc 2) (qc 4) (qc 3) a b _ _ _ _ Sa Sb) as [Hm Hc]; [vm_refl..|].
  destruct (shape_spec a _ _ Sa) as (A1 & _ & _ & _ & _ & A6).
  exists a, b, da, db, (map qc [3; 4; 0; 0; 3; 4]%Z), (map qc [9; 12; 0; 0; 9; 12]%Z).
  do 5 (split; [assumption|]). split; [apply qc_neq; vm_refl|]. split; [apply qc_neq; vm_refl|]. do 6 (split; [assumption|]). split; [|split; [reflexivity|split; assumption]].
  unfold node_count. rewrite A1. intros i Hi. cbn in Hi. do 6 (destruct i as [|i]; [vm_refl|]). lia.
Qed.

(** *** C134 — a body with [kE] times the modulus and [kR] times the density swings with [kE]/[kR]
    times the squared frequency, whatever its thickness, and with the same shapes *)
Theorem C134_vibration (A : arith) (OL : ord_laws A) (kE kR kT : A) (a b : elas A) K M K' M' mu u :
  remade kE kR kT a b -> ea_built a -> ea_built b -> kE <> s0 -> kR <> s0 -> kT <> s0 -> ea_cons b = ea_cons a ->
  ea_calc_k a = Ret K -> ea_calc_m a = Ret M -> ea_calc_k b = Ret K' -> ea_calc_m b = Ret M' ->
  (vibrates (node_count a * 2) (el K) (el M) (ea_cons a) mu u <->
   vibrates (node_count b * 2) (el K') (el M') (ea_cons b) (smul (sdiv kE kR) mu) u).
Proof. intros Hm Ha Hb. exact (vibrates_remade OL kE kR kT a b Hm (ea_built_ok a Ha) (ea_built_ok b Hb) K M K' M' mu u). Qed.
Print Assumptions C134_vibration.
(** the triangle of [C128_example], which swings along x with squared frequency 3, with half of
    that *)
Definition km_at (a : elas Qc_arith) : out _ := K ← ea_calc_k a; M ← ea_calc_m a; Ret (free_part K, free_part M).
Example C134_example : exists a b K M K' M',
  remake TEST (PlaneStress (qc 1)) lying_1 = Ret a /\ remake steel (PlaneStress (qc 3)) lying_3 = Ret b /\
  remade (qc 2) (qc 4) (qc 3) a b /\ ea_built a /\ ea_built b /\ qc 2 <> s0 /\ qc 4 <> s0 /\ qc 3 <> s0 /\ ea_cons b = ea_cons a /\
  ea_calc_k a = Ret K /\ ea_calc_m a = Ret M /\ ea_calc_k b = Ret K' /\ ea_calc_m b = Ret M' /\
  vibrates (node_count a * 2) (el K) (el M) (ea_cons a) (qc 3) (corner (qc 1) (qc 0)) /\
  vibrates (node_count b * 2) (el K') (el M') (ea_cons b) (qcd 3 2) (corner (qc 1) (qc 0)).
Proof.
  destruct (of_file TEST (PlaneStress (qc 1)) lying_1 _ (fun a => x ← shape_of (Ret a); y ← km_at a; Ret (x, y))
    ((tri_nodes, [(0, 1, 2)], PlaneStress (qc 1), TEST, [XYFixed; XYFixed; Free], true), ([qcd 1 4; qc 0; qc 0; qcd 1 2], [qcd 1 12; qc 0; qc 0; qcd 1 12]))) as (a & Ea & Fa); [vm_refl|].
  destruct (of_file steel (PlaneStress (qc 3)) lying_3 _ (fun a => x ← shape_of (Ret a); y ← km_at a; Ret (x, y))
    ((tri_nodes, [(0, 1, 2)], PlaneStress (qc 3), steel, [XYFixed; XYFixed; Free], true), ([qcd 3 2; qc 0; qc 0; qc 3], [qc 1; qc 0; qc 0; qc 1]))) as (b & Eb & Fb); [vm_refl|].
  apply bind_ret_inv in Fa as (xa & Sa & Fa). apply bind_ret_inv in Fa as (ya & Ra & Fa). apply (f_equal (fun o => match o with Ret z => z | _ => (xa, ya) end)) in Fa. apply pair_equal_spec in Fa as [-> ->].
  apply bind_ret_inv in Fb as (xb & Sb & Fb). apply bind_ret_inv in Fb as (yb & Rb & Fb). apply (f_equal (fun o => match o with Ret z => z | _ => (xb, yb) end)) in Fb. apply pair_equal_spec in Fb as [-> ->].
  assert (RI : forall (X : Type) (x y : X), Ret x = Ret y -> x = y) by (intros X x y [=]; assumption).
  unfold km_at in Ra, Rb. apply bind_ret_inv in Ra as (K & EK & Ra). apply bind_ret_inv in Ra as (M & EM & Ra). apply RI, pair_equal_spec in Ra as [FK FM].
  apply bind_ret_inv in Rb as (K' & EK' & Rb). apply bind_ret_inv in Rb as (M' & EM' & Rb). apply RI, pair_equal_spec in Rb as [FK' FM'].
  destruct (remade_tri (qc 2) (qc 4) (qc 3) a b _ _ _ _ Sa Sb) as [Hm Hc]; [vm_refl..|].
  destruct (shape_spec a _ _ Sa) as (A1 & _ & _ & _ & A5 & _). destruct (shape_spec b _ _ Sb) as (B1 & _ & _ & _ & B5 & _).
  exists a, b, K, M, K', M'. do 3 (split; [assumption|]). split; [exact (remake_built _ _ _ _ Ea)|]. split; [exact (remake_built _ _ _ _ Eb)|].
  do 3 (split; [apply qc_neq; vm_refl|]). do 5 (split; [assumption|]).
  unfold node_count. rewrite A1, B1, A5, B5. split.
  - apply (corner_vib _ _ _ _ _ K M FK FM); [left; apply qc_neq; vm_refl|split; vm_refl].
  - apply (corner_vib _ _ _ _ _ K' M' FK' FM'); [left; apply qc_neq; vm_refl|split; vm_refl].
Qed.
