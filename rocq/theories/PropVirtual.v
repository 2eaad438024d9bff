(** C136: the stresses are in balance with the loads. *)
From Coq Require Import Ascii String Reals Lra Floats.
From Verif Require Import PropCli PropHeld PropEnergy PropFactor PropFrame PropVib PropTensor InstQc InstR InstFile StudyProofs CliProofs CliMesh CliStudy CliReal CliEx HeldProofs EnergyProofs.
From Verif Require Import Cli FrameProofs TensorProofs VirtualProofs.
Local Close Scope R_scope.
Local Close Scope float_scope.
Local Close Scope string_scope.
Local Open Scope nat_scope.
Local Open Scope list_scope.
Local Notation corner := PropVib.corner.

(** *** C136 — virtual work: each plane element reports one stress at its three corners, and in
    every displacement the supports allow the reported stresses do the work of the loads *)
Theorem C136_virtual_work (A : arith) (OL : ord_laws A) (Trig : forall th : A, sadd (smul (scos th) (scos th)) (smul (ssin th) (ssin th)) = s1)
  (h : hashes A) name (a : elas A) oc ol disp r : computed h name a oc ol disp -> plane (ea_cond a) ->
  (forall e, e ∈ ea_elems a -> twice_area e <> s0) -> calc_load a oc ol = Ret r ->
  exists sg : element A -> A * A * A,
    (forall e, e ∈ ea_elems a -> e_stresses e (idx disp) = Ret (map (fun n => (n, as_stress (sg e))) (e_id_list e))) /\
    (forall v g, respects (ea_cons a) v -> (forall e, e ∈ ea_elems a -> linear_on e v (g e)) ->
       ssum (map (fun e => virtual (thickness_of (ea_cond a)) e (sg e) (g e)) (ea_elems a)) = work (node_count a * 2) (vel r) v).
Proof. exact (virtual_work OL Trig h name a oc ol disp r). Qed.
Print Assumptions C136_virtual_work.
(** every displacement is affine on every element *)
Theorem C136_affine (A : arith) (OL : ord_laws A) (a : elas A) v : (forall e, e ∈ ea_elems a -> twice_area e <> s0) ->
  forall e, e ∈ ea_elems a -> exists g, linear_on e v g.
Proof. intros Hd e. exact (linear_exists OL a Hd e v). Qed.
Print Assumptions C136_affine.

(** the triangle of [C135_example]: stresses (0, 8, 6), load (3, 4) at the free corner, moved by
    (1, 2): 1/2 * (8 * 2 + 6 * 1) = 3 * 1 + 4 * 2 *)
Definition tris_of (file : text) : out _ :=
  r ← bmsh_to_elas Qc_fmt file; match r with Ok a => Ret (map (fun e => (e_ids e, e_pts e)) (ea_elems a), ea_cons a) | Err _ => Panic end.
Definition el_stress_of (file : text) : out _ :=
  r ← bmsh_to_elas Qc_fmt file;
  match r with
  | Ok a => d ← calc_displacements plain_hashes.(h_k) (map_to_list (ea_conc a)) (map_to_list (ea_line a)) (@dense_gauss Qc_arith) a;
            mapM_out (fun e => e_stresses e (idx d)) (ea_elems a)
  | Err _ => Panic
  end.
Lemma el_stress_lying : el_stress_of lying_1 = Ret [map (fun n => (n, as_stress (qc 0, qc 8, qc 6))) [0; 1; 2]].
Proof. vm_refl. Qed.
Lemma el_stress_spec file a d l : bmsh_to_elas Qc_fmt file = Ret (Ok a) -> PropEnergy.disp_of file = Ret d -> el_stress_of file = l ->
  mapM_out (fun e => e_stresses e (idx d)) (ea_elems a) = l.
Proof. unfold PropEnergy.disp_of, el_stress_of. intros ->. cbn [mbind out_bind]. intros ->. cbn [mbind out_bind]. auto. Qed.
Lemma tris_spec file a l cons : bmsh_to_elas Qc_fmt file = Ret (Ok a) -> tris_of file = Ret (l, cons) -> map (fun e => (e_ids e, e_pts e)) (ea_elems a) = l /\ ea_cons a = cons.
Proof.
  unfold tris_of. intros ->. cbn [mbind out_bind]. assert (RI : forall (X : Type) (x y : X), Ret x = Ret y -> x = y) by (intros X x y [=]; assumption).
  intros H. apply RI, pair_equal_spec in H. exact H.
Qed.
Definition tri_pts : point Qc_arith * point Qc_arith * point Qc_arith := (Pt 2 (qc 0) (qc 0) (qc 0), Pt 2 (qc 1) (qc 0) (qc 0), Pt 2 (qc 0) (qc 1) (qc 0)).
Definition tri_field : (Qc_arith * Qc_arith * Qc_arith) * (Qc_arith * Qc_arith * Qc_arith) := ((qc 0, qc 0, qc 1), (qc 0, qc 0, qc 2)).
Lemma tri_linear (e : element Qc_arith) : e_ids e = (0, 1, 2) -> e_pts e = tri_pts -> linear_on e (corner (qc 1) (qc 2)) tri_field.
Proof.
  intros Hi Hp n p Hn. rewrite Hi, Hp in Hn. cbn [fst snd tri_pts] in Hn.
  repeat (apply elem_of_cons in Hn as [Hn|Hn]; [injection Hn as -> ->; split; vm_refl|]). now apply elem_of_nil in Hn.
Qed.
Lemma tri_virtual (e : element Qc_arith) : e_pts e = tri_pts -> virtual (qc 1) e (qc 0, qc 8, qc 6) tri_field = qc 11.
Proof. unfold virtual, twice_area. intros ->. vm_refl. Qed.
Lemma corner_work : work 6 (vel (map qc [3; 4; 0; 0; 3; 4]%Z)) (corner (qc 1) (qc 2)) = qc 11.
Proof. vm_refl. Qed.
Lemma held_respects {A : arith} (v : nat -> A) : v 0 = s0 -> v 1 = s0 -> v 2 = s0 -> v 3 = s0 -> respects [XYFixed; XYFixed; Free] v.
Proof. intros H0 H1 H2 H3 n k Hk. destruct n as [|[|[|n]]]; cbn in Hk; try discriminate; injection Hk as <-; cbn; auto. Qed.
Lemma corner_respects x y : respects [XYFixed; XYFixed; Free] (corner x y).
Proof. apply held_respects; reflexivity. Qed.
Lemma one_el {X Y} (f : X -> Y) l y : map f l = [y] -> exists e, l = [e] /\ f e = y.
Proof. destruct l as [|e [|]]; cbn; intros H; try discriminate. injection H as <-. eauto. Qed.
Lemma one_mapM {X Y} (f : X -> out Y) e y : mapM_out f [e] = Ret [y] -> f e = Ret y.
Proof. cbn [mapM_out]. destruct (f e) eqn:E; cbn; intros H; try discriminate. injection H as <-. reflexivity. Qed.
Example C136_example : exists a da e,
  computed plain_hashes None a (map_to_list (ea_conc a)) (map_to_list (ea_line a)) da /\ plane (ea_cond a) /\
  (forall e, e ∈ ea_elems a -> twice_area e <> s0) /\
  calc_load a (map_to_list (ea_conc a)) (map_to_list (ea_line a)) = Ret (map qc [3; 4; 0; 0; 3; 4]%Z) /\
  ea_elems a = [e] /\ e_stresses e (idx da) = Ret (map (fun n => (n, as_stress (qc 0, qc 8, qc 6))) [0; 1; 2]) /\
  respects (ea_cons a) (corner (qc 1) (qc 2)) /\ linear_on e (corner (qc 1) (qc 2)) tri_field /\
  virtual (qc 1) e (qc 0, qc 8, qc 6) tri_field = qc 11 /\
  work 6 (vel (map qc [3; 4; 0; 0; 3; 4]%Z)) (corner (qc 1) (qc 2)) = qc 11.
Proof.
  assert (Fa : (d ← PropEnergy.disp_of lying_1; Ret tt) = Ret tt) by vm_refl. apply bind_ret_inv in Fa as (da & Da & _).
  destruct (two_study lying_1 [qcd 1 4; qc 0; qc 0; qcd 1 2] da (map qc [3; 4; 0; 0; 3; 4]%Z)) as (a & Ea & Ca & La); [vm_refl|exact lying_pivots|exact Da|vm_refl|].
  destruct (fine_spec lean _ a Ea ltac:(vm_refl)) as (_ & F2 & _).
  destruct (tris_spec lying_1 a [((0, 1, 2), tri_pts)] [XYFixed; XYFixed; Free] Ea ltac:(vm_refl)) as [T1 T2].
  pose proof (el_stress_spec lying_1 a da _ Ea Da el_stress_lying) as S.
  apply one_el in T1 as (e & El & I). apply pair_equal_spec in I as [I1 I2]. rewrite El in S. apply one_mapM in S.
  exists a, da, e. split; [exact Ca|]. split; [exact (plane_spec lying_1 a Ea ltac:(vm_refl))|]. split; [exact F2|]. split; [exact La|]. split; [exact El|].
  split; [exact S|].
  split; [|split; [exact (tri_linear e I1 I2)|split; [exact (tri_virtual e I2)|exact corner_work]]].
  rewrite T2. apply corner_respects.
Qed.
