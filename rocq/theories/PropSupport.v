(** C45 - C47, C49 - C52: supports, equivalent stress, averages and quadrature. *)
From Coq Require Import String Floats Reals Lra.
From Coquelicot Require Import Coquelicot.
From Verif Require Import ElemTop StressProofs StressVec Quad QuadN PropElem PropFactor PropSolve InstR InstQc InstF64.
Local Close Scope R_scope.
Local Open Scope list_scope.
Local Open Scope nat_scope.

(** *** C45 — displacements satisfy the supports.  Fixed components hold in every arithmetic,
    binary64 included. *)
Theorem C45_fixed (A : arith) (a : elas A) (raw : list A) disp n p :
  ea_built a -> raw_to_node_disp a raw = Ret disp -> disp !! n = Some p ->
  (ea_cons a !! n = Some XFixed -> p_x p = s0) /\ (ea_cons a !! n = Some YFixed -> p_y p = s0) /\
  (ea_cons a !! n = Some XYFixed -> p_x p = s0 /\ p_y p = s0).
Proof.
  intros Hb E Hp. pose proof (proj1 (ea_built_ok a Hb)) as Hl. change (length (ea_nodes a)) with (node_count a) in Hl.
  destruct (disp_inv a raw disp Hl E) as (t & u & Et & Hf & Eu & Lu & ->).
  apply list_lookup_fmap_inv in Hp as (n' & -> & Hn'). apply lookup_seq in Hn' as [-> Hn]. cbn [Nat.add disp_of pt2 p_x p_y Spatial.pt2].
  assert (X : exists u0, unmask_vec t raw = Ret u0) by (unfold unbar_vec in Eu; apply bind_ret_inv in Eu as (u0 & E0 & _); eauto).
  destruct X as (u0 & Eu0). rewrite <- Hl in Hf. destruct (unbar_ret _ t raw u0 Hf Eu0) as (u' & Eu' & _ & Vu).
  rewrite Eu' in Eu. injection Eu as ->. destruct Hf as (_ & _ & Hm & _). destruct (unmask_vel _ _ _ Eu0) as [_ Hz].
  rewrite <- Hl in Hn. specialize (Vu n Hn). unfold ang in Vu.
  split; [|split]; intros Hc; rewrite Hc in Vu; destruct (Hm n _ Hc) as [Hx Hy]; cbn in Hx, Hy; destruct Vu as [V1 V2].
  - rewrite V1. now apply Hz.
  - rewrite V2. now apply Hz.
  - rewrite V1, V2. split; now apply Hz.
Qed.
Print Assumptions C45_fixed.
Theorem C45_sliding (A : arith) (FL : field_laws A) (a : elas A) (raw : list A) disp n p th :
  ea_built a -> raw_to_node_disp a raw = Ret disp -> disp !! n = Some p -> ea_cons a !! n = Some (AngleFixed th) ->
  sadd (smul (scos th) (p_x p)) (smul (ssin th) (p_y p)) = s0.
Proof.
  intros Hb E Hp Hc. pose proof (proj1 (ea_built_ok a Hb)) as Hl. change (length (ea_nodes a)) with (node_count a) in Hl.
  destruct (disp_inv a raw disp Hl E) as (t & u & Et & Hf & Eu & Lu & ->).
  apply list_lookup_fmap_inv in Hp as (n' & -> & Hn'). apply lookup_seq in Hn' as [-> Hn]. cbn [Nat.add disp_of p_x p_y Spatial.pt2].
  rewrite <- Hl in Hf. exact (unbar_respects FL _ _ _ _ Hf Eu n _ Hc).
Qed.
Print Assumptions C45_sliding.
(** as many unknowns as free components always expand *)
Theorem C45_total (A : arith) (a : elas A) : ea_built a -> exists t, from_constraints (ea_cons a) = Ret t /\
  forall raw, length (kept (dt_mask t)) <= length raw ->
    exists disp, raw_to_node_disp a raw = Ret disp /\ length disp = node_count a.
Proof.
  intros Hb. pose proof (proj1 (ea_built_ok a Hb)) as Hl. change (length (ea_nodes a)) with (node_count a) in Hl.
  destruct (from_constraints_ret (ea_cons a)) as (t & Et & Hf). exists t. split; [exact Et|]. intros raw Hr.
  destruct (disp_total a raw t Hl Et Hr) as (disp & E). exists disp. split; [exact E|].
  destruct (disp_inv a raw disp Hl E) as (_ & u & _ & _ & _ & _ & ->). now rewrite map_length, seq_length.
Qed.
Print Assumptions C45_total.
(** supports on three of the four nodes of the square; in these examples cos = 3/5, sin = 4/5 *)
Definition held_ops : list (ea_op Qc_arith) :=
  square_ops true ++ [ASupport 0 XYFixed; ASupport 1 YFixed; ASupport 3 (AngleFixed (qc 1)); AConc 2 (pt2 (qc 6) (qc 2))].
Definition held : out (elas Qc_arith) := foldM ea_step held_ops (ea_new soft (PlaneStress (qc 1))).
Lemma held_built : exists a, held = Ret a /\ ea_built a.
Proof.
  assert (F : (a ← held; Ret (length (ea_elems a))) = Ret 2) by vm_refl. apply bind_ret_inv in F as (a & E & _).
  exists a. split; [exact E|]. eexists _, _, _. exact E.
Qed.
Example C45_example : (exists a, held = Ret a /\ ea_built a) /\
  (a ← held; d ← raw_to_node_disp a (map qc [7; 1; 2; 5]%Z); Ret (map (fun p => [p_x p; p_y p]) d)) =
  Ret [[qc 0; qc 0]; [qc 7; qc 0]; [qc 1; qc 2]; [qc (-4); qc 3]].
Proof. split; [exact held_built|]. vm_refl. Qed.

(** *** C46 — the reduced system. *)
Theorem C46_adjoint (A : arith) (FL : field_laws A) (cons : list (constr A)) t (r x rb u : list A) :
  from_constraints cons = Ret t -> length r = length cons * 2 -> bar_vec t r = Ret rb -> unbar_vec t x = Ret u ->
  bigsum (length rb) (fun i => smul (vel rb i) (vel x i)) = bigsum (length cons * 2) (fun i => smul (vel r i) (vel u i)).
Proof.
  intros E. destruct (from_constraints_ret cons) as (t' & E' & Hf). assert (t' = t) as -> by congruence. exact (bar_adjoint FL cons t r x rb u Hf).
Qed.
Print Assumptions C46_adjoint.
Theorem C46_energy (A : arith) (FL : field_laws A) (cons : list (constr A)) t ho (K : dict A) :
  from_constraints cons = Ret t -> oracle_ok ho -> dict_wf K -> d_shape K = (length cons * 2, length cons * 2) ->
  exists Kb, bar_matrix ho 0 t K = Ret Kb /\ d_shape Kb = (length (kept (dt_mask t)), length (kept (dt_mask t))) /\
    forall x y u w, unbar_vec t x = Ret u -> unbar_vec t y = Ret w ->
      bigsum (length (kept (dt_mask t))) (fun i => bigsum (length (kept (dt_mask t))) (fun j => smul (smul (vel y i) (el Kb i j)) (vel x j))) =
      bigsum (length cons * 2) (fun i => bigsum (length cons * 2) (fun j => smul (smul (vel w i) (el K i j)) (vel u j))).
Proof.
  intros E Ho W S'. destruct (from_constraints_ret cons) as (t' & E' & Hf). assert (t' = t) as -> by congruence.
  destruct (bar_matrix_ret FL cons t ho 0 K Hf Ho W S') as (Kb & EK & _ & SK & V). eauto.
Qed.
Print Assumptions C46_energy.
(** the unknowns describe exactly the displacements the supports allow *)
Theorem C46_span (cons : list (constr R_arith)) t (v : list R) :
  from_constraints cons = Ret t -> length v = length cons * 2 ->
  ((exists x, unbar_vec t x = Ret v) <-> respects cons (vel (A := R_arith) v)).
Proof.
  intros E Hl. destruct (from_constraints_ret cons) as (t' & E' & Hf). assert (t' = t) as -> by congruence. split.
  - intros (x & Ex). exact (unbar_respects R_field_laws cons t x v Hf Ex).
  - intros H. destruct (respects_unbar R_field_laws cons t v) as (y & _ & Ey); [intros th; cbn; pose proof (sin2_cos2 th) as Q; unfold Rsqr in Q; lra| | | |];
      [exact Hf|exact Hl|exact H|]. eauto.
Qed.
Print Assumptions C46_span.
(** calc_displacements, with any solver that solves the system it is handed *)
Theorem C46_equilibrium (a : elas R_arith) ho oc ol solver disp :
  ea_built a -> oracle_ok ho -> calc_displacements ho oc ol solver a = Ret disp ->
  exists K r s raw, ea_calc_k a = Ret K /\ calc_load a oc ol = Ret r /\ solver s = Ret (Ok raw) /\
    sy_perm s = None /\ (forall i j, k_at s i j = k_at s j i) /\
    length disp = node_count a /\ respects (ea_cons a) (flat_disp disp) /\
    ((forall i, i < sy_dofs s -> mv (sy_dofs s) (k_at s) (vel raw) i = r_at s i) ->
     forall v : nat -> R, respects (ea_cons a) v ->
       bigsum (A := R_arith) (node_count a * 2) (fun i => v i * (mv (node_count a * 2) (el K) (flat_disp disp) i - vel r i))%R = 0%R).
Proof.
  intros Hb Ho E. destruct (calc_disp_equilibrium R_field_laws a ho oc ol solver disp) as (K & r & s & raw & H1 & H2 & H3 & _ & H5 & H6 & H7 & H8 & H9);
    [intros th; cbn; pose proof (sin2_cos2 th) as Q; unfold Rsqr in Q; lra|now apply ea_built_ok|exact Ho|exact E|].
  exists K, r, s, raw. auto 10.
Qed.
Print Assumptions C46_equilibrium.
(** reduced loads and expanded displacements with equal work 34, and the solution for a force at
    node 2: the residual vanishes along the free directions only *)
Example C46_example : (a ← held; t ← from_constraints (ea_cons a); rb ← bar_vec t (map qc [1; 2; 3; 4; 5; 6; 7; 8]%Z);
    u ← unbar_vec t (map qc [7; 1; 2; 5]%Z); Ret (rb, u)) =
    Ret ([qc 3; qc 5; qc 6; qcd (-4) 5], map qc [0; 0; 7; 0; 1; 2; -4; 3]%Z) /\
  (a ← held; d ← calc_displacements hash_id (map_to_list (ea_conc a)) [] dense_gauss a; K ← ea_calc_k a;
   r ← calc_load a (map_to_list (ea_conc a)) [];
   let res i := ssub (mv 8 (el K) (flat_disp d) i) (vel r i) in
   Ret [res 0; res 1; res 2; res 3; res 4; res 5; sadd (smul (qcd (-4) 5) (res 6)) (smul (qcd 3 5) (res 7));
        sadd (smul (qcd 3 5) (res 6)) (smul (qcd 4 5) (res 7))]) =
  Ret [qcd (-1605) 419; qcd (-393) 419; qc 0; qcd 767 419; qc 0; qc 0; qc 0; qcd (-1515) 419].
Proof. split; vm_refl. Qed.

(** *** C47 — combining supports.  False: a second support can release the first. *)
Theorem C47_refuted : exists (a a1 a2 : elas R_arith),
  ea_cons a !! 0 = Some Free /\
  foldM (fun c a => add_constraint a 0 c) [XFixed; XYFixed] a = Ret a1 /\
  foldM (fun c a => add_constraint a 0 c) [XYFixed; XFixed] a = Ret a2 /\
  ea_cons a1 !! 0 = Some XFixed /\ ea_cons a2 !! 0 = Some XYFixed /\ ~ allows XYFixed (0 : R_arith)%R (1 : R_arith)%R /\
  allows XFixed (0 : R_arith)%R (1 : R_arith)%R.
Proof.
  set (a := (add_nodes (ea_new (soft (A := R_arith)) Axisymmetric) [Spatial.pt2 (A := R_arith) 0%R 0%R]).1).
  exists a. eexists _, _. split; [reflexivity|]. split; [reflexivity|]. split; [reflexivity|].
  split; [reflexivity|]. split; [reflexivity|]. cbn. split; [lra|reflexivity].
Qed.
Print Assumptions C47_refuted.
(** a sliding support vanishes when a free one is added *)
Theorem C47_refuted_angle (A : arith) (th : A) (a : elas A) n : ea_cons a !! n = Some Free ->
  exists a', foldM (fun c a => add_constraint a n c) [AngleFixed th; Free] a = Ret a' /\ ea_cons a' !! n = Some Free.
Proof.
  intros H. destruct (add_constraints_ret a n [AngleFixed th; Free] Free H) as (a' & E & Ec). exists a'. split; [exact E|].
  rewrite Ec. now apply list_lookup_insert, lookup_lt_Some with Free.
Qed.
Print Assumptions C47_refuted_angle.
(** sequences of free, x and y supports do combine as intended, so in every order alike *)
Theorem C47_partial (A : arith) (FL : field_laws A) (a : elas A) n (cs : list (constr A)) :
  Forall simple cs -> ea_cons a !! n = Some Free ->
  exists a' c, foldM (fun c a => add_constraint a n c) cs a = Ret a' /\ ea_cons a' = <[n := c]> (ea_cons a) /\
    forall x y, allows c x y <-> Forall (fun c => allows c x y) cs.
Proof.
  intros Hs H. destruct (add_constraints_ret a n cs Free H) as (a' & E & Ec). exists a', (fold_left Assem.combine cs Free).
  split; [exact E|]. split; [exact Ec|]. intros x y. now apply combine_simple.
Qed.
Print Assumptions C47_partial.
Example C47_example : Forall (simple (A := Qc_arith)) [YFixed; Free; XFixed] /\
  fold_left Assem.combine [YFixed; Free; XFixed] (Free : constr Qc_arith) = XYFixed.
Proof. split; [repeat constructor; unfold simple; tauto|reflexivity]. Qed.

(** *** C49 — equivalent stress of plane states and the Cauchy tensor.  Three parts, all false. *)
Theorem C49_refuted_plane : exists s1 s2, s1 = Stress (A := R_arith) Plane [1; 1; 0; 0; 0; 0]%R /\
  s2 = Stress (A := R_arith) ThreeD [1; 1; 0; 0; 0; 0]%R /\ von_mises s1 = 0%R /\ von_mises s2 = 1%R.
Proof.
  eexists _, _. split; [reflexivity|]. split; [reflexivity|]. rewrite st2, st3. split.
  - transitivity (R_sqrt.sqrt 0); [f_equal; lra|apply R_sqrt.sqrt_0].
  - transitivity (R_sqrt.sqrt 1); [f_equal; lra|apply R_sqrt.sqrt_1].
Qed.
Print Assumptions C49_refuted_plane.
Theorem C49_refuted_sign : exists s, s = Stress (A := R_arith) Bar [-1; 0; 0; 0; 0; 0]%R /\ (von_mises s < 0)%R.
Proof. eexists. split; [reflexivity|]. cbn. lra. Qed.
Print Assumptions C49_refuted_sign.
Theorem C49_refuted_symmetry : exists m, to_cauchy (Stress Plane (map qc [1; 2; 3; 0; 0; 0]%Z)) = Ret m /\
  el m 0 1 = qc 3 /\ el m 1 0 = qc 0.
Proof. vm_run (to_cauchy (Stress Plane (map qc [1; 2; 3; 0; 0; 0]%Z))) m E. exists m. split; [exact E|]. split; vm_refl. Qed.
Print Assumptions C49_refuted_symmetry.
Theorem C49_partial (a b t x y z : R) :
  (von_mises (Stress (A := R_arith) Plane [a; b; t; x; y; z]) = von_mises (Stress (A := R_arith) ThreeD [a; b; 0; t; 0; 0])%R
    <-> (a * b = 0)%R) /\ forall s : stress R_arith, st_type s <> Bar -> (0 <= von_mises s)%R.
Proof. split; [apply plane_vm|exact vm_nonneg]. Qed.
Print Assumptions C49_partial.
(** the tensor holds the right components on and above the diagonal and zeros below *)
Theorem C49_cauchy_partial (A : arith) (s : stress A) m : length (st_data s) = 6 -> to_cauchy s = Ret m ->
  exists dim, mshape m = (dim, dim) /\ forall r c, r < dim -> c < dim ->
    exists i, st_loc (st_type s) r c = Ret i /\ el m r c = if r <=? c then nth i (st_data s) s0 else s0.
Proof. apply cauchy_upper. Qed.
Print Assumptions C49_cauchy_partial.
(** how many entries a stress vector has decides the kind of state, its entries in order are the
    components, the others are zero; every other shape is refused *)
Theorem C49_vector (A : arith) (v : lm A) r c s : lm_wf v -> mshape v = (r, c) ->
  st_from_vector v = Ret s <->
  (r = 1 \/ c = 1) /\
  match r `max` c with 1 => st_type s = Bar | 3 => st_type s = Plane | 4 => st_type s = AxiSym | 6 => st_type s = ThreeD | _ => False end /\
  st_data s = take 6 (concat (map (fun i => map (el v i) (seq 0 c)) (seq 0 r)) ++ replicate 6 s0).
Proof.
  intros W Hs. rewrite (st_from_vector_ret v r c s W Hs). unfold stress_kind, rm_list.
  destruct (r `max` c) as [|[|[|[|[|[|[|k]]]]]]]; intuition congruence.
Qed.
Print Assumptions C49_vector.
Example C49_vector_example :
  (v ← mfrom_flat (M := lm Qc_arith) (4, 1) (map qc [5; 6; 7; 8]%Z); s ← st_from_vector v; Ret (st_type s, st_data s)) =
    Ret (AxiSym, map qc [5; 6; 7; 8; 0; 0]%Z) /\
  (v ← mfrom_flat (M := lm Qc_arith) (5, 1) (map qc [5; 6; 7; 8; 9]%Z); st_from_vector v) = Panic.
Proof. split; vm_refl. Qed.
Example C49_example : von_mises (Stress (A := Qc_arith) Plane (map qc [4; 0; 0; 0; 0; 0]%Z)) = qc 4 /\
  (m ← to_cauchy (Stress (A := Qc_arith) ThreeD (map qc [1; 2; 3; 4; 5; 6]%Z)); Ret (el m 0 1, el m 0 2, el m 1 2, el m 2 2, el m 2 0)) =
  Ret (qc 4, qc 6, qc 5, qc 3, qc 0).
Proof. split; vm_refl. Qed.

(** *** C50 — three-dimensional and axisymmetric equivalent stress. *)
Theorem C50_equivalent (a b c d e f p : R) :
  von_mises (Stress (A := R_arith) ThreeD [a + p; b + p; c + p; d; e; f]%R) = von_mises (Stress (A := R_arith) ThreeD [a; b; c; d; e; f]) /\
  (von_mises (Stress (A := R_arith) ThreeD [a; b; c; d; e; f]) = 0%R <-> a = b /\ b = c /\ d = 0%R /\ e = 0%R /\ f = 0%R) /\
  von_mises (Stress (A := R_arith) AxiSym [a; b; d; c; e; f]) = von_mises (Stress (A := R_arith) ThreeD [a; b; c; d; 0; 0])%R.
Proof. split; [apply vm_shift|]. split; [apply vm_zero|apply vm_axi]. Qed.
Print Assumptions C50_equivalent.
(** [von_mises s]² spelled out, for the embedded state as for the general one *)
Theorem C50_formula (a b c d e f : R) :
  von_mises (Stress (A := R_arith) ThreeD [a; b; c; d; e; f]) =
  R_sqrt.sqrt (1 / 2 * ((a - b) * (a - b) + (b - c) * (b - c) + (a - c) * (a - c)) + 3 * (d * d + e * e + f * f))%R.
Proof. apply st3. Qed.
Print Assumptions C50_formula.
Example C50_example : von_mises (Stress (A := Qc_arith) ThreeD (map qc [9; 5; 5; 0; 0; 0]%Z)) = qc 4 /\
  von_mises (Stress (A := Qc_arith) AxiSym (map qc [3; 3; 0; 7; 0; 0]%Z)) = qc 4.
Proof. split; vm_refl. Qed.

(** *** C51 — averages. *)
Theorem C51_average (A : arith) (OL : ord_laws A) (l : list A) : l <> [] ->
  average_consume (fold_left (average_update sdiv smul sadd) l average_new) =
  Some (sdiv (fold_left sadd l s0) (sz (Z.of_nat (length l)))).
Proof. exact (average_mean OL l). Qed.
Print Assumptions C51_average.
(** the stresses reported at a node are the means, component by component, of the stresses of
    the elements around it *)
Theorem C51_stresses (A : arith) (OL : ord_laws A) (a : elas A) disp (res : list (option (stress A))) :
  ea_stresses a disp = Ret res ->
  exists Ls, mapM_out (fun e => e_stresses e (idx disp)) (ea_elems a) = Ret Ls /\ length res = node_count a /\
    forall n m, res !! n = Some (Some m) ->
      let around := map snd (List.filter (fun p => p.1 =? n) (concat Ls)) in
      around <> [] /\ forall i, i < 6 ->
        nth i (st_data m) s0 = sdiv (fold_left sadd (map (fun s => nth i (st_data s) s0) around) s0) (sz (Z.of_nat (length around))).
Proof.
  intros E. destruct (ea_stresses_mean OL a disp res E) as (Ls & EL & Hl & H). exists Ls. split; [exact EL|]. split; [exact Hl|].
  intros n m Hn. specialize (H n _ Hn). unfold at_node in H.
  destruct (map snd (List.filter (fun p => p.1 =? n) (concat Ls))) as [|s l] eqn:Ea; [contradiction|]. cbn zeta. split; [discriminate|].
  intros i Hi. destruct H as (_ & _ & H). specialize (H i Hi). unfold st_comp, mean in H. rewrite map_length in H. exact H.
Qed.
Print Assumptions C51_stresses.
(** the equivalent stress listed for a node is that of the mean; without elements it is zero *)
Theorem C51_nodes (A : arith) (OL : ord_laws A) (a : elas A) disp (vm : list A) : ea_von_mises a disp = Ret vm ->
  exists Ls, mapM_out (fun e => e_stresses e (idx disp)) (ea_elems a) = Ret Ls /\ length vm = node_count a /\
    forall n, n < node_count a ->
      let around := map snd (List.filter (fun p => p.1 =? n) (concat Ls)) in
      (around = [] -> vm !! n = Some s0) /\
      (around <> [] -> exists m, vm !! n = Some (von_mises m) /\ (forall s, s ∈ around -> st_type s = st_type m) /\
        length (st_data m) = 6 /\ forall i, i < 6 ->
        nth i (st_data m) s0 = sdiv (fold_left sadd (map (fun s => nth i (st_data s) s0) around) s0) (sz (Z.of_nat (length around)))).
Proof.
  unfold ea_von_mises. intros E. apply bind_ret_inv in E as (res & E & E'). injection E' as <-.
  destruct (ea_stresses_mean OL a disp res E) as (Ls & EL & Hl & H). exists Ls. split; [exact EL|]. split; [now rewrite map_length|].
  intros n Hn. rewrite <- Hl in Hn. destruct (lookup_lt_is_Some_2 res n Hn) as [o Ho]. specialize (H n o Ho). unfold at_node in H. cbn zeta.
  rewrite list_lookup_fmap, Ho. cbn [fmap option_fmap option_map].
  destruct (map snd (List.filter (fun p => p.1 =? n) (concat Ls))) as [|s l] eqn:Ea.
  - split; [|congruence]. intros _. now destruct o.
  - split; [discriminate|]. intros _. destruct o as [m|]; [|contradiction]. destruct H as (Ht & Hd & Hm). exists m.
    split; [reflexivity|]. split; [exact Ht|]. split; [exact Hd|]. intros i Hi. specialize (Hm i Hi). unfold st_comp, mean in Hm.
    rewrite map_length in Hm. exact Hm.
Qed.
Print Assumptions C51_nodes.
(** a fifth node belongs to no element *)
Example C51_nodes_example :
  (a ← square (PlaneStress (qc 1)); a ← Ret (add_nodes a [pt2 (qc 9) (qc 9)]).1;
   l ← ea_stresses a [pt2 (qc 0) (qc 0); pt2 (qc 2) (qc 0); pt2 (qc 0) (qc 0); pt2 (qc 0) (qc 0); pt2 (qc 0) (qc 0)];
   v ← ea_von_mises a [pt2 (qc 0) (qc 0); pt2 (qc 2) (qc 0); pt2 (qc 0) (qc 0); pt2 (qc 0) (qc 0); pt2 (qc 0) (qc 0)];
   Ret (length l, v !! 3, v !! 4)) = Ret (5, Some (qc 0), Some (qc 0)).
Proof. vm_refl. Qed.
Example C51_example : average_consume (fold_left (average_update sdiv smul sadd) (map qc [4; 9; 2; 7]%Z) average_new) = Some (qcd 11 2) /\
  (a ← square (PlaneStress (qc 1)); l ← ea_stresses a [pt2 (qc 0) (qc 0); pt2 (qc 2) (qc 0); pt2 (qc 0) (qc 0); pt2 (qc 0) (qc 0)];
   Ret (map (fun o => match o with Some s => take 3 (st_data s) | None => [] end) l)) =
  Ret [[qc 8; qc 2; qc (-3)]; [qc 16; qc 4; qc (-6)]; [qc 8; qc 2; qc (-3)]; [qc 0; qc 0; qc 0]].
Proof. split; vm_refl. Qed.

(** *** C52 — quadrature, against Riemann integrals. *)
Theorem C52_triangle (c0 c1 c2 c3 c4 c5 : R) :
  let q := fun x y : R => (c0 + c1 * x + c2 * y + c3 * x * x + c4 * x * y + c5 * y * y)%R in
  gauss_tri (A := R_arith) (fun x y => Ret (x + y)%R) Rmult (fun p => Ret (q (p_x p) (p_y p))) =
  Ret (RInt (fun x => RInt (fun y => q x y) 0 (1 - x)) 0 1)%R.
Proof. exact (tri_rule c0 c1 c2 c3 c4 c5). Qed.
Print Assumptions C52_triangle.
Theorem C52_segment (f : point R_arith -> out (lm R_arith)) (h : nat -> nat -> R -> R -> R) ax ay bx byy NR NC :
  (forall q, p_n q = 2 -> exists m, f q = Ret m /\ lm_wf m /\ mshape m = (NR, NC) /\
     forall i j, i < NR -> j < NC -> el m i j = h i j (p_x q) (p_y q)) ->
  exists m, gauss_segment_mat (A := R_arith) f (Spatial.pt2 (A := R_arith) ax ay) (Spatial.pt2 (A := R_arith) bx byy) 2 = Ret m /\
    mshape m = (NR, NC) /\
    forall i j, i < NR -> j < NC -> forall c0 c1 c2 c3,
      (forall s, h i j (ax + (bx - ax) * s) (ay + (byy - ay) * s) = c0 + c1 * s + c2 * s * s + c3 * s * s * s)%R ->
      let L := R_sqrt.sqrt ((ax - bx) * (ax - bx) + (ay - byy) * (ay - byy))%R in
      let exact := (L * RInt (fun s => h i j (ax + (bx - ax) * s) (ay + (byy - ay) * s)) 0 1)%R in
      (Rabs (el m i j - exact) <= L * (Rabs c2 + Rabs c3) * (2 / 10 ^ 16))%R /\
      (c2 = 0%R -> c3 = 0%R -> el m i j = exact).
Proof. exact (seg_rule f h ax ay bx byy NR NC). Qed.
Print Assumptions C52_segment.
(** every order in the table: polynomials of degree below twice the order, with [poly] the
    polynomial of a list of coefficients and [size] the sum of their absolute values; other
    orders are refused *)
Theorem C52_orders (f : point R_arith -> out (lm R_arith)) (h : nat -> nat -> R -> R -> R) ax ay bx byy NR NC order :
  1 <= order <= 4 ->
  (forall q, p_n q = 2 -> exists m, f q = Ret m /\ lm_wf m /\ mshape m = (NR, NC) /\
     forall i j, i < NR -> j < NC -> el m i j = h i j (p_x q) (p_y q)) ->
  exists m, gauss_segment_mat (A := R_arith) f (Spatial.pt2 (A := R_arith) ax ay) (Spatial.pt2 (A := R_arith) bx byy) order = Ret m /\
    mshape m = (NR, NC) /\
    forall i j, i < NR -> j < NC -> forall c, length c <= 2 * order ->
      (forall t, h i j (ax + (bx - ax) * ((1 + t) / 2)) (ay + (byy - ay) * ((1 + t) / 2)) = poly 0 c t)%R ->
      let L := R_sqrt.sqrt ((ax - bx) * (ax - bx) + (ay - byy) * (ay - byy))%R in
      let exact := (L / 2 * RInt (fun t => h i j (ax + (bx - ax) * ((1 + t) / 2)) (ay + (byy - ay) * ((1 + t) / 2))) (-1) 1)%R in
      (Rabs (el m i j - exact) <= L / 2 * (3 / 10 ^ 15 * size c))%R.
Proof. exact (orders_rule f h ax ay bx byy NR NC order). Qed.
Print Assumptions C52_orders.
Theorem C52_other_orders (f : point R_arith -> out (lm R_arith)) a b order :
  order = 0 \/ 4 < order -> p_n a = 2 -> p_n b = 2 -> gauss_segment_mat (A := R_arith) f a b order = Panic.
Proof. exact (orders_panic f a b order). Qed.
Print Assumptions C52_other_orders.
Example C52_example : gauss_tri (A := Qc_arith) (fun x y => Ret (sadd x y)) smul (fun p => Ret (smul (p_x p) (p_y p))) = Ret (qcd 1 24) /\
  (m ← gauss_segment_mat (A := Qc_arith) (fun p => lm_from_flat (1, 1) [sadd (p_x p) (smul (qc 2) (p_y p))]) (pt2 (qc 1) (qc 1)) (pt2 (qc 4) (qc 5)) 2;
   Ret (el m 0 0)) = Ret (qcd 85 2).
Proof. split; vm_refl. Qed.
