(** C89 - C90: supports that hold a mesh, and studies of held meshes; C28, when the sparse
    solver answers. *)
From Coq Require Import Ascii String Floats Reals.
From Verif Require Import PropFactor PropSolve InstQc InstF64 InstR InstFile InstVis StudyProofs CliProofs CliMesh CliStudy CliReal CliEx HeldProofs LinkProofs.
From Verif Require Import Cli.
Local Close Scope R_scope.
Local Close Scope string_scope.
Local Open Scope nat_scope.
Local Open Scope list_scope.

(** *** C89 — a mesh in one piece resists every displacement its supports allow exactly if
    the supports allow no rigid motion *)
Theorem C89_held (A : arith) (OL : ord_laws A) (a : elas A) :
  ea_built a -> one_piece a -> (forall e, e ∈ ea_elems a -> ccw e /\ solid e) -> admissible (ea_cond a) (ea_mat a) ->
  held a <-> rigidly_held a.
Proof. intros Hb. exact (held_iff OL a (ea_built_ok a Hb)). Qed.
Print Assumptions C89_held.
(** two fixed nodes at different points hold it *)
Theorem C89_two_nodes (A : arith) (OL : ord_laws A) (a : elas A) m n p q :
  ea_built a -> one_piece a -> (forall e, e ∈ ea_elems a -> ccw e /\ solid e) -> admissible (ea_cond a) (ea_mat a) ->
  ea_nodes a !! m = Some p -> ea_nodes a !! n = Some q -> ~ (p_x p = p_x q /\ p_y p = p_y q) ->
  ea_cons a !! m = Some XYFixed -> ea_cons a !! n = Some XYFixed -> held a.
Proof. intros Hb H1 H2 H3 Hp Hq Hne Hm Hn. apply (C89_held A OL a Hb H1 H2 H3). exact (two_fixed OL a m n p q Hp Hq Hne Hm Hn). Qed.
Print Assumptions C89_two_nodes.
(** so does one fixed node with a roller that stops the rotation *)
Theorem C89_roller (A : arith) (OL : ord_laws A) (a : elas A) m n p q :
  ea_built a -> one_piece a -> (forall e, e ∈ ea_elems a -> ccw e /\ solid e) -> admissible (ea_cond a) (ea_mat a) ->
  ea_nodes a !! m = Some p -> ea_nodes a !! n = Some q -> ea_cons a !! m = Some XYFixed ->
  (ea_cons a !! n = Some XFixed /\ p_y p <> p_y q) \/ (ea_cons a !! n = Some YFixed /\ p_x p <> p_x q) -> held a.
Proof. intros Hb H1 H2 H3 Hp Hq Hm Hn. apply (C89_held A OL a Hb H1 H2 H3). exact (pin_roller OL a m n p q Hp Hq Hm Hn). Qed.
Print Assumptions C89_roller.
(** an axisymmetric body needs one axial support *)
Theorem C89_axisymmetric (A : arith) (OL : ord_laws A) (a : elas A) m p :
  ea_built a -> one_piece a -> (forall e, e ∈ ea_elems a -> ccw e /\ solid e) -> admissible (ea_cond a) (ea_mat a) ->
  ea_cond a = Axisymmetric -> ea_nodes a !! m = Some p -> ea_cons a !! m = Some YFixed \/ ea_cons a !! m = Some XYFixed -> held a.
Proof. intros Hb H1 H2 H3 Hc Hp Hm. apply (C89_held A OL a Hb H1 H2 H3). exact (axial_fixed OL a m p Hc Hp Hm). Qed.
Print Assumptions C89_axisymmetric.
(** a plane body supported at one node only is not held *)
Theorem C89_one_node (A : arith) (OL : ord_laws A) (a : elas A) m p :
  ea_built a -> one_piece a -> (forall e, e ∈ ea_elems a -> ccw e /\ solid e) -> admissible (ea_cond a) (ea_mat a) ->
  ea_cond a <> Axisymmetric -> ea_nodes a !! m = Some p -> (forall n c, ea_cons a !! n = Some c -> n = m \/ c = Free) -> ~ held a.
Proof. intros Hb H1 H2 H3 Hc Hp Hm Hh. apply (C89_held A OL a Hb H1 H2 H3) in Hh. exact (one_pin OL a m p Hc Hp Hm Hh). Qed.
Print Assumptions C89_one_node.

(** two triangles, held at two corners and loaded at another *)
Definition bracket_file (supports : list string) : text := (bmsh_file ["count 4"; "0 2/-2"; "1 -1/-1"; "2 -2/-1"; "3 -2/0"] ["count 2"; "0 0/1/2"; "1 1/0/3"]
  supports ["count 1"; "0 0/-1"] ["count 0"])%string.
Definition two_pins : text := bracket_file ["count 2"; "1 xy"; "2 xy"]%string.
Definition one_pin_file : text := bracket_file ["count 1"; "1 xy"]%string.

Lemma file_facts file cons nodes (t : Qc_arith) :
  (r ← bmsh_to_elas Qc_fmt file;
   match r with
   | Ok a => Ret (mesh_b a, ea_cond a, ea_cons a, map (fun p => (p_x p, p_y p)) (ea_nodes a))
   | Err _ => Panic
   end) = Ret (true, PlaneStress t, cons, nodes) ->
  exists a, bmsh_to_elas Qc_fmt file = Ret (Ok a) /\ ea_built a /\ one_piece a /\ (forall e, e ∈ ea_elems a -> ccw e /\ solid e) /\
    admissible (ea_cond a) (ea_mat a) /\ ea_cons a = cons /\ ea_cond a <> Axisymmetric /\
    forall n x y, nodes !! n = Some (x, y) -> exists p, ea_nodes a !! n = Some p /\ p_x p = x /\ p_y p = y.
Proof.
  intros H. apply bind_ret_inv in H as ([a|] & Ea & H); [|discriminate]. exists a. split; [exact Ea|].
  pose proof (bmsh_built Qc_fmt _ _ Ea) as Hb. split; [exact Hb|]. injection H as Hm Hcond Hcons Hnodes.
  apply mesh_b_spec in Hm as (H1 & H2 & H3). repeat (split; [assumption|]). split; [rewrite Hcond; discriminate|].
  intros n x y Hn. rewrite <- Hnodes in Hn. apply list_lookup_fmap_inv in Hn as (p & E & Hp). injection E as -> ->. eauto.
Qed.

Definition two_pins_nodes : list (Qc_arith * Qc_arith) := [(qc 2, qc (-2)); (qc (-1), qc (-1)); (qc (-2), qc (-1)); (qc (-2), qc 0)].
Example C89_example : (exists a, bmsh_to_elas Qc_fmt two_pins = Ret (Ok a) /\ held a) /\
  (exists a, bmsh_to_elas Qc_fmt one_pin_file = Ret (Ok a) /\ ~ held a).
Proof.
  split.
  - destruct (file_facts two_pins [Free; XYFixed; XYFixed; Free] two_pins_nodes (qc 1)) as (a & Ea & Hb & H1 & H2 & H3 & Hc & _ & Hn); [vm_refl|].
    exists a. split; [exact Ea|].
    destruct (Hn 1 _ _ eq_refl) as (p & Hp & Xp & _). destruct (Hn 2 _ _ eq_refl) as (q & Hq & Xq & _).
    apply (C89_two_nodes Qc_arith Qc_ord_laws a 1 2 p q Hb H1 H2 H3 Hp Hq); [|now rewrite Hc..].
    rewrite Xp, Xq. intros [E _]. revert E. apply qc_neq. vm_refl.
  - destruct (file_facts one_pin_file [Free; XYFixed; Free; Free] two_pins_nodes (qc 1)) as (a & Ea & Hb & H1 & H2 & H3 & Hc & Hx & Hn); [vm_refl|].
    exists a. split; [exact Ea|]. destruct (Hn 1 _ _ eq_refl) as (p & Hp & _).
    apply (C89_one_node Qc_arith Qc_ord_laws a 1 p Hb H1 H2 H3 Hx Hp). rewrite Hc.
    intros [|[|[|[|n]]]] c E; cbn in E; try injection E as <-; auto; discriminate.
Qed.

(** *** C28 — of the symmetric positive definite systems, the sparse solver answers exactly
    those of two unknowns or more that are linked by stored coefficients *)
Theorem C28_exactly_partial (A : arith) (OL : ord_laws A) (SQ : sqrt_law A) (s : system A) ho (k : dict A) (n : nat) :
  sys_built s -> oracle_ok ho -> sy_dofs s = n -> sy_k s = Some k -> sy_rhs s <> None ->
  (forall i j, i < n -> j < n -> el k i j = el k j i) -> posdef n (el k) ->
  (exists x, cholesky_solver ho s = Ret x) <-> 2 <= n /\
    forall i j, i < n -> j < n -> rtc (fun a b => a < n /\ b < n /\ a <> b /\ is_Some (d_data k !! (Nat.min a b, Nat.max a b))) i j.
Proof.
  intros Hb Ho <- Hk Hr Hs Hp. destruct (sys_built_wf (ol_field A OL) s Hb) as [W Hpm]. destruct (sy_rhs s) as [rv|] eqn:Er; [|congruence]. split.
  - intros (x & Ex). exact (cholesky_connected ho s k rv x Ho W Hk Er Ex).
  - intros [H2 Hl]. destruct (cholesky_solver_linked OL SQ ho s k rv _ Ho W eq_refl Hpm Hk Er H2 Hs Hl Hp) as (x & Ex & _). eauto.
Qed.
Print Assumptions C28_exactly_partial.
(** two unknowns joined only by a stored zero are answered *)
Example C28_stored_zero : exists s, assemble 2 [AddK 0 0 (fl 1); AddK 1 1 (fl 4); AddK 0 1 (fl 0); AddR 0 (fl 1); AddR 1 (fl 1)] = Ret s /\
  cholesky_solver hash_id s = Ret (Ok [fl 1; fl 0.25]).
Proof. vm_run (assemble 2 [AddK 0 0 (fl 1); AddK 1 1 (fl 4); AddK 0 1 (fl 0); AddR 0 (fl 1); AddR 1 (fl 1)]) s E. exists s. split; [exact E|]. vm_refl. Qed.

(** *** C90 — each direct method under its own condition; without it, held meshes cannot be
    analysed *)
Theorem C90_returns_partial (A : arith) (OL : ord_laws A) (Trig : forall th : A, sadd (smul (scos th) (scos th)) (smul (ssin th) (ssin th)) = s1)
  (h : hashes A) name a oc ol solver r :
  hashes_ok h -> ea_built a -> solver_of h name = Some solver -> calc_load a oc ol = Ret r ->
  (default (txt "densegauss") name = txt "densegauss" /\ reduced_pivots (h_k h) a) \/
  (default (txt "densegauss") name = txt "cholesky" /\ sqrt_law A /\ held a /\ 2 <= unknowns (ea_cons a) /\ hangs_together a) ->
  exists disp, calc_displacements (h_k h) oc ol solver a = Ret disp /\ the_solution a oc ol disp.
Proof.
  intros Hh Hb Hs Hr [H|(H1 & H2 & H3 & H4)]; apply (study_returns OL Trig h name a oc ol solver r Hh (ea_built_ok a Hb) Hs Hr); [now left|].
  right. split; [exact H1|]. split; [exact H2|]. split; [exact H3|].
  now apply (reduced_iff_mesh OL a (h_k h) oc ol r (ea_built_ok a Hb) (ho_k _ Hh) Hr).
Qed.
Print Assumptions C90_returns_partial.
(** the sparse solver answers for a held mesh exactly if two unknowns or more remain and
    the nodes left free hang together through elements without passing a fixed node *)
Theorem C90_cholesky (A : arith) (OL : ord_laws A) (Trig : forall th : A, sadd (smul (scos th) (scos th)) (smul (ssin th) (ssin th)) = s1)
  (SQ : sqrt_law A) (h : hashes A) a oc ol r :
  hashes_ok h -> ea_built a -> calc_load a oc ol = Ret r -> held a ->
  (exists disp, calc_displacements (h_k h) oc ol (cholesky_solver (h_sys h)) a = Ret disp /\ the_solution a oc ol disp) <->
  2 <= unknowns (ea_cons a) /\ hangs_together a.
Proof. intros Hh Hb. exact (cholesky_answers OL Trig SQ h a oc ol r Hh (ea_built_ok a Hb)). Qed.
Print Assumptions C90_cholesky.
(** held or not, it answers for no other mesh *)
Theorem C90_cholesky_only (A : arith) (OL : ord_laws A) (h : hashes A) a oc ol disp :
  hashes_ok h -> ea_built a -> calc_displacements (h_k h) oc ol (cholesky_solver (h_sys h)) a = Ret disp ->
  2 <= unknowns (ea_cons a) /\ hangs_together a.
Proof. intros Hh Hb. exact (cholesky_hangs OL a _ _ oc ol disp (ea_built_ok a Hb) (ho_k _ Hh) (ho_sys _ Hh)). Qed.
Print Assumptions C90_cholesky_only.
Theorem C90_real_partial (h : hashes R_arith) a oc ol r :
  hashes_ok h -> ea_built a -> calc_load a oc ol = Ret r -> one_piece a -> (forall e, e ∈ ea_elems a -> ccw e /\ solid e) ->
  admissible (ea_cond a) (ea_mat a) -> rigidly_held a ->
  2 <= unknowns (ea_cons a) -> hangs_together a ->
  exists disp, calc_displacements (h_k h) oc ol (cholesky_solver (h_sys h)) a = Ret disp /\ the_solution a oc ol disp.
Proof.
  intros Hh Hb Hr H1 H2 H3 H4 H5 H6. apply (C90_returns_partial R_arith R_ord_laws R_trig h (Some (txt "cholesky")) a oc ol _ r Hh Hb eq_refl Hr).
  right. split; [reflexivity|]. split; [exact R_sqrt_law|]. split; [|now split]. now apply (C89_held R_arith R_ord_laws).
Qed.
Print Assumptions C90_real_partial.

Definition file_study (file : text) (more : list (string * string)) : list (effect F64_arith) * out (result cli_error unit) :=
  Cli.linear F64_fmt F64_raster (disk [("a.bmsh"%string, file)]) plain_hashes (given ([("INPUT", "a.bmsh"); ("imsize", "40")]%string ++ more)).
Definition printed (l : list (effect F64_arith)) : list (F64_arith * F64_arith) := omap (fun e => match e with PrintMax v d => Some (v, d) | _ => None end) l.

(** the two triangles above meet the condition of the Cholesky solver, the triangle of C83
    that of the dense one *)
Example C90_example :
  exists a, bmsh_to_elas Qc_fmt two_pins = Ret (Ok a) /\ one_piece a /\ (forall e, e ∈ ea_elems a -> ccw e /\ solid e) /\
    admissible (ea_cond a) (ea_mat a) /\ rigidly_held a /\ 2 <= unknowns (ea_cons a) /\ hangs_together a /\
    exists l, calc_load a (map_to_list (ea_conc a)) (map_to_list (ea_line a)) = Ret l.
Proof.
  destruct (file_facts two_pins [Free; XYFixed; XYFixed; Free] two_pins_nodes (qc 1)) as (a & Ea & Hb & H1 & H2 & H3 & Hc & _ & Hn); [vm_refl|].
  exists a. repeat (split; [assumption|]). split; [|split; [rewrite Hc; cbn; lia|split]].
  - destruct (Hn 1 _ _ eq_refl) as (p & Hp & Xp & _). destruct (Hn 2 _ _ eq_refl) as (q & Hq & Xq & _).
    apply (two_fixed Qc_ord_laws a 1 2 p q Hp Hq); [|now rewrite Hc..]. rewrite Xp, Xq. intros [E _]. revert E. apply qc_neq. vm_refl.
  - assert (F : (r ← bmsh_to_elas Qc_fmt two_pins; match r with Ok a => Ret (map e_id_list (ea_elems a)) | Err _ => Panic end) = Ret [[0; 1; 2]; [1; 0; 3]]) by vm_refl.
    rewrite Ea in F. cbn [mbind out_bind] in F. assert (RI : forall (X : Type) (x y : X), Ret x = Ret y -> x = y) by (intros X x y [=]; assumption).
    apply RI in F. clear -Hc F.
    assert (Hl : forall n, loose a n -> n = 0 \/ n = 3).
    { intros n (c & E & Hne). rewrite Hc in E. destruct n as [|[|[|[|n]]]]; cbn in E; try injection E as <-; auto; try (exfalso; congruence); try (now destruct Hne). }
    assert (Ht : forall m n, m = 0 \/ m = 3 -> n = 0 \/ n = 3 -> together a m n).
    { assert (He : [1; 0; 3] ∈ map e_id_list (ea_elems a)) by (rewrite F; right; left). apply elem_of_list_fmap in He as (e & Ee & He).
      intros m n Hm Hn. exists e. split; [exact He|]. rewrite <- Ee. destruct Hm as [-> | ->], Hn as [-> | ->]; split; repeat constructor. }
    split; [intros n Hn; auto|]. intros m n Hm Hn. apply rtc_once. auto.
  - assert (F : (r ← bmsh_to_elas Qc_fmt two_pins; match r with Ok a => l ← calc_load a (map_to_list (ea_conc a)) (map_to_list (ea_line a)); Ret (length l) | Err _ => Panic end) = Ret 8) by vm_refl.
    rewrite Ea in F. cbn [mbind out_bind] in F. apply bind_ret_inv in F as (l & El & _). now exists l.
Qed.

(** the two triangles above are held; the default solver stops on them, the other solves them *)
Theorem C90_default_refuted :
  (exists a, bmsh_to_elas Qc_fmt two_pins = Ret (Ok a) /\ held a /\ exists l, calc_load a (map_to_list (ea_conc a)) (map_to_list (ea_line a)) = Ret l) /\
  file_study two_pins [] = ([], Panic) /\
  exists v d, printed (file_study two_pins [("solver", "cholesky")]%string).1 = [(v, d)] /\ (file_study two_pins [("solver", "cholesky")]%string).2 = Ret (Ok tt) /\
    PrimFloat.ltb 1%float v = true /\ PrimFloat.ltb v 2%float = true.
Proof.
  split.
  - destruct (proj1 C89_example) as (a & Ea & Hh). exists a. split; [exact Ea|]. split; [exact Hh|].
    assert (F : (r ← bmsh_to_elas Qc_fmt two_pins; match r with Ok a => l ← calc_load a (map_to_list (ea_conc a)) (map_to_list (ea_line a)); Ret (length l) | Err _ => Panic end) = Ret 8) by vm_refl.
    rewrite Ea in F. cbn [mbind out_bind] in F. apply bind_ret_inv in F as (l & El & _). now exists l.
  - split; [vm_refl|]. eexists _, _. split; [vm_refl|]. split; [vm_refl|]. split; vm_refl.
Qed.
Print Assumptions C90_default_refuted.
(** a bracket with a flap on the far side of the fixed edge: both direct solvers stop *)
Definition flap_plate : text := (bmsh_file ["count 5"; "0 2/-2"; "1 -1/-1"; "2 -2/-1"; "3 -2/0"; "4 -2/-0.5"] ["count 3"; "0 0/1/2"; "1 1/0/3"; "2 2/1/4"]
  ["count 2"; "1 xy"; "2 xy"] ["count 1"; "0 0/-1"] ["count 0"])%string.
Definition flap_nodes : list (Qc_arith * Qc_arith) := [(qc 2, qc (-2)); (qc (-1), qc (-1)); (qc (-2), qc (-1)); (qc (-2), qc 0); (qc (-2), qcd (-1) 2)].
Theorem C90_both_refuted :
  (exists a, bmsh_to_elas Qc_fmt flap_plate = Ret (Ok a) /\ held a /\ exists l, calc_load a (map_to_list (ea_conc a)) (map_to_list (ea_line a)) = Ret l) /\
  file_study flap_plate [] = ([], Panic) /\ file_study flap_plate [("solver", "cholesky")]%string = ([], Panic).
Proof.
  split.
  - destruct (file_facts flap_plate [Free; XYFixed; XYFixed; Free; Free] flap_nodes (qc 1)) as (a & Ea & Hb & H1 & H2 & H3 & Hc & _ & Hn); [vm_refl|].
    exists a. split; [exact Ea|]. split.
    + destruct (Hn 1 _ _ eq_refl) as (p & Hp & Xp & _). destruct (Hn 2 _ _ eq_refl) as (q & Hq & Xq & _).
      apply (C89_two_nodes Qc_arith Qc_ord_laws a 1 2 p q Hb H1 H2 H3 Hp Hq); [|now rewrite Hc..].
      rewrite Xp, Xq. intros [E _]. revert E. apply qc_neq. vm_refl.
    + assert (F : (r ← bmsh_to_elas Qc_fmt flap_plate; match r with Ok a => l ← calc_load a (map_to_list (ea_conc a)) (map_to_list (ea_line a)); Ret (length l) | Err _ => Panic end) = Ret 10) by vm_refl.
      rewrite Ea in F. cbn [mbind out_bind] in F. apply bind_ret_inv in F as (l & El & _). now exists l.
  - split; vm_refl.
Qed.
Print Assumptions C90_both_refuted.
(** a plate hung from two nodes on one line: a stiffness coefficient between the two free
    nodes cancels exactly, but it stays stored, so the sparse solver still sees the link *)
Definition hung_plate : text := (bmsh_file ["count 4"; "0 2/0"; "1 -2/0"; "2 2/-2"; "3 3/0"] ["count 2"; "0 0/1/2"; "1 0/2/3"]
  ["count 2"; "0 xy"; "3 xy"] ["count 1"; "1 0/-1"] ["count 0"])%string.
Example C90_hung : file_study hung_plate [] = ([], Panic) /\ (file_study hung_plate [("solver", "cholesky")]%string).2 = Ret (Ok tt).
Proof. split; vm_refl. Qed.
