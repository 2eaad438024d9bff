(** C135: stress tensors in another frame of reference. *)
From Coq Require Import Ascii String Reals Lra Floats.
From Verif Require Import PropCli PropHeld PropEnergy PropFactor PropFrame InstQc InstR InstFile StudyProofs CliProofs CliMesh CliStudy CliReal CliEx HeldProofs EnergyProofs.
From Verif Require Import Cli FrameProofs TensorProofs.
Local Close Scope R_scope.
Local Close Scope float_scope.
Local Close Scope string_scope.
Local Open Scope nat_scope.
Local Open Scope list_scope.

(** *** C135 — the stresses computed for a plane body turn with it *)
Theorem C135_tensors (A : arith) (OL : ord_laws A) (Trig : forall th : A, sadd (smul (scos th) (scos th)) (smul (ssin th) (ssin th)) = s1)
  (f : frame A) (h : hashes A) name (a : elas A) oc ol disp (h' : hashes A) name' (b : elas A) oc' ol' disp' r r' :
  is_frame f -> computed h name a oc ol disp -> computed h' name' b oc' ol' disp' -> moved f a b -> plane (ea_cond a) ->
  ssub s1 (m_poisson (ea_mat a)) <> s0 -> (forall e, e ∈ ea_elems a -> twice_area e <> s0) ->
  Forall2 (turned_support f) (ea_cons a) (ea_cons b) -> calc_load a oc ol = Ret r -> calc_load b oc' ol' = Ret r' ->
  (forall i, i < node_count a * 2 -> vel r' i = turn f (vel r) i) ->
  exists l l', ea_stresses a disp = Ret l /\ ea_stresses b disp' = Ret l' /\ Forall2 (turned_opt f) l l'.
Proof. exact (study_tensors OL Trig f h name a oc ol disp h' name' b oc' ol' disp' r r'). Qed.
Print Assumptions C135_tensors.
(** so the sum and the product of the principal stresses at each node are those of the body *)
Theorem C135_invariants (A : arith) (OL : ord_laws A) (Trig : forall th : A, sadd (smul (scos th) (scos th)) (smul (ssin th) (ssin th)) = s1)
  (f : frame A) (h : hashes A) name (a : elas A) oc ol disp (h' : hashes A) name' (b : elas A) oc' ol' disp' r r' :
  is_frame f -> computed h name a oc ol disp -> computed h' name' b oc' ol' disp' -> moved f a b -> plane (ea_cond a) ->
  ssub s1 (m_poisson (ea_mat a)) <> s0 -> (forall e, e ∈ ea_elems a -> twice_area e <> s0) ->
  Forall2 (turned_support f) (ea_cons a) (ea_cons b) -> calc_load a oc ol = Ret r -> calc_load b oc' ol' = Ret r' ->
  (forall i, i < node_count a * 2 -> vel r' i = turn f (vel r) i) -> f_lam f = s1 ->
  exists l l', ea_stresses a disp = Ret l /\ ea_stresses b disp' = Ret l' /\
    forall n t t', l !! n = Some (Some t) -> l' !! n = Some (Some t') -> trace t' = trace t /\ tdet t' = tdet t.
Proof.
  intros Hf H1 H2 H3 H4 H5 H6 H7 H8 H9 H10 Hl.
  destruct (C135_tensors A OL Trig f h name a oc ol disp h' name' b oc' ol' disp' r r' Hf H1 H2 H3 H4 H5 H6 H7 H8 H9 H10) as (l & l' & E & E' & T).
  exists l, l'. split; [exact E|]. split; [exact E'|]. intros n t t' Hn Hn'. pose proof (proj1 (Forall2_lookup _ _ _) T n) as Q. rewrite Hn, Hn' in Q.
  inversion Q as [x y Hx|]; subst. exact (invariants_one OL f Hf t t' Hl Hx).
Qed.
Print Assumptions C135_invariants.

(** the triangle of [C119_example], pulled and sheared at its free corner *)
Definition tensors_of (file : text) : out _ :=
  r ← bmsh_to_elas Qc_fmt file;
  match r with
  | Ok a => d ← calc_displacements plain_hashes.(h_k) (map_to_list (ea_conc a)) (map_to_list (ea_line a)) (@dense_gauss Qc_arith) a; ea_stresses a d
  | Err _ => Panic
  end.
Definition plane_of (file : text) : out bool :=
  r ← bmsh_to_elas Qc_fmt file; match r with Ok a => Ret (match ea_cond a with Axisymmetric => false | _ => true end) | Err _ => Panic end.
Lemma tensors_lying : tensors_of lying_1 = Ret (replicate 3 (Some (Stress Plane (map qc [0; 8; 6; 0; 0; 0]%Z)))).
Proof. vm_refl. Qed.
Lemma tensors_leaning : tensors_of leaning_1 = Ret (replicate 3 (Some (Stress Plane [qcd (-16) 25; qcd 216 25; qcd (-138) 25; qc 0; qc 0; qc 0]))).
Proof. vm_refl. Qed.
Lemma tensors_spec file a d l : bmsh_to_elas Qc_fmt file = Ret (Ok a) -> PropEnergy.disp_of file = Ret d -> tensors_of file = l -> ea_stresses a d = l.
Proof. unfold PropEnergy.disp_of, tensors_of. intros ->. cbn [mbind out_bind]. intros ->. cbn [mbind out_bind]. auto. Qed.
Lemma plane_spec file a : bmsh_to_elas Qc_fmt file = Ret (Ok a) -> plane_of file = Ret true -> plane (ea_cond a).
Proof. unfold plane_of. intros ->. cbn [mbind out_bind]. intros [= P]. now destruct (ea_cond a). Qed.
Lemma count_spec file a n : bmsh_to_elas Qc_fmt file = Ret (Ok a) -> (r ← bmsh_to_elas Qc_fmt file; match r with Ok a => Ret (node_count a) | Err _ => Panic end) = Ret n -> node_count a = n.
Proof. intros ->. cbn [mbind out_bind]. now intros [= P]. Qed.
Lemma turned_loads i : i < 6 -> vel [qcd (-7) 5; qcd 24 5; qc 0; qc 0; qcd (-7) 5; qcd 24 5] i = turn lean (vel (map qc [3; 4; 0; 0; 3; 4]%Z)) i.
Proof. intros Hi. do 6 (destruct i as [|i]; [vm_refl|]). lia. Qed.
Example C135_example : exists a b da db r r',
  is_frame lean /\ f_lam lean = qc 1 /\
  computed plain_hashes None a (map_to_list (ea_conc a)) (map_to_list (ea_line a)) da /\
  computed plain_hashes None b (map_to_list (ea_conc b)) (map_to_list (ea_line b)) db /\
  moved lean a b /\ plane (ea_cond a) /\ ssub s1 (m_poisson (ea_mat a)) <> s0 /\ (forall e, e ∈ ea_elems a -> twice_area e <> s0) /\
  Forall2 (turned_support lean) (ea_cons a) (ea_cons b) /\
  calc_load a (map_to_list (ea_conc a)) (map_to_list (ea_line a)) = Ret r /\ calc_load b (map_to_list (ea_conc b)) (map_to_list (ea_line b)) = Ret r' /\
  (forall i, i < node_count a * 2 -> vel r' i = turn lean (vel r) i) /\
  ea_stresses a da = Ret (replicate 3 (Some (Stress Plane (map qc [0; 8; 6; 0; 0; 0]%Z)))) /\
  ea_stresses b db = Ret (replicate 3 (Some (Stress Plane [qcd (-16) 25; qcd 216 25; qcd (-138) 25; qc 0; qc 0; qc 0]))).
Proof.
  assert (Fa : (d ← PropEnergy.disp_of lying_1; Ret tt) = Ret tt) by vm_refl. assert (Fb : (d ← PropEnergy.disp_of leaning_1; Ret tt) = Ret tt) by vm_refl.
  apply bind_ret_inv in Fa as (da & Da & _). apply bind_ret_inv in Fb as (db & Db & _).
  destruct (two_study lying_1 [qcd 1 4; qc 0; qc 0; qcd 1 2] da (map qc [3; 4; 0; 0; 3; 4]%Z)) as (a & Ea & Ca & La); [vm_refl|exact lying_pivots|exact Da|vm_refl|].
  destruct (two_study leaning_1 [qcd 41 100; qcd (-12) 100; qcd (-12) 100; qcd 34 100] db [qcd (-7) 5; qcd 24 5; qc 0; qc 0; qcd (-7) 5; qcd 24 5]) as (b & Eb & Cb & Lb); [vm_refl|exact leaning_pivots|exact Db|vm_refl|].
  pose proof (same_spots lean _ _ a b Ea Eb ltac:(vm_refl)) as Hm. destruct (fine_spec lean _ a Ea ltac:(vm_refl)) as (F1 & F2 & _).
  pose proof (held_corners lean _ _ a b Ea Eb ltac:(vm_refl) ltac:(vm_refl)) as Hh.
  exists a, b, da, db, (map qc [3; 4; 0; 0; 3; 4]%Z), [qcd (-7) 5; qcd 24 5; qc 0; qc 0; qcd (-7) 5; qcd 24 5].
  split; [exact lean_frame|]. split; [reflexivity|]. do 3 (split; [assumption|]). split.
  { exact (plane_spec lying_1 a Ea ltac:(vm_refl)). }
  do 5 (split; [assumption|]). split; [|split].
  - rewrite (count_spec lying_1 a 3 Ea ltac:(vm_refl)). exact turned_loads.
  - exact (tensors_spec lying_1 a da _ Ea Da tensors_lying).
  - exact (tensors_spec leaning_1 b db _ Eb Db tensors_leaning).
Qed.
