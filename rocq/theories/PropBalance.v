(** C137: balanced stresses determine the result. *)
From Coq Require Import Ascii String Reals Lra Floats.
From Verif Require Import PropCli PropHeld PropEnergy PropFactor PropFrame PropVib PropTensor PropVirtual InstQc InstR InstFile StudyProofs CliProofs CliMesh CliStudy CliReal CliEx HeldProofs EnergyProofs.
From Verif Require Import Cli FrameProofs TensorProofs VirtualProofs BalanceProofs.
Local Close Scope R_scope.
Local Close Scope float_scope.
Local Close Scope string_scope.
Local Open Scope nat_scope.
Local Open Scope list_scope.

(** *** C137 — a displacement the supports allow, whose element stresses are in balance with the
    loads, is the computed one *)
Theorem C137_balanced (A : arith) (OL : ord_laws A) (Trig : forall th : A, sadd (smul (scos th) (scos th)) (smul (ssin th) (ssin th)) = s1)
  (h : hashes A) name (a : elas A) oc ol disp r u sg : computed h name a oc ol disp -> plane (ea_cond a) ->
  (forall e, e ∈ ea_elems a -> twice_area e <> s0) -> calc_load a oc ol = Ret r ->
  respects (ea_cons a) u ->
  (forall e, e ∈ ea_elems a -> e_stresses e (idx (map (ElemTop.disp_of u) (seq 0 (node_count a)))) = Ret (map (fun n => (n, as_stress (sg e))) (e_id_list e))) ->
  in_balance a sg r -> disp = map (ElemTop.disp_of u) (seq 0 (node_count a)).
Proof. exact (balance_unique OL Trig h name a oc ol disp r u sg). Qed.
Print Assumptions C137_balanced.
(** in particular a body in an affine state, its stress the same everywhere, is found exactly *)
Theorem C137_affine_state (A : arith) (OL : ord_laws A) (Trig : forall th : A, sadd (smul (scos th) (scos th)) (smul (ssin th) (ssin th)) = s1)
  (h : hashes A) name (a : elas A) oc ol disp r C u v : computed h name a oc ol disp -> plane (ea_cond a) ->
  (forall e, e ∈ ea_elems a -> twice_area e <> s0) -> calc_load a oc ol = Ret r -> build_c (ea_cond a) (ea_mat a) = Ret C ->
  respects (ea_cons a) (flat_disp (map (lin_disp u v) (ea_nodes a))) -> in_balance a (fun _ => hooke C u v) r ->
  disp = map (lin_disp u v) (ea_nodes a).
Proof. exact (affine_state OL Trig h name a oc ol disp r C u v). Qed.
Print Assumptions C137_affine_state.

(** two triangles pulled by 1 per length at the right side: stretched by x, stress (1, 0, 0) *)
Definition strip : text := (bmsh_file ["count 4"; "0 0/0"; "1 1/0"; "2 1/1"; "3 0/1"] ["count 2"; "0 0/1/2"; "1 0/2/3"] ["count 4"; "0 xy"; "1 y"; "2 y"; "3 xy"]
  ["count 0"] ["count 1"; "1 2 1/0"])%string.
Definition pulled : list (point Qc_arith) := [Pt 2 (qc 0) (qc 0) (qc 0); Pt 2 (qc 1) (qc 0) (qc 0); Pt 2 (qc 1) (qc 0) (qc 0); Pt 2 (qc 0) (qc 0) (qc 0)].
Definition along_x : Qc_arith * Qc_arith * Qc_arith := (qc 0, qc 1, qc 0).
Definition still : Qc_arith * Qc_arith * Qc_arith := (qc 0, qc 0, qc 0).
Definition affine_of (file : text) : out _ :=
  r ← bmsh_to_elas Qc_fmt file;
  match r with Ok a => C ← build_c (ea_cond a) (ea_mat a); Ret (map (lin_disp along_x still) (ea_nodes a), hooke C along_x still) | Err _ => Panic end.
Definition strip_k : list Qc_arith := [qcd 3 4; qcd (-1) 4; qcd (-1) 4; qcd 3 4].
Definition strip_r : list Qc_arith := [qc 0; qc 0; qcd 1 2; qc 0; qcd 1 2; qc 0; qc 0; qc 0].
Lemma strip_pivots (f : nat -> nat -> Qc_arith) : [f 0 0; f 0 1; f 1 0; f 1 1] = strip_k -> pivots_nonzero 2 f.
Proof. intros H. apply (pivots_two f _ _ _ _ H); [unfold lts; vm_refl|apply qc_neq; vm_refl..]. Qed.
Lemma strip_reduced : reduced_of strip = Ret ((2, 2), strip_k).
Proof. vm_refl. Qed.
Lemma strip_disp : PropEnergy.disp_of strip = Ret pulled.
Proof. vm_refl. Qed.
Lemma strip_load : load_of strip = Ret strip_r.
Proof. vm_refl. Qed.
Lemma strip_affine : affine_of strip = Ret (pulled, (qc 1, qc 0, qc 0)).
Proof. vm_refl. Qed.
Definition ones : Qc_arith * Qc_arith * Qc_arith := (qc 1, qc 0, qc 0).
Lemma strip_stress : el_stress_of strip = Ret [map (fun n => (n, as_stress ones)) [0; 1; 2]; map (fun n => (n, as_stress ones)) [0; 2; 3]].
Proof. vm_refl. Qed.
Lemma strip_fine : fine_of strip = Ret true.
Proof. vm_refl. Qed.
Lemma strip_plane : plane_of strip = Ret true.
Proof. vm_refl. Qed.
Lemma affine_spec file a l s : bmsh_to_elas Qc_fmt file = Ret (Ok a) -> affine_of file = Ret (l, s) ->
  exists C, build_c (ea_cond a) (ea_mat a) = Ret C /\ map (lin_disp along_x still) (ea_nodes a) = l /\ hooke C along_x still = s.
Proof.
  unfold affine_of. intros ->. cbn [mbind out_bind]. intros H. apply bind_ret_inv in H as (C & E & H). exists C. split; [exact E|].
  assert (RI : forall (X : Type) (x y : X), Ret x = Ret y -> x = y) by (intros X x y [=]; assumption). apply RI, pair_equal_spec in H. exact H.
Qed.
Lemma all_stress {A : arith} (es : list (element A)) d sg s ls :
  (forall e, e ∈ es -> e_stresses e (idx d) = Ret (map (fun n => (n, as_stress (sg e))) (e_id_list e))) ->
  mapM_out (fun e => e_stresses e (idx d)) es = Ret ls -> (forall l, l ∈ ls -> map snd l = replicate 3 (as_stress s)) ->
  length ls = length es /\ forall e, e ∈ es -> sg e = s.
Proof.
  revert ls. induction es as [|e es IH]; intros ls H1 H2 H3; cbn [mapM_out] in H2.
  - injection H2 as <-. split; [reflexivity|]. intros e He. now apply elem_of_nil in He.
  - rewrite (H1 e) in H2 by (apply elem_of_cons; now left). cbn [mbind out_bind] in H2. apply bind_ret_inv in H2 as (ls' & E & H2). injection H2 as <-.
    destruct (IH ls') as [L S]; [intros e' He'; apply H1; apply elem_of_cons; now right|exact E|intros l Hl; apply H3; apply elem_of_cons; now right|].
    split; [cbn; now rewrite L|]. intros e' He'. apply elem_of_cons in He' as [->|He']; [|now apply S].
    pose proof (H3 _ (elem_of_list_here _ _)) as X. apply (f_equal (fun l => match l with x :: _ => x | [] => as_stress s end)) in X.
    unfold e_id_list in X. destruct (e_ids e) as [[x y] z]. cbn [map snd replicate] in X. now apply as_stress_inj.
Qed.
Lemma three_same {A : arith} (s : A * A * A) l m : forall k, k ∈ [map (fun n : nat => (n, as_stress s)) l; map (fun n => (n, as_stress s)) m] -> length l = 3 -> length m = 3 ->
  map snd k = replicate 3 (as_stress s).
Proof.
  intros k Hk Hl Hm. assert (G : forall q : list nat, length q = 3 -> map snd (map (fun n : nat => (n, as_stress s)) q) = replicate 3 (as_stress s)).
  { intros q Hq. destruct q as [|x [|y [|z [|]]]]; try discriminate. reflexivity. }
  apply elem_of_cons in Hk as [->|Hk]; [now apply G|]. apply elem_of_cons in Hk as [->|Hk]; [now apply G|]. now apply elem_of_nil in Hk.
Qed.
Lemma balance_ext {A : arith} (a : elas A) f g r : (forall e, e ∈ ea_elems a -> f e = g e) -> in_balance a f r -> in_balance a g r.
Proof.
  intros H B v w Hv Hw. rewrite <- (B v w Hv Hw). f_equal. apply map_ext_in. intros e He. apply elem_of_list_In in He. now rewrite (H e He).
Qed.
Lemma strip_trig (th : Qc_arith) : sadd (smul (scos th) (scos th)) (smul (ssin th) (ssin th)) = (s1 : Qc_arith).
Proof. vm_refl. Qed.
Example C137_example : exists a C,
  bmsh_to_elas Qc_fmt strip = Ret (Ok a) /\ length (ea_elems a) = 2 /\
  computed plain_hashes None a (map_to_list (ea_conc a)) (map_to_list (ea_line a)) pulled /\ plane (ea_cond a) /\
  (forall e, e ∈ ea_elems a -> twice_area e <> s0) /\
  calc_load a (map_to_list (ea_conc a)) (map_to_list (ea_line a)) = Ret strip_r /\ build_c (ea_cond a) (ea_mat a) = Ret C /\
  respects (ea_cons a) (flat_disp (map (lin_disp along_x still) (ea_nodes a))) /\ hooke C along_x still = ones /\
  in_balance a (fun _ => hooke C along_x still) strip_r /\ map (lin_disp along_x still) (ea_nodes a) = pulled.
Proof.
  destruct (two_study strip strip_k pulled strip_r strip_reduced strip_pivots strip_disp strip_load) as (a & Ea & Ca & La).
  destruct (fine_spec lean _ a Ea strip_fine) as (_ & F2 & _). pose proof (plane_spec strip a Ea strip_plane) as Hp.
  destruct (affine_spec strip a _ _ Ea strip_affine) as (C & EC & D & S).
  destruct (C136_virtual_work Qc_arith Qc_ord_laws strip_trig _ _ _ _ _ _ _ Ca Hp F2 La) as (sg & G1 & G2).
  pose proof (el_stress_spec strip a pulled _ Ea strip_disp strip_stress) as W.
  destruct (all_stress (ea_elems a) pulled sg ones _ G1 W) as [L G]; [intros l Hl; now apply (three_same ones _ _ l Hl)|].
  exists a, C. split; [exact Ea|]. split; [exact (eq_sym L)|]. split; [exact Ca|]. split; [exact Hp|]. split; [exact F2|]. split; [exact La|]. split; [exact EC|].
  split; [rewrite D; destruct (sol_facts Qc_ord_laws strip_trig _ _ _ _ _ _ Ca) as (K & r1 & _ & _ & _ & R & _); exact R|].
  split; [exact S|]. split; [|exact D]. apply (balance_ext a sg); [|exact G2]. intros e He. rewrite (G e He). exact (eq_sym S).
Qed.
