(** C119, C120: results in another frame of reference. *)
From Coq Require Import Ascii String Reals Lra Floats.
From Verif Require Import PropCli PropHeld PropEnergy PropFactor InstQc InstR InstF64 InstFile StudyProofs CliProofs CliMesh CliStudy CliReal CliEx HeldProofs EnergyProofs.
From Verif Require Import Cli FrameProofs.
Local Close Scope R_scope.
Local Close Scope float_scope.
Local Close Scope string_scope.
Local Open Scope nat_scope.
Local Open Scope list_scope.
Local Notation xy := ElemProofs.xy.
Local Notation disp_of := PropEnergy.disp_of.

(** *** C119 — displacements do not depend on where the body lies, nor (the load vector being
    turned) on its size *)
Theorem C119_moved (A : arith) (OL : ord_laws A) (Trig : forall th : A, sadd (smul (scos th) (scos th)) (smul (ssin th) (ssin th)) = s1)
  (f : frame A) (h : hashes A) name (a : elas A) oc ol disp (h' : hashes A) name' (b : elas A) oc' ol' disp' r r' :
  is_frame f -> computed h name a oc ol disp -> computed h' name' b oc' ol' disp' -> moved f a b -> suits f (ea_cond a) ->
  ssub s1 (m_poisson (ea_mat a)) <> s0 -> (forall e, e ∈ ea_elems a -> twice_area e <> s0) ->
  Forall2 (turned_support f) (ea_cons a) (ea_cons b) -> calc_load a oc ol = Ret r -> calc_load b oc' ol' = Ret r' ->
  (forall i, i < node_count a * 2 -> vel r' i = turn f (vel r) i) ->
  forall i, i < node_count a * 2 -> flat_disp disp' i = turn f (flat_disp disp) i.
Proof. exact (moved_solution OL Trig f h name a oc ol disp h' name' b oc' ol' disp' r r'). Qed.
Print Assumptions C119_moved.
(** turning every force and every line load turns the load vector *)
Theorem C119_load (A : arith) (OL : ord_laws A) (f : frame A) (a b : elas A) oc ol oc' ol' r :
  is_frame f -> f_lam f = s1 -> ssqrt (s1 : A) <> s0 /\ ssqrt (sadd s1 s1 : A) <> s0 -> ea_built a -> ea_built b -> moved f a b ->
  (forall e, e ∈ ea_elems a -> twice_area e <> s0) ->
  Forall2 (fun x y => y.1 = x.1 /\ turned_force f x.2 y.2) oc oc' -> Forall2 (fun x y => y.1 = x.1 /\ turned_force f x.2 y.2) ol ol' ->
  calc_load a oc ol = Ret r -> exists r', calc_load b oc' ol' = Ret r' /\ forall i, vel r' i = turn f (vel r) i.
Proof. intros H1 H2 H3 Ha Hb Hm Hd. exact (load_turned OL f H1 H2 H3 a b Hm (ea_built_ok a Ha) (ea_built_ok b Hb) Hd oc ol oc' ol' r). Qed.
Print Assumptions C119_load.
Theorem C119_turned (A : arith) (OL : ord_laws A) (Trig : forall th : A, sadd (smul (scos th) (scos th)) (smul (ssin th) (ssin th)) = s1)
  (f : frame A) (h : hashes A) name (a : elas A) oc ol disp (h' : hashes A) name' (b : elas A) oc' ol' disp' :
  ssqrt (s1 : A) <> s0 /\ ssqrt (sadd s1 s1 : A) <> s0 ->
  is_frame f -> f_lam f = s1 -> computed h name a oc ol disp -> computed h' name' b oc' ol' disp' -> moved f a b -> suits f (ea_cond a) ->
  ssub s1 (m_poisson (ea_mat a)) <> s0 -> (forall e, e ∈ ea_elems a -> twice_area e <> s0) ->
  Forall2 (turned_support f) (ea_cons a) (ea_cons b) ->
  Forall2 (fun x y => y.1 = x.1 /\ turned_force f x.2 y.2) oc oc' -> Forall2 (fun x y => y.1 = x.1 /\ turned_force f x.2 y.2) ol ol' ->
  forall i, i < node_count a * 2 -> flat_disp disp' i = turn f (flat_disp disp) i.
Proof. exact (turned_study OL Trig f h name a oc ol disp h' name' b oc' ol' disp'). Qed.
Print Assumptions C119_turned.
Theorem C119_real (th : R) (tx ty : R) (h : hashes R_arith) name (a : elas R_arith) oc ol disp (h' : hashes R_arith) name' (b : elas R_arith) oc' ol' disp' :
  let f : frame R_arith := @Frame R_arith (cos th) (sin th) 1%R tx ty in
  computed h name a oc ol disp -> computed h' name' b oc' ol' disp' -> moved f a b -> suits f (ea_cond a) ->
  m_poisson (ea_mat a) <> 1%R -> (forall e, e ∈ ea_elems a -> twice_area e <> 0%R) ->
  Forall2 (turned_support f) (ea_cons a) (ea_cons b) ->
  Forall2 (fun x y => y.1 = x.1 /\ turned_force f x.2 y.2) oc oc' -> Forall2 (fun x y => y.1 = x.1 /\ turned_force f x.2 y.2) ol ol' ->
  forall i, i < node_count a * 2 -> flat_disp disp' i = turn f (flat_disp disp) i.
Proof.
  intros f H1 H2 H3 H4 H5 H6 H7 H8 H9.
  apply (C119_turned R_arith R_ord_laws R_trig f h name a oc ol disp h' name' b oc' ol' disp'); try assumption; try reflexivity.
  - split; [apply (pos_neq R_ord_laws), (proj1 (R_sqrt_law _ (sz_pos R_ord_laws 1)))|apply (pos_neq R_ord_laws), (proj1 (R_sqrt_law _ (two_pos R_ord_laws)))].
  - split; [exact (R_trig th)|]. exact (pos_neq R_ord_laws _ (sz_pos R_ord_laws 1)).
  - cbn. intros E. apply H5. lra.
Qed.
Print Assumptions C119_real.

(** a triangle held at two corners, and the same triangle turned by the angle of the 3-4-5
    triangle; a line load acts on a free side *)
Definition lying (forces lines : list string) : text := (bmsh_file ["count 3"; "0 0/0"; "1 1/0"; "2 0/1"] ["count 1"; "0 0/1/2"] ["count 2"; "0 xy"; "1 xy"]
  forces lines)%string.
Definition leaning (forces lines : list string) : text := (bmsh_file ["count 3"; "0 2/1"; "1 2.6/1.8"; "2 1.2/1.6"] ["count 1"; "0 0/1/2"] ["count 2"; "0 xy"; "1 xy"]
  forces lines)%string.
Definition lean : frame Qc_arith := Frame (qcd 3 5) (qcd 4 5) (qc 1) (qc 2) (qc 1).
Definition spots (g : Qc_arith * Qc_arith -> Qc_arith * Qc_arith) (file : text) : out _ :=
  r ← bmsh_to_elas Qc_fmt file;
  match r with Ok a => Ret (map (fun p => (g (xy p), p_z p)) (ea_nodes a), map e_ids (ea_elems a), ea_cond a, ea_mat a) | Err _ => Panic end.
Definition pushes (g : Qc_arith * Qc_arith -> Qc_arith * Qc_arith) (file : text) : out _ :=
  r ← bmsh_to_elas Qc_fmt file;
  match r with
  | Ok a => Ret (map (fun x => (x.1, (p_n x.2, g (xy x.2)))) (map_to_list (ea_conc a)), map (fun x => (x.1, (p_n x.2, g (xy x.2)))) (map_to_list (ea_line a)))
  | Err _ => Panic
  end.
Definition spin (f : frame Qc_arith) (p : Qc_arith * Qc_arith) : Qc_arith * Qc_arith :=
  (ssub (smul (f_c f) p.1) (smul (f_s f) p.2), sadd (smul (f_s f) p.1) (smul (f_c f) p.2)).
Lemma maps_agree {X Y Z : Type} (g : X -> Z) (k : Y -> Z) l l' : map g l = map k l' -> Forall2 (fun x y => g x = k y) l l'.
Proof. revert l'. induction l as [|x l IH]; intros [|y l']; cbn [map]; try discriminate; [constructor|]. intros H. injection H as E1 E2. constructor; auto. Qed.
Lemma same_spots f file file' a b : bmsh_to_elas Qc_fmt file = Ret (Ok a) -> bmsh_to_elas Qc_fmt file' = Ret (Ok b) ->
  spots (place f) file = spots (fun p => p) file' -> moved f a b.
Proof.
  unfold spots. intros -> ->. cbn [mbind out_bind]. intros [= H1 H2 H3 H4]. split; [|assumption..].
  apply maps_agree in H1. eapply Forall2_impl; [exact H1|]. intros p q E. apply pair_equal_spec in E as [E1 E2]. split; symmetry; assumption.
Qed.
Lemma same_pushes f file file' a b : bmsh_to_elas Qc_fmt file = Ret (Ok a) -> bmsh_to_elas Qc_fmt file' = Ret (Ok b) ->
  pushes (spin f) file = pushes (fun p => p) file' ->
  Forall2 (fun x y => y.1 = x.1 /\ turned_force f x.2 y.2) (map_to_list (ea_conc a)) (map_to_list (ea_conc b)) /\
  Forall2 (fun x y => y.1 = x.1 /\ turned_force f x.2 y.2) (map_to_list (ea_line a)) (map_to_list (ea_line b)).
Proof.
  unfold pushes. intros -> ->. cbn [mbind out_bind]. intros [= H1 H2].
  split; (eapply Forall2_impl; [eapply maps_agree; eassumption|]); intros [n p] [m q] E;
    apply pair_equal_spec in E as [E1 E2]; apply pair_equal_spec in E2 as [E2 E3]; apply pair_equal_spec in E3 as [E3 E4];
    (split; [symmetry; exact E1|]; split; [symmetry; exact E2|]; split; symmetry; assumption).
Qed.
Lemma pivots_two (f : nat -> nat -> Qc_arith) (a b c d : Qc_arith) : [f 0 0; f 0 1; f 1 0; f 1 1] = [a; b; c; d] ->
  lts c a -> a <> s0 -> ssub d (smul (sdiv b a) c) <> s0 -> pivots_nonzero 2 f.
Proof.
  intros [= H1 H2 H3 H4] L N1 N2. exists (fun k => match k with 0 => f | 1 => elim_step 0 0 f | _ => elim_step 1 1 (elim_step 0 0 f) end).
  split; [reflexivity|]. intros [|[|k]] Hk; [exists 0|exists 1|lia].
  - split; [|split; [now rewrite H1|reflexivity]]. split; [lia|]. split; [intros; lia|]. intros r Hr. assert (r = 1) as -> by lia. now rewrite H3, H1.
  - split; [|split; [|reflexivity]]; [split; [lia|]; split; intros; lia|].
    change (ssub (f 1 1) (smul (sdiv (f 0 1) (f 0 0)) (f 1 0)) <> s0). rewrite H1, H2, H3, H4. exact N2.
Qed.
Lemma two_study file m disp load : reduced_of file = Ret ((2, 2), m) -> (forall f : nat -> nat -> Qc_arith, [f 0 0; f 0 1; f 1 0; f 1 1] = m -> pivots_nonzero 2 f) ->
  disp_of file = Ret disp -> load_of file = Ret load ->
  exists a, bmsh_to_elas Qc_fmt file = Ret (Ok a) /\
    computed plain_hashes None a (map_to_list (ea_conc a)) (map_to_list (ea_line a)) disp /\
    calc_load a (map_to_list (ea_conc a)) (map_to_list (ea_line a)) = Ret load.
Proof.
  unfold reduced_of, disp_of, load_of. intros H P D L. destruct (bmsh_to_elas Qc_fmt file) as [[a|]| | |] eqn:Ea; try discriminate. exists a.
  cbn [mbind out_bind] in H, D, L. split; [reflexivity|]. split; [|exact L].
  split; [exact plain_hashes_ok|]. split; [exact (bmsh_built Qc_fmt _ _ Ea)|]. split.
  - left. split; [reflexivity|]. intros K t Kb n HK Ht HKb Hs.
    rewrite HK in H. cbn [mbind out_bind] in H. rewrite Ht in H. cbn [mbind out_bind] in H. rewrite HKb in H. cbn [mbind out_bind] in H.
    injection H as Hs' Hm. assert (n = 2) as -> by congruence. exact (P _ Hm).
  - eexists. split; [reflexivity|exact D].
Qed.
Lemma lean_frame : is_frame lean. Proof. split; [vm_refl|apply qc_neq; vm_refl]. Qed.
Definition fine_of (file : text) : out bool :=
  r ← bmsh_to_elas Qc_fmt file;
  match r with
  | Ok a => Ret (negb (seqb (ssub s1 (m_poisson (ea_mat a))) s0) && forallb (fun e => negb (seqb (twice_area e) s0)) (ea_elems a) &&
                 match ea_cond a with Axisymmetric => false | _ => true end)
  | Err _ => Panic
  end.
Lemma fine_spec f file a : bmsh_to_elas Qc_fmt file = Ret (Ok a) -> fine_of file = Ret true ->
  ssub s1 (m_poisson (ea_mat a)) <> s0 /\ (forall e, e ∈ ea_elems a -> twice_area e <> s0) /\ suits f (ea_cond a).
Proof.
  unfold fine_of. intros ->. cbn [mbind out_bind]. intros [= H]. apply andb_true_iff in H as [H H3]. apply andb_true_iff in H as [H1 H2].
  assert (Z : forall x : Qc_arith, negb (seqb x s0) = true -> x <> s0).
  { intros x Hx E. apply (fl_eqb Qc_arith (ol_field _ Qc_ord_laws)) in E. rewrite E in Hx. discriminate. }
  split; [now apply Z|]. split; [|now destruct (ea_cond a)]. intros e He. rewrite forallb_forall in H2. apply Z, H2. now apply elem_of_list_In.
Qed.
Lemma held_corners f file file' a b : bmsh_to_elas Qc_fmt file = Ret (Ok a) -> bmsh_to_elas Qc_fmt file' = Ret (Ok b) ->
  (p ← body_of file; Ret p.2) = Ret [XYFixed; XYFixed; Free] -> (p ← body_of file'; Ret p.2) = Ret [XYFixed; XYFixed; Free] ->
  Forall2 (turned_support f) (ea_cons a) (ea_cons b).
Proof.
  unfold body_of. intros -> ->. cbn [mbind out_bind snd]. intros [= ->] [= ->]. unfold turned_support.
  constructor; [tauto|]. constructor; [tauto|]. constructor; [tauto|constructor].
Qed.
Lemma lying_pivots (f : nat -> nat -> Qc_arith) : [f 0 0; f 0 1; f 1 0; f 1 1] = [qcd 1 4; qc 0; qc 0; qcd 1 2] -> pivots_nonzero 2 f.
Proof. intros H. apply (pivots_two f _ _ _ _ H); [unfold lts; vm_refl|apply qc_neq; vm_refl..]. Qed.
Lemma leaning_pivots (f : nat -> nat -> Qc_arith) : [f 0 0; f 0 1; f 1 0; f 1 1] = [qcd 41 100; qcd (-12) 100; qcd (-12) 100; qcd 34 100] -> pivots_nonzero 2 f.
Proof. intros H. apply (pivots_two f _ _ _ _ H); [unfold lts; vm_refl|apply qc_neq; vm_refl..]. Qed.

Definition lying_1 : text := (lying ["count 0"] ["count 1"; "0 2 6/8"])%string.
Definition leaning_1 : text := (leaning ["count 0"] ["count 1"; "0 2 -2.8/9.6"])%string.
Example C119_example : exists a b da db r r',
  is_frame lean /\ f_lam lean = qc 1 /\
  computed plain_hashes None a (map_to_list (ea_conc a)) (map_to_list (ea_line a)) da /\
  computed plain_hashes None b (map_to_list (ea_conc b)) (map_to_list (ea_line b)) db /\
  moved lean a b /\ suits lean (ea_cond a) /\ ssub s1 (m_poisson (ea_mat a)) <> s0 /\ (forall e, e ∈ ea_elems a -> twice_area e <> s0) /\
  Forall2 (turned_support lean) (ea_cons a) (ea_cons b) /\
  Forall2 (fun x y => y.1 = x.1 /\ turned_force lean x.2 y.2) (map_to_list (ea_conc a)) (map_to_list (ea_conc b)) /\
  Forall2 (fun x y => y.1 = x.1 /\ turned_force lean x.2 y.2) (map_to_list (ea_line a)) (map_to_list (ea_line b)) /\
  calc_load a (map_to_list (ea_conc a)) (map_to_list (ea_line a)) = Ret r /\ calc_load b (map_to_list (ea_conc b)) (map_to_list (ea_line b)) = Ret r' /\
  r = map qc [3; 4; 0; 0; 3; 4]%Z /\ r' = [qcd (-7) 5; qcd 24 5; qc 0; qc 0; qcd (-7) 5; qcd 24 5] /\
  map (fun p => (p_x p, p_y p)) da = [(qc 0, qc 0); (qc 0, qc 0); (qc 12, qc 8)] /\
  map (fun p => (p_x p, p_y p)) db = [(qc 0, qc 0); (qc 0, qc 0); (qcd 4 5, qcd 72 5)].
Proof.
  assert (Fa : (d ← disp_of lying_1; Ret (map (fun p => (p_x p, p_y p)) d)) = Ret [(qc 0, qc 0); (qc 0, qc 0); (qc 12, qc 8)]) by vm_refl.
  assert (Fb : (d ← disp_of leaning_1; Ret (map (fun p => (p_x p, p_y p)) d)) = Ret [(qc 0, qc 0); (qc 0, qc 0); (qcd 4 5, qcd 72 5)]) by vm_refl.
  apply bind_ret_inv in Fa as (da & Da & Fa). apply bind_ret_inv in Fb as (db & Db & Fb).
  destruct (two_study lying_1 [qcd 1 4; qc 0; qc 0; qcd 1 2] da (map qc [3; 4; 0; 0; 3; 4]%Z)) as (a & Ea & Ca & La); [vm_refl|exact lying_pivots|exact Da|vm_refl|].
  destruct (two_study leaning_1 [qcd 41 100; qcd (-12) 100; qcd (-12) 100; qcd 34 100] db [qcd (-7) 5; qcd 24 5; qc 0; qc 0; qcd (-7) 5; qcd 24 5]) as (b & Eb & Cb & Lb); [vm_refl|exact leaning_pivots|exact Db|vm_refl|].
  pose proof (same_spots lean _ _ a b Ea Eb ltac:(vm_refl)) as Hm. destruct (same_pushes lean _ _ a b Ea Eb ltac:(vm_refl)) as [P1 P2].
  destruct (fine_spec lean _ a Ea ltac:(vm_refl)) as (F1 & F2 & F3). pose proof (held_corners lean _ _ a b Ea Eb ltac:(vm_refl) ltac:(vm_refl)) as Hh.
  assert (RI : forall (X : Type) (x y : X), Ret x = Ret y -> x = y) by (intros X x y [=]; assumption). apply RI in Fa, Fb.
  exists a, b, da, db, (map qc [3; 4; 0; 0; 3; 4]%Z), [qcd (-7) 5; qcd 24 5; qc 0; qc 0; qcd (-7) 5; qcd 24 5]. split; [exact lean_frame|]. split; [reflexivity|]. repeat (split; [eassumption|]).
  split; [reflexivity|]. split; [reflexivity|]. split; [exact Fa|exact Fb].
Qed.

(** *** C120 — the equivalent stress: unchanged when the body is shifted, but not when it is
    turned (the plane formula, stress.rs:107-109, is not an invariant of the tensor) *)
Theorem C120_shift_partial (A : arith) (OL : ord_laws A) (Trig : forall th : A, sadd (smul (scos th) (scos th)) (smul (ssin th) (ssin th)) = s1)
  (f : frame A) (h : hashes A) name (a : elas A) oc ol disp (h' : hashes A) name' (b : elas A) oc' ol' disp' r r' :
  f_c f = s1 -> f_s f = s0 -> f_lam f = s1 -> computed h name a oc ol disp -> computed h' name' b oc' ol' disp' -> moved f a b -> suits f (ea_cond a) ->
  ssub s1 (m_poisson (ea_mat a)) <> s0 -> (forall e, e ∈ ea_elems a -> twice_area e <> s0) ->
  ea_cons b = ea_cons a -> calc_load a oc ol = Ret r -> calc_load b oc' ol' = Ret r' -> (forall i, i < node_count a * 2 -> vel r' i = vel r i) ->
  disp' = disp /\ ea_von_mises b disp' = ea_von_mises a disp.
Proof. exact (shifted_study OL Trig f h name a oc ol disp h' name' b oc' ol' disp' r r'). Qed.
Print Assumptions C120_shift_partial.
(** shear seen from a frame turned by the angle of the 3-4-5 triangle *)
Definition cauchy_turned (c s : R) (t t' : stress R_arith) : Prop :=
  let d i := nth i (st_data t) 0%R in let d' i := nth i (st_data t') 0%R in
  (d' 0%nat = c * c * d 0%nat - 2 * c * s * d 2%nat + s * s * d 1%nat /\
   d' 1%nat = s * s * d 0%nat + 2 * c * s * d 2%nat + c * c * d 1%nat /\
   d' 2%nat = c * s * (d 0%nat - d 1%nat) + (c * c - s * s) * d 2%nat)%R.
Theorem C120_stress_refuted : exists (c s : R) (t t' : stress R_arith), (c * c + s * s = 1)%R /\ st_type t = Plane /\ st_type t' = Plane /\
  cauchy_turned c s t t' /\ von_mises t <> von_mises t'.
Proof.
  exists (3/5)%R, (4/5)%R, (@Stress R_arith Plane [0; 0; 1; 0; 0; 0]%R), (@Stress R_arith Plane [-24/25; 24/25; -7/25; 0; 0; 0]%R).
  split; [lra|]. split; [reflexivity|]. split; [reflexivity|]. split; [unfold cauchy_turned; cbn; repeat split; lra|].
  unfold von_mises. cbn. intros E. apply sqrt_inj in E; unfold ssq in *; cbn in *; lra.
Qed.
Print Assumptions C120_stress_refuted.
(** all of C119 holds of these two files, which describe one pulled body in two frames, yet the
    command reports 10.39 for the one and 11.88 for the other *)
Definition lying_2 : text := (lying ["count 1"; "2 3/0"] ["count 0"])%string.
Definition leaning_2 : text := (leaning ["count 1"; "2 1.8/2.4"] ["count 0"])%string.
Theorem C120_refuted :
  (exists a b da db r r',
    bmsh_to_elas Qc_fmt lying_2 = Ret (Ok a) /\ bmsh_to_elas Qc_fmt leaning_2 = Ret (Ok b) /\
    is_frame lean /\ f_lam lean = qc 1 /\
    computed plain_hashes None a (map_to_list (ea_conc a)) (map_to_list (ea_line a)) da /\
    computed plain_hashes None b (map_to_list (ea_conc b)) (map_to_list (ea_line b)) db /\
    moved lean a b /\ suits lean (ea_cond a) /\ ssub s1 (m_poisson (ea_mat a)) <> s0 /\ (forall e, e ∈ ea_elems a -> twice_area e <> s0) /\
    Forall2 (turned_support lean) (ea_cons a) (ea_cons b) /\
    Forall2 (fun x y => y.1 = x.1 /\ turned_force lean x.2 y.2) (map_to_list (ea_conc a)) (map_to_list (ea_conc b)) /\
    Forall2 (fun x y => y.1 = x.1 /\ turned_force lean x.2 y.2) (map_to_list (ea_line a)) (map_to_list (ea_line b)) /\
    calc_load a (map_to_list (ea_conc a)) (map_to_list (ea_line a)) = Ret r /\ calc_load b (map_to_list (ea_conc b)) (map_to_list (ea_line b)) = Ret r') /\
  (exists v d, printed (file_study lying_2 []).1 = [(v, d)] /\ (file_study lying_2 []).2 = Ret (Ok tt) /\ PrimFloat.ltb v 10.4%float = true) /\
  (exists v d, printed (file_study leaning_2 []).1 = [(v, d)] /\ (file_study leaning_2 []).2 = Ret (Ok tt) /\ PrimFloat.ltb 11.8%float v = true).
Proof.
  split; [|split].
  - assert (Fa : (d ← disp_of lying_2; Ret (map (fun p => (p_x p, p_y p)) d)) = Ret [(qc 0, qc 0); (qc 0, qc 0); (qc 12, qc 0)]) by vm_refl.
    assert (Fb : (d ← disp_of leaning_2; Ret (map (fun p => (p_x p, p_y p)) d)) = Ret [(qc 0, qc 0); (qc 0, qc 0); (qcd 36 5, qcd 48 5)]) by vm_refl.
    apply bind_ret_inv in Fa as (da & Da & Fa). apply bind_ret_inv in Fb as (db & Db & Fb).
    destruct (two_study lying_2 [qcd 1 4; qc 0; qc 0; qcd 1 2] da (map qc [0; 0; 0; 0; 3; 0]%Z)) as (a & Ea & Ca & La); [vm_refl|exact lying_pivots|exact Da|vm_refl|].
    destruct (two_study leaning_2 [qcd 41 100; qcd (-12) 100; qcd (-12) 100; qcd 34 100] db [qc 0; qc 0; qc 0; qc 0; qcd 9 5; qcd 12 5]) as (b & Eb & Cb & Lb); [vm_refl|exact leaning_pivots|exact Db|vm_refl|].
    pose proof (same_spots lean _ _ a b Ea Eb ltac:(vm_refl)) as Hm. destruct (same_pushes lean _ _ a b Ea Eb ltac:(vm_refl)) as [P1 P2].
    destruct (fine_spec lean _ a Ea ltac:(vm_refl)) as (F1 & F2 & F3). pose proof (held_corners lean _ _ a b Ea Eb ltac:(vm_refl) ltac:(vm_refl)) as Hh.
    exists a, b, da, db, (map qc [0; 0; 0; 0; 3; 0]%Z), [qc 0; qc 0; qc 0; qc 0; qcd 9 5; qcd 12 5].
    split; [exact Ea|]. split; [exact Eb|]. split; [exact lean_frame|]. split; [reflexivity|]. repeat (split; [eassumption|]). exact Lb.
  - eexists _, _. split; [vm_refl|]. split; vm_refl.
  - eexists _, _. split; [vm_refl|]. split; vm_refl.
Qed.
Print Assumptions C120_refuted.
(** a shifted copy *)
Definition aside (forces lines : list string) : text := (bmsh_file ["count 3"; "0 2/1"; "1 3/1"; "2 2/2"] ["count 1"; "0 0/1/2"] ["count 2"; "0 xy"; "1 xy"]
  forces lines)%string.
Definition lying_3 : text := (lying ["count 1"; "2 1/1"] ["count 0"])%string.
Definition aside_3 : text := (aside ["count 1"; "2 1/1"] ["count 0"])%string.
Example C120_example : exists a b da db r,
  computed plain_hashes None a (map_to_list (ea_conc a)) (map_to_list (ea_line a)) da /\
  computed plain_hashes None b (map_to_list (ea_conc b)) (map_to_list (ea_line b)) db /\
  moved (Frame (qc 1) (qc 0) (qc 1) (qc 2) (qc 1)) a b /\ suits (Frame (qc 1) (qc 0) (qc 1) (qc 2) (qc 1)) (ea_cond a) /\
  ssub s1 (m_poisson (ea_mat a)) <> s0 /\ (forall e, e ∈ ea_elems a -> twice_area e <> s0) /\ ea_cons b = ea_cons a /\
  calc_load a (map_to_list (ea_conc a)) (map_to_list (ea_line a)) = Ret r /\ calc_load b (map_to_list (ea_conc b)) (map_to_list (ea_line b)) = Ret r /\
  ea_von_mises b db = Ret (map qc [4; 4; 4]%Z).
Proof.
  assert (Fa : (d ← disp_of lying_3; Ret (map (fun p => (p_x p, p_y p)) d)) = Ret [(qc 0, qc 0); (qc 0, qc 0); (qc 4, qc 2)]) by vm_refl.
  assert (Fb : (r ← bmsh_to_elas Qc_fmt aside_3; match r with Ok b => d ← disp_of aside_3; ea_von_mises b d | Err _ => Panic end) = Ret (map qc [4; 4; 4]%Z)) by vm_refl.
  apply bind_ret_inv in Fa as (da & Da & Fa). apply bind_ret_inv in Fb as ([b0|] & Eb0 & Fb); [|discriminate]. apply bind_ret_inv in Fb as (db & Db & Fb).
  destruct (two_study lying_3 [qcd 1 4; qc 0; qc 0; qcd 1 2] da (map qc [0; 0; 0; 0; 1; 1]%Z)) as (a & Ea & Ca & La); [vm_refl|exact lying_pivots|exact Da|vm_refl|].
  destruct (two_study aside_3 [qcd 1 4; qc 0; qc 0; qcd 1 2] db (map qc [0; 0; 0; 0; 1; 1]%Z)) as (b & Eb & Cb & Lb); [vm_refl|exact lying_pivots|exact Db|vm_refl|].
  assert (RI : forall (X : Type) (x y : X), Ret x = Ret y -> x = y) by (intros X x y [=]; assumption).
  assert (OI : forall (X Y : Type) (x y : X), @Ok Y X x = Ok y -> x = y) by (intros X Y x y [=]; assumption).
  rewrite Eb in Eb0. apply RI, OI in Eb0. subst b0.
  set (f := Frame (qc 1) (qc 0) (qc 1) (qc 2) (qc 1)).
  pose proof (same_spots f _ _ a b Ea Eb ltac:(vm_refl)) as Hm.
  destruct (fine_spec f _ a Ea ltac:(vm_refl)) as (F1 & F2 & F3).
  assert (Hh : ea_cons b = ea_cons a).
  { assert (H : (p ← body_of lying_3; Ret p.2) = (p ← body_of aside_3; Ret p.2)) by vm_refl. unfold body_of in H. rewrite Ea, Eb in H. cbn [mbind out_bind snd] in H. apply RI in H. symmetry. exact H. }
  exists a, b, da, db, (map qc [0; 0; 0; 0; 1; 1]%Z). repeat (split; [eassumption|]). exact Fb.
Qed.
