(** C118: the energy theorems of linear elasticity. *)
From Coq Require Import Ascii String Reals.
From Verif Require Import PropCli PropHeld InstQc InstR InstFile StudyProofs CliProofs CliMesh CliStudy CliReal CliEx HeldProofs EnergyProofs EigTop.
From Verif Require Import Cli.
Local Close Scope R_scope.
Local Close Scope string_scope.
Local Open Scope nat_scope.
Local Open Scope list_scope.

(** *** C118 — the computed displacements have the least potential energy *)
Theorem C118_least (A : arith) (OL : ord_laws A) (Trig : forall th : A, sadd (smul (scos th) (scos th)) (smul (ssin th) (ssin th)) = s1)
  (h : hashes A) name (a : elas A) oc ol disp :
  computed h name a oc ol disp -> (forall e, e ∈ ea_elems a -> ccw e /\ thick e) -> admissible (ea_cond a) (ea_mat a) ->
  exists K r, ea_calc_k a = Ret K /\ calc_load a oc ol = Ret r /\ respects (ea_cons a) (flat_disp disp) /\
    forall u, respects (ea_cons a) u ->
      les (potential (node_count a * 2) (el K) (vel r) (flat_disp disp)) (potential (node_count a * 2) (el K) (vel r) u) /\
      (held a -> (exists i, i < node_count a * 2 /\ u i <> flat_disp disp i) ->
         lts (potential (node_count a * 2) (el K) (vel r) (flat_disp disp)) (potential (node_count a * 2) (el K) (vel r) u)).
Proof. intros H H1 H2. exact (least_potential OL Trig h name a oc ol disp H (conj H1 H2)). Qed.
Print Assumptions C118_least.
Theorem C118_real (h : hashes R_arith) name (a : elas R_arith) oc ol disp :
  computed h name a oc ol disp -> (forall e, e ∈ ea_elems a -> ccw e /\ thick e) -> admissible (ea_cond a) (ea_mat a) ->
  exists K r, ea_calc_k a = Ret K /\ calc_load a oc ol = Ret r /\ respects (ea_cons a) (flat_disp disp) /\
    forall u : nat -> R, respects (A := R_arith) (ea_cons a) u ->
      (potential (A := R_arith) (node_count a * 2) (el K) (vel r) (flat_disp disp) <= potential (A := R_arith) (node_count a * 2) (el K) (vel r) u)%R.
Proof.
  intros H H1 H2. destruct (C118_least R_arith R_ord_laws R_trig h name a oc ol disp H H1 H2) as (K & r & EK & Er & Hr & Hu).
  exists K, r. repeat (split; [assumption|]). intros u Hu'. apply les_R. exact (proj1 (Hu u Hu')).
Qed.
Print Assumptions C118_real.
(** the work of the load is what is stored, and is not negative *)
Theorem C118_work (A : arith) (OL : ord_laws A) (Trig : forall th : A, sadd (smul (scos th) (scos th)) (smul (ssin th) (ssin th)) = s1)
  (h : hashes A) name (a : elas A) oc ol disp : computed h name a oc ol disp ->
  exists K r, ea_calc_k a = Ret K /\ calc_load a oc ol = Ret r /\
    work (node_count a * 2) (mv (node_count a * 2) (el K) (flat_disp disp)) (flat_disp disp) = work (node_count a * 2) (vel r) (flat_disp disp) /\
    ((forall e, e ∈ ea_elems a -> ccw e /\ thick e) /\ admissible (ea_cond a) (ea_mat a) ->
     les s0 (work (node_count a * 2) (vel r) (flat_disp disp))).
Proof. exact (work_stored OL Trig h name a oc ol disp). Qed.
Print Assumptions C118_work.
(** two loads on one body each do the same work on the displacements of the other *)
Theorem C118_reciprocal (A : arith) (OL : ord_laws A) (Trig : forall th : A, sadd (smul (scos th) (scos th)) (smul (ssin th) (ssin th)) = s1)
  (h : hashes A) name (a : elas A) oc ol disp (h' : hashes A) name' (b : elas A) oc' ol' disp' :
  computed h name a oc ol disp -> computed h' name' b oc' ol' disp' -> same_body a b -> ea_cons a = ea_cons b ->
  exists r r', calc_load a oc ol = Ret r /\ calc_load b oc' ol' = Ret r' /\
    work (node_count a * 2) (vel r) (flat_disp disp') = work (node_count a * 2) (vel r') (flat_disp disp).
Proof. exact (reciprocal OL Trig h name a oc ol disp h' name' b oc' ol' disp'). Qed.
Print Assumptions C118_reciprocal.
(** displacements superpose as loads do *)
Theorem C118_superpose (A : arith) (OL : ord_laws A) (Trig : forall th : A, sadd (smul (scos th) (scos th)) (smul (ssin th) (ssin th)) = s1)
  (h : hashes A) name (a : elas A) oc ol disp (h1 : hashes A) name1 (a1 : elas A) oc1 ol1 disp1 (h2 : hashes A) name2 (a2 : elas A) oc2 ol2 disp2 c1 c2 r r1 r2 :
  computed h name a oc ol disp -> computed h1 name1 a1 oc1 ol1 disp1 -> computed h2 name2 a2 oc2 ol2 disp2 ->
  same_body a a1 -> same_body a a2 -> ea_cons a = ea_cons a1 -> ea_cons a = ea_cons a2 ->
  calc_load a oc ol = Ret r -> calc_load a1 oc1 ol1 = Ret r1 -> calc_load a2 oc2 ol2 = Ret r2 ->
  (forall i, i < node_count a * 2 -> vel r i = sadd (smul c1 (vel r1 i)) (smul c2 (vel r2 i))) ->
  forall i, i < node_count a * 2 -> flat_disp disp i = sadd (smul c1 (flat_disp disp1 i)) (smul c2 (flat_disp disp2 i)).
Proof. exact (superposed OL Trig h name a oc ol disp h1 name1 a1 oc1 ol1 disp1 h2 name2 a2 oc2 ol2 disp2 c1 c2 r r1 r2). Qed.
Print Assumptions C118_superpose.
(** under the same load, a body held by more supports yields less *)
Theorem C118_supports (A : arith) (OL : ord_laws A) (Trig : forall th : A, sadd (smul (scos th) (scos th)) (smul (ssin th) (ssin th)) = s1)
  (h : hashes A) name (a : elas A) oc ol disp (h' : hashes A) name' (b : elas A) oc' ol' disp' r :
  computed h name a oc ol disp -> computed h' name' b oc' ol' disp' -> same_body a b -> at_least_held (ea_cons a) (ea_cons b) ->
  calc_load a oc ol = Ret r -> calc_load b oc' ol' = Ret r -> (forall e, e ∈ ea_elems a -> ccw e /\ thick e) -> admissible (ea_cond a) (ea_mat a) ->
  les (work (node_count a * 2) (vel r) (flat_disp disp')) (work (node_count a * 2) (vel r) (flat_disp disp)).
Proof. intros H1 H2 H3 H4 H5 H6 H7 H8. exact (more_supports OL Trig h name a oc ol disp h' name' b oc' ol' disp' r H1 H2 H3 H4 H5 H6 (conj H7 H8)). Qed.
Print Assumptions C118_supports.

(** a triangle held at two corners, pulled at the third; and the same triangle also held
    sideways there *)
Definition pulled (force : string) : text := (bmsh_file ["count 3"; "0 0/0"; "1 1/0"; "2 0/1"] ["count 1"; "0 0/1/2"] ["count 2"; "0 xy"; "1 xy"]
  ["count 1"; force] ["count 0"])%string.
Definition guided : text := (bmsh_file ["count 3"; "0 0/0"; "1 1/0"; "2 0/1"] ["count 1"; "0 0/1/2"] ["count 3"; "0 xy"; "1 xy"; "2 x"]
  ["count 1"; "2 3/4"] ["count 0"])%string.
Definition disp_of (file : text) : out (list (point Qc_arith)) :=
  r ← bmsh_to_elas Qc_fmt file;
  match r with Ok a => calc_displacements plain_hashes.(h_k) (map_to_list (ea_conc a)) (map_to_list (ea_line a)) (@dense_gauss Qc_arith) a | Err _ => Panic end.
Definition load_of (file : text) : out (list Qc_arith) :=
  r ← bmsh_to_elas Qc_fmt file;
  match r with Ok a => calc_load a (map_to_list (ea_conc a)) (map_to_list (ea_line a)) | Err _ => Panic end.
Definition body_of (file : text) : out _ :=
  r ← bmsh_to_elas Qc_fmt file;
  match r with Ok a => Ret (mesh_b a, (ea_nodes a, ea_elems a, ea_cond a, ea_mat a), ea_cons a) | Err _ => Panic end.
Definition reduced_of (file : text) : out (nat * nat * list Qc_arith) :=
  r ← bmsh_to_elas Qc_fmt file;
  match r with
  | Ok a => K ← ea_calc_k a; t ← from_constraints (ea_cons a); Kb ← bar_matrix plain_hashes.(h_k) 0 t K;
            Ret (d_shape Kb, [el Kb 0 0; el Kb 0 1; el Kb 1 0; el Kb 1 1])
  | Err _ => Panic
  end.
Lemma pulled_study force disp load : reduced_of (pulled force) = Ret ((2, 2), [qcd 1 4; qc 0; qc 0; qcd 1 2]) ->
  disp_of (pulled force) = Ret disp -> load_of (pulled force) = Ret load ->
  exists a, bmsh_to_elas Qc_fmt (pulled force) = Ret (Ok a) /\
    computed plain_hashes None a (map_to_list (ea_conc a)) (map_to_list (ea_line a)) disp /\
    calc_load a (map_to_list (ea_conc a)) (map_to_list (ea_line a)) = Ret load.
Proof.
  unfold reduced_of, disp_of, load_of. intros H D L. destruct (bmsh_to_elas Qc_fmt (pulled force)) as [[a|]| | |] eqn:Ea; try discriminate. exists a.
  cbn [mbind out_bind] in H, D, L. split; [reflexivity|]. split; [|exact L].
  split; [exact plain_hashes_ok|]. split; [exact (bmsh_built Qc_fmt _ _ Ea)|]. split.
  - left. split; [reflexivity|]. intros K t Kb n HK Ht HKb Hs.
    rewrite HK in H. cbn [mbind out_bind] in H. rewrite Ht in H. cbn [mbind out_bind] in H. rewrite HKb in H. cbn [mbind out_bind] in H.
    injection H as Hs' H00 H01 H10 H11. assert (n = 2) as -> by congruence. exact (pivots_example _ H00 H01 H10 H11).
  - eexists. split; [reflexivity|exact D].
Qed.
Lemma same_files file file' a b : bmsh_to_elas Qc_fmt file = Ret (Ok a) -> bmsh_to_elas Qc_fmt file' = Ret (Ok b) ->
  body_of file = body_of file' -> same_body a b /\ ea_cons a = ea_cons b.
Proof.
  unfold body_of. intros -> ->. cbn [mbind out_bind]. intros [= _ H1 H2 H3 H4 H5]. repeat split; assumption.
Qed.
Lemma fine_file file a : bmsh_to_elas Qc_fmt file = Ret (Ok a) -> (p ← body_of file; Ret p.1.1) = Ret true ->
  (forall e, e ∈ ea_elems a -> ccw e /\ thick e) /\ admissible (ea_cond a) (ea_mat a).
Proof.
  unfold body_of. intros ->. cbn [mbind out_bind]. intros [= H]. apply mesh_b_spec in H as (_ & H & Ha). split; [|exact Ha].
  intros e He. destruct (H e He). split; [assumption|]. apply (solid_thick Qc_ord_laws); assumption.
Qed.
Example C118_example : exists a b c da db dc,
  computed plain_hashes None a (map_to_list (ea_conc a)) (map_to_list (ea_line a)) da /\
  computed plain_hashes None b (map_to_list (ea_conc b)) (map_to_list (ea_line b)) db /\
  computed plain_hashes None c (map_to_list (ea_conc c)) (map_to_list (ea_line c)) dc /\
  same_body a b /\ same_body a c /\ ea_cons a = ea_cons b /\ ea_cons a = ea_cons c /\
  (forall e, e ∈ ea_elems a -> ccw e /\ thick e) /\ admissible (ea_cond a) (ea_mat a) /\
  calc_load a (map_to_list (ea_conc a)) (map_to_list (ea_line a)) = Ret (map qc [0; 0; 0; 0; 3; 4]%Z) /\
  calc_load b (map_to_list (ea_conc b)) (map_to_list (ea_line b)) = Ret (map qc [0; 0; 0; 0; 1; 0]%Z) /\
  calc_load c (map_to_list (ea_conc c)) (map_to_list (ea_line c)) = Ret (map qc [0; 0; 0; 0; 0; 1]%Z) /\
  map (fun p => (p_x p, p_y p)) da = [(qc 0, qc 0); (qc 0, qc 0); (qc 12, qc 8)] /\
  map (fun p => (p_x p, p_y p)) db = [(qc 0, qc 0); (qc 0, qc 0); (qc 4, qc 0)] /\
  map (fun p => (p_x p, p_y p)) dc = [(qc 0, qc 0); (qc 0, qc 0); (qc 0, qc 2)].
Proof.
  assert (exists da, disp_of (pulled "2 3/4") = Ret da /\ map (fun p => (p_x p, p_y p)) da = [(qc 0, qc 0); (qc 0, qc 0); (qc 12, qc 8)]) as (da & Da & Va).
  { assert (F : (d ← disp_of (pulled "2 3/4"); Ret (map (fun p => (p_x p, p_y p)) d)) = Ret [(qc 0, qc 0); (qc 0, qc 0); (qc 12, qc 8)]) by vm_refl.
    apply bind_ret_inv in F as (d & -> & F). exists d. split; [reflexivity|congruence]. }
  assert (exists da, disp_of (pulled "2 1/0") = Ret da /\ map (fun p => (p_x p, p_y p)) da = [(qc 0, qc 0); (qc 0, qc 0); (qc 4, qc 0)]) as (db & Db & Vb).
  { assert (F : (d ← disp_of (pulled "2 1/0"); Ret (map (fun p => (p_x p, p_y p)) d)) = Ret [(qc 0, qc 0); (qc 0, qc 0); (qc 4, qc 0)]) by vm_refl.
    apply bind_ret_inv in F as (d & -> & F). exists d. split; [reflexivity|congruence]. }
  assert (exists da, disp_of (pulled "2 0/1") = Ret da /\ map (fun p => (p_x p, p_y p)) da = [(qc 0, qc 0); (qc 0, qc 0); (qc 0, qc 2)]) as (dc & Dc & Vc).
  { assert (F : (d ← disp_of (pulled "2 0/1"); Ret (map (fun p => (p_x p, p_y p)) d)) = Ret [(qc 0, qc 0); (qc 0, qc 0); (qc 0, qc 2)]) by vm_refl.
    apply bind_ret_inv in F as (d & -> & F). exists d. split; [reflexivity|congruence]. }
  destruct (pulled_study "2 3/4" da (map qc [0; 0; 0; 0; 3; 4]%Z)) as (a & Ea & Ca & La); [vm_refl|exact Da|vm_refl|].
  destruct (pulled_study "2 1/0" db (map qc [0; 0; 0; 0; 1; 0]%Z)) as (b & Eb & Cb & Lb); [vm_refl|exact Db|vm_refl|].
  destruct (pulled_study "2 0/1" dc (map qc [0; 0; 0; 0; 0; 1]%Z)) as (c & Ec & Cc & Lc); [vm_refl|exact Dc|vm_refl|].
  destruct (same_files _ _ a b Ea Eb) as [S1 K1]; [vm_refl|]. destruct (same_files _ _ a c Ea Ec) as [S2 K2]; [vm_refl|].
  destruct (fine_file _ a Ea) as [F1 F2]; [vm_refl|]. exists a, b, c, da, db, dc. auto 20.
Qed.
(** held sideways too, the corner does not move sideways: the work falls from 68 to 32 *)
Lemma pivots_one (f : nat -> nat -> Qc_arith) : f 0 0 = qcd 1 2 -> pivots_nonzero 1 f.
Proof.
  intros H. exists (fun k => match k with 0 => f | _ => elim_step 0 0 f end). split; [reflexivity|].
  intros [|k] Hk; [|lia]. exists 0. split; [|split; [|reflexivity]].
  - split; [lia|]. split; intros; lia.
  - rewrite H. apply qc_neq. vm_refl.
Qed.
Lemma more_held : at_least_held (A := Qc_arith) [XYFixed; XYFixed; Free] [XYFixed; XYFixed; XFixed].
Proof.
  intros v H [|[|[|n]]] c E; cbn in E; try injection E as <-; try discriminate; [exact (H 0 XYFixed eq_refl)|exact (H 1 XYFixed eq_refl)|exact I].
Qed.
Lemma guided_study file a disp load : bmsh_to_elas Qc_fmt file = Ret (Ok a) ->
  (r ← bmsh_to_elas Qc_fmt file;
   match r with
   | Ok a => K ← ea_calc_k a; t ← from_constraints (ea_cons a); Kb ← bar_matrix plain_hashes.(h_k) 0 t K; Ret (d_shape Kb, el Kb 0 0)
   | Err _ => Panic
   end) = Ret ((1, 1), qcd 1 2) -> disp_of file = Ret disp -> load_of file = Ret load ->
  computed plain_hashes None a (map_to_list (ea_conc a)) (map_to_list (ea_line a)) disp /\
  calc_load a (map_to_list (ea_conc a)) (map_to_list (ea_line a)) = Ret load.
Proof.
  unfold disp_of, load_of. intros Ea. rewrite Ea. cbn [mbind out_bind]. intros H D L. split; [|exact L].
  split; [exact plain_hashes_ok|]. split; [exact (bmsh_built Qc_fmt _ _ Ea)|]. split.
  - left. split; [reflexivity|]. intros K t Kb n HK Ht HKb Hs.
    rewrite HK in H. cbn [mbind out_bind] in H. rewrite Ht in H. cbn [mbind out_bind] in H. rewrite HKb in H. cbn [mbind out_bind] in H.
    injection H as Hs' H00. assert (n = 1) as -> by congruence. exact (pivots_one _ H00).
  - eexists. split; [reflexivity|exact D].
Qed.
Example C118_guided : exists a b da db r,
  computed plain_hashes None a (map_to_list (ea_conc a)) (map_to_list (ea_line a)) da /\
  computed plain_hashes None b (map_to_list (ea_conc b)) (map_to_list (ea_line b)) db /\
  same_body a b /\ at_least_held (ea_cons a) (ea_cons b) /\
  calc_load a (map_to_list (ea_conc a)) (map_to_list (ea_line a)) = Ret r /\
  calc_load b (map_to_list (ea_conc b)) (map_to_list (ea_line b)) = Ret r /\
  (forall e, e ∈ ea_elems a -> ccw e /\ thick e) /\ admissible (ea_cond a) (ea_mat a) /\
  work (node_count a * 2) (vel r) (flat_disp da) = qc 68 /\ work (node_count a * 2) (vel r) (flat_disp db) = qc 32.
Proof.
  assert (W : (d ← disp_of (pulled "2 3/4"); r ← load_of (pulled "2 3/4"); Ret (work 6 (vel r) (flat_disp d))) = Ret (qc 68)) by vm_refl.
  assert (W' : (d ← disp_of guided; r ← load_of guided; Ret (work 6 (vel r) (flat_disp d))) = Ret (qc 32)) by vm_refl.
  apply bind_ret_inv in W as (da & Da & W). apply bind_ret_inv in W as (r & Lr & W).
  apply bind_ret_inv in W' as (db & Db & W'). apply bind_ret_inv in W' as (r' & Lr' & W').
  assert (r' = r) as ->. { assert (Q : load_of guided = load_of (pulled "2 3/4")) by vm_refl. congruence. }
  destruct (pulled_study "2 3/4" da r) as (a & Ea & Ca & La); [vm_refl|exact Da|exact Lr|].
  assert (Eb : (r ← bmsh_to_elas Qc_fmt guided; match r with Ok _ => Ret tt | Err _ => Panic end) = Ret tt) by vm_refl.
  apply bind_ret_inv in Eb as ([b|] & Eb & X); [clear X|discriminate].
  destruct (guided_study guided b db r Eb) as (Cb & Lb); [vm_refl|exact Db|exact Lr'|].
  assert (B : (p ← body_of guided; Ret (p.1.2, p.2)) = (p ← body_of (pulled "2 3/4"); Ret (p.1.2, [XYFixed; XYFixed; XFixed]))) by vm_refl.
  assert (B' : (p ← body_of (pulled "2 3/4"); Ret p.2) = Ret [XYFixed; XYFixed; Free]) by vm_refl.
  assert (N : (p ← body_of (pulled "2 3/4"); Ret (length p.1.2.1.1.1)) = Ret 3) by vm_refl.
  destruct (fine_file _ a Ea) as [F1 F2]; [vm_refl|].
  unfold body_of in B, B', N. rewrite Eb, Ea in B. rewrite Ea in B', N. cbn [mbind out_bind fst snd] in B, B', N.
  injection B as B1 B2 B3 B4 B5. injection B' as B'. injection N as N.
  exists a, b, da, db, r. split; [exact Ca|]. split; [exact Cb|].
  split; [clear - B1 B2 B3 B4; repeat split; congruence|]. split.
  { rewrite B', B5. exact more_held. }
  split; [exact La|]. split; [exact Lb|]. split; [exact F1|]. split; [exact F2|]. unfold node_count. rewrite N. clear - W W'. change (3 * 2) with 6. split; congruence.
Qed.
