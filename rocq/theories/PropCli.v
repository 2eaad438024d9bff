(** C81 - C88: the commands. *)
From Coq Require Import Ascii String Floats Reals.
From Verif Require Import PlaneTop PlaneAsm FileProofs FileRound FileTop FileSound InstQc InstF64 InstR InstFile InstVis MeshEx StudyProofs CliProofs CliMesh CliStudy CliReal CliEx FileBnd.
From Verif Require Import Cli.
Local Close Scope R_scope.
Local Close Scope string_scope.
Local Open Scope nat_scope.
Local Open Scope list_scope.

(** *** C81 — files are chosen by their extension *)
Theorem C81_extension p e : extension p = Some e <-> has_extension p e.
Proof. exact (extension_spec p e). Qed.
Print Assumptions C81_extension.
Theorem C81_linear (A : arith) (nf : numfmt A) (ra : raster A) w h ar path : ar "INPUT"%string = Some path ->
  (forall l, Cli.linear nf ra w h ar = (l, Ret (Ok tt)) -> has_extension path (txt "bmsh") /\ exists t a, w_read w path = Some t /\ bmsh_to_elas nf t = Ret (Ok a)) /\
  (~ has_extension path (txt "bmsh") -> exists e, Cli.linear nf ra w h ar = ([], Ret (Err (FileErr e)))).
Proof.
  intros Hp. split.
  - intros l E. apply linear_ok in E as (path' & a & solver & disp & vm & max_vm & max_d & scale & vis & vals & nv & vis' & cm & size & show & im & H1 & H2 & _).
    assert (path' = path) as -> by congruence. apply read_to_elas_ext in H2 as (He & t & Ht & Hb). split; [now apply extension_spec|eauto].
  - intros He. destruct (read_to_elas_bad nf w path) as (e & E); [now rewrite extension_spec|]. exists e. exact (linear_bad nf ra w h ar path e Hp E).
Qed.
Print Assumptions C81_linear.
Theorem C81_modal (A : arith) (nf : numfmt A) (ra : raster A) w h fl fi fs rnd ar path : ar "INPUT"%string = Some path ->
  (forall l, Cli.modal nf ra w h fl fi fs rnd ar = (l, Ret (Ok tt)) -> has_extension path (txt "bmsh") /\ exists t a, w_read w path = Some t /\ bmsh_to_elas nf t = Ret (Ok a)) /\
  (~ has_extension path (txt "bmsh") -> exists e, Cli.modal nf ra w h fl fi fs rnd ar = ([], Ret (Err (FileErr e)))).
Proof.
  intros Hp. split.
  - intros l E. apply modal_ok in E as (path' & a & s & num & dfms & scale & H1 & H2 & _).
    assert (path' = path) as -> by congruence. apply read_to_elas_ext in H2 as (He & t & Ht & Hb). split; [now apply extension_spec|eauto].
  - intros He. destruct (read_to_elas_bad nf w path) as (e & E); [now rewrite extension_spec|]. exists e. exact (modal_bad nf ra w h fl fi fs rnd ar path e Hp E).
Qed.
Print Assumptions C81_modal.
Theorem C81_mesh (A : arith) (nf : numfmt A) (ra : raster A) (g : geo A) w h fuel ar path : ar "INPUT"%string = Some path ->
  (forall l, Cli.mesh nf ra g w h fuel ar = (l, Ret (Ok tt)) -> has_extension path (txt "bbnd") /\ exists t b, w_read w path = Some t /\ bbnd_to_bounds nf g t = Ret (Ok b)) /\
  (~ has_extension path (txt "bbnd") -> exists e, Cli.mesh nf ra g w h fuel ar = ([], Ret (Err (FileErr e)))).
Proof.
  intros Hp. split.
  - intros l E. apply CliProofs.mesh_ok in E as (path' & b & s & size & m & st & vis & isz & im & a & t & H1 & H2 & _).
    assert (path' = path) as -> by congruence. apply read_to_bound_ext in H2 as (He & t' & Ht & Hb). split; [now apply extension_spec|eauto].
  - intros He. destruct (read_to_bound_bad nf g w path) as (e & E); [now rewrite extension_spec|]. exists e. exact (mesh_bad nf ra g w h fuel ar path e Hp E).
Qed.
Print Assumptions C81_mesh.
Example C81_example : has_extension (txt "dir.d/a.b.bmsh/./") (txt "bmsh") /\ ~ has_extension (txt ".bmsh") (txt "bmsh") /\
  ~ has_extension (txt "a.bmsh/..") (txt "bmsh") /\ has_extension (txt "a.") [].
Proof. rewrite <- !extension_spec. repeat split; vm_compute; congruence. Qed.

(** *** C82 — a reported error leaves nothing behind.  False of the mesh command: a boundary
    without material is meshed and its picture saved before the error. *)
Definition square_bbnd (mat : list string) : text := lines (map list_ascii_of_string
  (["polygon"; "0 0 a"; "1 0 b"; "1 1 c"; "0 1 d"; "end"; "condition planestress 1"] ++ mat ++
   ["distributed_force b c 1 0"; "distributed_constraint d a xy"]))%string.
Definition mesh_args : args := given [("INPUT", "dir/a.bbnd"); ("imsize", "40"); ("elementsize", "0.6")]%string.
Definition mesh_of (mat : list string) := Cli.mesh F64_fmt F64_raster f64_geo (disk [("dir/a.bbnd", square_bbnd mat)]%string) plain_hashes 100 mesh_args.
Theorem C82_mesh_refuted : exists im, mesh_of [] = ([SavedImage (txt "out.png") 40 im], Ret (Err NoMaterial)).
Proof.
  assert (H : match mesh_of [] with ([SavedImage p n _], r) => bool_decide (p = txt "out.png") && (n =? 40)%Z && match r with Ret (Err NoMaterial) => true | _ => false end | _ => false end = true) by vm_refl.
  destruct (mesh_of []) as [[|[p n im| | |] [|]] [[?|[| |]]| | |]]; try discriminate; cbn in H; try (rewrite ?andb_false_r in H; discriminate).
  exists im. apply andb_prop in H as [H _]. apply andb_prop in H as [H1 H2]. apply bool_decide_eq_true in H1 as ->. apply Z.eqb_eq in H2 as ->. reflexivity.
Qed.
Print Assumptions C82_mesh_refuted.
Theorem C82_linear (A : arith) (nf : numfmt A) (ra : raster A) w h ar l e : Cli.linear nf ra w h ar = (l, Ret (Err e)) -> l = [].
Proof. exact (linear_err nf ra w h ar l e). Qed.
Print Assumptions C82_linear.
Theorem C82_modal (A : arith) (nf : numfmt A) (ra : raster A) w h fl fi fs rnd ar l e : Cli.modal nf ra w h fl fi fs rnd ar = (l, Ret (Err e)) -> l = [].
Proof. exact (modal_err nf ra w h fl fi fs rnd ar l e). Qed.
Print Assumptions C82_modal.
(** apart from that case the mesh command leaves nothing behind either, and even then no mesh *)
Theorem C82_mesh_partial (A : arith) (nf : numfmt A) (ra : raster A) (g : geo A) w h fuel ar l e : Cli.mesh nf ra g w h fuel ar = (l, Ret (Err e)) ->
  l = [] \/ e = NoMaterial /\ (exists path b, ar "INPUT"%string = Some path /\ read_to_bound nf g w path = Ret (Ok b)) /\ exists p n im, l = [SavedImage p n im].
Proof.
  intros E. apply mesh_err in E as [->|(-> & path & b & s & size & m & st & isz & im & H1 & H2 & _ & _ & _ & _ & _ & ->)]; [now left|right].
  split; [reflexivity|]. split; [eauto|]. eauto.
Qed.
Print Assumptions C82_mesh_partial.
(** errors do occur: a misspelt colour map is noticed after the solution is known *)
Definition one_triangle : text := (bmsh_file ["count 3"; "0 0/0"; "1 1/0"; "2 0/1"] ["count 1"; "0 0/1/2"] ["count 2"; "0 xy"; "1 xy"]
  ["count 1"; "2 3/4"] ["count 0"])%string.
Definition study_args (more : list (string * string)) : args := given ([("INPUT", "a.bmsh"); ("imsize", "40")]%string ++ more).
Example C82_example :
  Cli.linear Qc_fmt Qc_raster (disk [("a.bmsh"%string, one_triangle)]) plain_hashes (study_args [("colormap", "green")]%string) = ([], Ret (Err (ArgError "colormap"))).
Proof. vm_refl. Qed.

(** *** C83 — the linear study reports the maxima of the equilibrium solution *)
Theorem C83_linear (A : arith) (OL : ord_laws A) (Trig : forall th : A, sadd (smul (scos th) (scos th)) (smul (ssin th) (ssin th)) = s1)
  (nf : numfmt A) (ra : raster A) w h ar l : hashes_ok h -> Cli.linear nf ra w h ar = (l, Ret (Ok tt)) ->
  exists path file a disp vm size im max_vm max_d,
    ar "INPUT"%string = Some path /\ w_read w path = Some file /\ bmsh_to_elas nf file = Ret (Ok a) /\ ea_built a /\
    ea_von_mises a disp = Ret vm /\ length disp = node_count a /\
    l = [SavedImage (default (txt "out.png") (ar "out"%string)) size im; PrintMax max_vm max_d] /\
    max_vm ∈ vm /\ (forall x, x ∈ vm -> les x max_vm) /\
    max_d ∈ map pt_norm disp /\ (forall p, p ∈ disp -> les (pt_norm p) max_d) /\
    (applies h (ar "solver"%string) a -> the_solution a (h_conc h (ea_conc a)) (h_line h (ea_line a)) disp).
Proof. exact (linear_prints nf ra OL Trig w h ar l). Qed.
Print Assumptions C83_linear.
Theorem C83_real (nf : numfmt R_arith) (ra : raster R_arith) w h ar l : hashes_ok h -> Cli.linear nf ra w h ar = (l, Ret (Ok tt)) ->
  exists path file a disp vm size im max_vm max_d,
    ar "INPUT"%string = Some path /\ w_read w path = Some file /\ bmsh_to_elas nf file = Ret (Ok a) /\ ea_built a /\
    ea_von_mises a disp = Ret vm /\ length disp = node_count a /\
    l = [SavedImage (default (txt "out.png") (ar "out"%string)) size im; PrintMax max_vm max_d] /\
    max_vm ∈ vm /\ (forall x : R, x ∈ vm -> (x <= max_vm)%R) /\
    max_d ∈ map pt_norm disp /\ (forall p, p ∈ disp -> (pt_norm p <= max_d)%R) /\
    ((default (txt "densegauss") (ar "solver"%string) = txt "densegauss" /\ reduced_pivots (h_k h) a \/
      default (txt "densegauss") (ar "solver"%string) = txt "cholesky" /\ held a) ->
     the_solution a (h_conc h (ea_conc a)) (h_line h (ea_line a)) disp).
Proof. exact (linear_prints_R nf ra w h ar l). Qed.
Print Assumptions C83_real.
(** a triangle held at two corners, pulled at the third *)
Definition one_study := Cli.linear Qc_fmt Qc_raster (disk [("a.bmsh"%string, one_triangle)]) plain_hashes (study_args []).
Example C83_example :
  map (fun e => match e with PrintMax v d => Some (v, d) | _ => None end) one_study.1 = [None; Some (qc 13, qc 14)] /\ one_study.2 = Ret (Ok tt) /\
  exists a, bmsh_to_elas Qc_fmt one_triangle = Ret (Ok a) /\ reduced_pivots plain_hashes.(h_k) a.
Proof.
  split; [vm_refl|]. split; [vm_refl|].
  assert (H : (r ← bmsh_to_elas Qc_fmt one_triangle;
     match r with
     | Ok a => K ← ea_calc_k a; t ← from_constraints (ea_cons a); Kb ← bar_matrix plain_hashes.(h_k) 0 t K;
               Ret (d_shape Kb, [el Kb 0 0; el Kb 0 1; el Kb 1 0; el Kb 1 1])
     | Err _ => Panic
     end) = Ret ((2, 2), [qcd 1 4; qc 0; qc 0; qcd 1 2])) by vm_refl.
  apply bind_ret_inv in H as ([a|] & Ea & H); [|discriminate]. exists a. split; [exact Ea|]. intros K t Kb n HK Ht HKb Hs.
  rewrite HK in H. cbn [mbind out_bind] in H. rewrite Ht in H. cbn [mbind out_bind] in H. rewrite HKb in H. cbn [mbind out_bind] in H.
  injection H as Hs' H00 H01 H10 H11. assert (n = 2) as -> by congruence. exact (pivots_example _ H00 H01 H10 H11).
Qed.

(** *** C84 — a saved mesh can be analysed *)
Theorem C84_ordered (A : arith) (OL : ord_laws A) (nf : numfmt A) fin (ok : numfmt_ok nf fin) (ra : raster A) (g : geo A) w h fuel ar l :
  hashes_ok h -> Cli.mesh nf ra g w h fuel ar = (l, Ret (Ok tt)) ->
  let out := default (txt "out.bmsh") (ar "meshout"%string) in
  exists st a t, mesh_state g st /\ assemble_of h st = Ret (Some a) /\ ea_built a /\ last l = Some (SavedFile out t) /\
    (finite_numbers fin a -> countable_size a -> has_extension out (txt "bmsh") ->
     forall w', w_read w' out = Some t -> read_to_elas nf w' out = Ret (Ok (read_back nf a)) /\
       forall h' ar' l' e, ar' "INPUT"%string = Some out ->
         Cli.linear nf ra w' h' ar' <> (l', Ret (Err (FileErr e))) /\
         forall fl fi fs rnd, Cli.modal nf ra w' h' fl fi fs rnd ar' <> (l', Ret (Err (FileErr e)))).
Proof.
  intros Hh E out. destruct (mesh_reads nf ra g w h fuel ar l fin ok Hh E) as (st & a & t & H1 & H2 & H3 & H4 & H5).
  exists st, a, t. repeat (split; [assumption|]). intros Hf Hc He w' Hw.
  assert (Hr : read_to_elas nf w' out = Ret (Ok (read_back nf a))).
  { apply H5; [exact Hf|exact Hc| |now apply extension_spec|exact Hw]. intros e _. apply (sound_ord OL), rd_planar. }
  split; [exact Hr|]. intros h' ar' l' e Hi. split.
  - intros H. exact (linear_no_file_error nf ra w' h' ar' l' e _ _ Hi Hr H).
  - intros fl fi fs rnd H. exact (modal_no_file_error nf ra w' h' fl fi fs rnd ar' l' e _ _ Hi Hr H).
Qed.
Print Assumptions C84_ordered.
Theorem C84_binary64 (ra : raster F64_arith) (g : geo F64_arith) w h fuel ar l :
  hashes_ok h -> Cli.mesh F64_fmt ra g w h fuel ar = (l, Ret (Ok tt)) ->
  let out := default (txt "out.bmsh") (ar "meshout"%string) in
  exists st a t, mesh_state g st /\ assemble_of h st = Ret (Some a) /\ ea_built a /\ last l = Some (SavedFile out t) /\
    (finite_numbers (fun x => f64_odd x = None) a -> countable_size a ->
     (forall e, e ∈ ea_elems a -> PrimFloat.eqb (ElemMore.e_det (rd_elem F64_fmt e)) (ElemMore.e_det (rd_elem F64_fmt e)) = true) ->
     has_extension out (txt "bmsh") ->
     forall w', w_read w' out = Some t -> read_to_elas F64_fmt w' out = Ret (Ok (read_back F64_fmt a)) /\
       forall h' ar' l' e, ar' "INPUT"%string = Some out ->
         Cli.linear F64_fmt ra w' h' ar' <> (l', Ret (Err (FileErr e))) /\
         forall fl fi fs rnd, Cli.modal F64_fmt ra w' h' fl fi fs rnd ar' <> (l', Ret (Err (FileErr e)))).
Proof.
  intros Hh E out. destruct (mesh_reads F64_fmt ra g w h fuel ar l _ F64_fmt_ok Hh E) as (st & a & t & H1 & H2 & H3 & H4 & H5).
  exists st, a, t. repeat (split; [assumption|]). intros Hf Hc Hd He w' Hw.
  assert (Hr : read_to_elas F64_fmt w' out = Ret (Ok (read_back F64_fmt a))).
  { apply H5; [exact Hf|exact Hc| |now apply extension_spec|exact Hw]. intros e Hin. apply sound_f64; [apply rd_planar|apply Hd, Hin]. }
  split; [exact Hr|]. intros h' ar' l' e Hi. split.
  - intros H. exact (linear_no_file_error F64_fmt ra w' h' ar' l' e _ _ Hi Hr H).
  - intros fl fi fs rnd H. exact (modal_no_file_error F64_fmt ra w' h' fl fi fs rnd ar' l' e _ _ Hi Hr H).
Qed.
Print Assumptions C84_binary64.
(** the square is meshed into four triangles; the saved file is analysed *)
Definition saved (l : list (effect F64_arith)) : text := match last l with Some (SavedFile _ t) => t | _ => [] end.
Definition square_study (h : hashes F64_arith) : list (effect F64_arith) * out (result cli_error unit) :=
  Cli.linear F64_fmt F64_raster (disk [("out.bmsh"%string, saved (mesh_of ["material TEST"%string]).1)]) h (given [("INPUT", "out.bmsh"); ("imsize", "40")]%string).
Example C84_example : (mesh_of ["material TEST"%string]).2 = Ret (Ok tt) /\ (square_study plain_hashes).2 = Ret (Ok tt) /\
  (r ← bmsh_to_elas F64_fmt (saved (mesh_of ["material TEST"%string]).1);
   match r with Ok a => Ret (map e_ids (ea_elems a), ea_cons a, map_to_list (ea_line a)) | Err _ => Panic end) =
  Ret ([(0, 3, 4); (0, 1, 2); (0, 4, 1); (0, 2, 3)], [Free; XYFixed; Free; Free; XYFixed], [((2, 3), pt2 (fl 1) (fl 0))]) /\
  (let b := mesh_of ["material TEST"%string] in
   forallb (fun c => bool_decide (c ∈ saved b.1)) (txt "$EndDistForces")) = true.
Proof. repeat apply conj; vm_refl. Qed.

(** *** C85 — results do not change from run to run.  False: of two loaded edges with a common
    node, the one visited later wins. *)
Definition two_edges : text := (bmsh_file ["count 4"; "0 0/0"; "1 1/0"; "2 1/1"; "3 0/1"] ["count 2"; "0 0/1/2"; "1 0/2/3"] ["count 2"; "0 xy"; "1 xy"]
  ["count 0"] ["count 2"; "1 2 1/0"; "2 3 0/1"])%string.
Definition two_study (h : hashes F64_arith) := Cli.linear F64_fmt F64_raster (disk [("a.bmsh"%string, two_edges)]) h (study_args []).
Theorem C85_refuted : exists h h' : hashes F64_arith, hashes_ok h /\ hashes_ok h' /\
  (two_study h).2 = Ret (Ok tt) /\ (two_study h').2 = Ret (Ok tt) /\
  last (two_study h).1 = Some (PrintMax (fl 1) (fl 1)) /\
  exists v d, last (two_study h').1 = Some (PrintMax v d) /\ PrimFloat.ltb (fl 1.25) v = true /\ PrimFloat.ltb (fl 1.875) d = true.
Proof.
  exists plain_hashes, other_hashes. split; [apply plain_hashes_ok|]. split; [apply other_hashes_ok|].
  split; [vm_refl|]. split; [vm_refl|]. split; [vm_refl|].
  assert (H : match last (two_study other_hashes).1 with Some (PrintMax v d) => PrimFloat.ltb (fl 1.25) v && PrimFloat.ltb (fl 1.875) d | _ => false end = true) by vm_refl.
  destruct (last (two_study other_hashes).1) as [[| |v d|]|]; try discriminate. apply andb_prop in H as [H1 H2]. eauto.
Qed.
Print Assumptions C85_refuted.
(** in exact arithmetic, and if no two loaded edges belong to elements with a common node, any
    hash orders, either direct solver and any other options give the same result *)
Theorem C85_partial (A : arith) (OL : ord_laws A) (Trig : forall th : A, sadd (smul (scos th) (scos th)) (smul (ssin th) (ssin th)) = s1)
  (nf : numfmt A) (ra : raster A) w h ar l h' ar' l' path file a : hashes_ok h -> hashes_ok h' ->
  ar "INPUT"%string = Some path -> ar' "INPUT"%string = Some path -> w_read w path = Some file -> bmsh_to_elas nf file = Ret (Ok a) ->
  applies h (ar "solver"%string) a -> applies h' (ar' "solver"%string) a -> apart a ->
  Cli.linear nf ra w h ar = (l, Ret (Ok tt)) -> Cli.linear nf ra w h' ar' = (l', Ret (Ok tt)) -> last l = last l'.
Proof. exact (linear_twice nf ra OL Trig w h ar l h' ar' l' path file a). Qed.
Print Assumptions C85_partial.
(** the loads themselves do not depend on the orders, in any arithmetic *)
Theorem C85_load_partial (A : arith) (a : elas A) oc oc' ol ol' : oc ≡ₚ map_to_list (ea_conc a) -> oc' ≡ₚ map_to_list (ea_conc a) ->
  ol ≡ₚ map_to_list (ea_line a) -> ol' ≡ₚ map_to_list (ea_line a) -> apart a ->
  forall r, calc_load a oc ol = Ret r -> calc_load a oc' ol' = Ret r.
Proof. exact (load_order a oc oc' ol ol'). Qed.
Print Assumptions C85_load_partial.
Example C85_example : exists a, bmsh_to_elas Qc_fmt one_triangle = Ret (Ok a) /\ apart a /\
  one_study.2 = Ret (Ok tt) /\
  (Cli.linear Qc_fmt Qc_raster (disk [("a.bmsh"%string, one_triangle)]) other_hashes (study_args [("scale", "2")]%string)).2 = Ret (Ok tt).
Proof.
  assert (H : (r ← bmsh_to_elas Qc_fmt one_triangle; match r with Ok a => Ret (map_to_list (ea_line a)) | Err _ => Panic end) = Ret []) by vm_refl.
  apply bind_ret_inv in H as ([a|] & Ea & H); [|discriminate]. exists a. split; [exact Ea|]. split; [|split; vm_refl].
  injection H as H. intros nm nm' [f Hf] _ _. apply elem_of_map_to_list in Hf. rewrite H in Hf. now apply elem_of_nil in Hf.
Qed.

(** *** C86 — picture options do not change the result *)
Theorem C86_options (A : arith) (nf : numfmt A) (ra ra' : raster A) w w' h ar ar' l l' path :
  ar "INPUT"%string = Some path -> ar' "INPUT"%string = Some path -> w_read w path = w_read w' path -> ar "solver"%string = ar' "solver"%string ->
  Cli.linear nf ra w h ar = (l, Ret (Ok tt)) -> Cli.linear nf ra' w' h ar' = (l', Ret (Ok tt)) ->
  exists im im' v d, l = [im; PrintMax v d] /\ l' = [im'; PrintMax v d].
Proof. exact (linear_same nf ra ra' w w' h ar ar' l l' path). Qed.
Print Assumptions C86_options.
Example C86_example : let run more := Cli.linear Qc_fmt Qc_raster (disk [("a.bmsh"%string, one_triangle)]) plain_hashes (study_args more) in
  let more := [("scale", "0.25"); ("nodevalue", "vonmises"); ("colormap", "rgb"); ("showmesh", "false"); ("out", "b.png")]%string in
  (run []).2 = Ret (Ok tt) /\ (run more).2 = Ret (Ok tt) /\ bool_decide (map (fun e => match e with SavedImage p _ _ => p | _ => [] end) (run more).1 = [txt "b.png"; []]) = true.
Proof. repeat apply conj; vm_refl. Qed.

(** *** C87 — one picture and one line per mode *)
Theorem C87_modal (A : arith) (nf : numfmt A) (ra : raster A) w h fl fi fs rnd ar l : Cli.modal nf ra w h fl fi fs rnd ar = (l, Ret (Ok tt)) ->
  exists path a s num, ar "INPUT"%string = Some path /\ read_to_elas nf w path = Ret (Ok a) /\ ar "NUM"%string = Some s /\ uint_text (2 ^ 64) s (N.of_nat num) /\
  exists t k kb m mb sys es s' (ps : list (epair A)), from_constraints (ea_cons a) = Ret t /\
    ea_calc_k a = Ret k /\ bar_matrix (h_k h) 0 t k = Ret kb /\ ea_calc_m a = Ret m /\ bar_matrix (h_k h) 6 t m = Ret mb /\
    from_km (fun k => d_nzs (h_k h 12 (d_data k))) (fun m => d_nzs (h_k h 13 (d_data m))) kb mb = Ret sys /\ eigen_new (h_sys h) sys = Ret es /\ find_eigens fl fi fs num rnd (searcher_new es) = Ret (s', ps) /\ length ps = num /\
    exists ims : list (Z * list (pix * rgb)), length ims = num /\
      l = concat (map (fun i => match ims !! i, ps !! i with
                                | Some im, Some p => [SavedImage (mode_path i) im.1 im.2; PrintMode i (ssqrt (ep_value p))]
                                | _, _ => []
                                end) (seq 0 num)).
Proof. exact (modal_prints nf ra w h fl fi fs rnd ar l). Qed.
Print Assumptions C87_modal.
Theorem C87_names i j : mode_path i = mode_path j -> i = j.
Proof. exact (mode_path_inj i j). Qed.
Print Assumptions C87_names.
Definition square_mesh : text := (bmsh_file ["count 4"; "0 0/0"; "1 1/0"; "2 1/1"; "3 0/1"] ["count 2"; "0 0/1/2"; "1 0/2/3"] ["count 2"; "0 xy"; "1 xy"]
  ["count 0"] ["count 0"])%string.
Example C87_example :
  let r := Cli.modal F64_fmt F64_raster (disk [("a.bmsh"%string, square_mesh)]) plain_hashes 5 50 50 (map fl [0.25; 0.75; 0.125; 0.875]%float) (study_args [("NUM", "2")]%string) in
  r.2 = Ret (Ok tt) /\
  map (fun e : effect F64_arith => match e with SavedImage p _ _ => (p, false) | PrintMode i f => (show_nat i, PrimFloat.ltb f (fl 1.5)) | _ => ([], false) end) r.1 =
  [(txt "out_00.png", false); (txt "0", true); (txt "out_01.png", false); (txt "1", false)].
Proof. split; vm_refl. Qed.

(** *** C88 — invalid options are rejected.  False of the modal command asked for no modes: the
    options of the pictures are not looked at. *)
Theorem C88_refuted : Cli.modal Qc_fmt Qc_raster (disk [("a.bmsh"%string, square_mesh)]) plain_hashes 0 0 0 []
    (study_args [("NUM", "0"); ("colormap", "green"); ("showmesh", "maybe")]%string) = ([], Ret (Ok tt)) /\
  ~ one_of ["hot"; "rgb"]%string (Some (txt "green")) /\ ~ is_bool (txt "maybe").
Proof.
  split; [vm_refl|]. split; [|intros [H|H]; discriminate].
  intros [H|(s & Hs & H)]; [discriminate|]. injection H as H. repeat (apply elem_of_cons in Hs as [->|Hs]; [discriminate H|]). now apply elem_of_nil in Hs.
Qed.
Print Assumptions C88_refuted.
Theorem C88_linear (A : arith) (nf : numfmt A) (ra : raster A) w h ar l : Cli.linear nf ra w h ar = (l, Ret (Ok tt)) ->
  one_of ["densegauss"; "cholesky"; "gaussseidel"]%string (ar "solver"%string) /\ one_of ["displacement"; "vonmises"]%string (ar "nodevalue"%string) /\
  one_of ["hot"; "rgb"]%string (ar "colormap"%string) /\ text_of is_u32 (ar "imsize"%string) /\ text_of is_bool (ar "showmesh"%string) /\
  text_of (is_num nf) (ar "scale"%string).
Proof. exact (linear_options nf ra w h ar l). Qed.
Print Assumptions C88_linear.
Theorem C88_mesh (A : arith) (nf : numfmt A) (ra : raster A) (g : geo A) w h fuel ar l : Cli.mesh nf ra g w h fuel ar = (l, Ret (Ok tt)) ->
  one_of ["chew"; "ruppert"]%string (ar "mesher"%string) /\ text_of is_u32 (ar "imsize"%string) /\
  exists s, ar "elementsize"%string = Some s /\ is_num nf s.
Proof. exact (mesh_options nf ra g w h fuel ar l). Qed.
Print Assumptions C88_mesh.
Theorem C88_modal_partial (A : arith) (nf : numfmt A) (ra : raster A) w h fl fi fs rnd ar l : Cli.modal nf ra w h fl fi fs rnd ar = (l, Ret (Ok tt)) ->
  exists s num, ar "NUM"%string = Some s /\ uint_text (2 ^ 64) s (N.of_nat num) /\ text_of (is_num nf) (ar "scale"%string) /\
  (0 < num -> one_of ["hot"; "rgb"]%string (ar "colormap"%string) /\ text_of is_u32 (ar "imsize"%string) /\ text_of is_bool (ar "showmesh"%string)).
Proof. exact (modal_options nf ra w h fl fi fs rnd ar l). Qed.
Print Assumptions C88_modal_partial.
(** what counts as a number *)
Example C88_example : is_u32 (txt "+0040") /\ ~ is_u32 (txt "4294967296") /\ ~ is_u32 (txt "-1") /\ ~ is_u32 (txt "+") /\ ~ is_u32 (txt "") /\
  is_num Qc_fmt (txt "-1.5e3") /\ ~ is_num Qc_fmt (txt "1.5.").
Proof.
  assert (K : forall s, parse_u32 s = None -> ~ is_u32 s).
  { intros s H (n & Hn). apply parse_uint_spec in Hn. unfold parse_u32 in H. congruence. }
  split; [exists 40%N; apply parse_uint_spec; reflexivity|]. repeat (split; [apply K; reflexivity|]).
  split; [eexists; vm_compute; reflexivity|]. intros (x & Hx). assert (H : nf_read Qc_fmt (txt "1.5.") = None) by vm_refl. congruence.
Qed.
