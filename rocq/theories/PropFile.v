(** C68 - C70, C79, C80, C113: files. *)
From Coq Require Import Ascii String Floats QArith Qcanon Qabs.
From Verif Require Import FileBnd FileExact FileSound InstFile InstQc InstF64 MeshEx.
Local Close Scope Q_scope.
Local Close Scope Qc_scope.
Local Close Scope string_scope.
Local Open Scope nat_scope.
Local Open Scope list_scope.

(** *** C68 — an assemblage written to the mesh format and read back is the same assemblage with
    every number replaced by what its decimals say ([read_back]).  [nf] is any way of printing and
    reading numbers in which finite numbers print as decimal literals.  First over any ordered
    field, then in binary64, where the one thing that can go wrong is a rounded triangle whose
    area is not a number; then in any arithmetic whose reader takes the rounded triangles. *)
Theorem C68_round_trip (A : arith) (OL : ord_laws A) nf fin (ok : numfmt_ok nf fin) (a : elas A) oc ol :
  ea_built a -> writable fin a -> oc ≡ₚ map_to_list (ea_conc a) -> ol ≡ₚ map_to_list (ea_line a) ->
  exists t, elas_to_bmsh nf oc ol a = Ret t /\ bmsh_to_elas nf t = Ret (Ok (read_back nf a)).
Proof.
  intros Hb Hw Hc Hl. apply (round_trip nf fin ok); [apply ea_built_ok, Hb|exact Hw|exact Hc|exact Hl|].
  intros e _. apply (sound_ord OL), rd_planar.
Qed.
Print Assumptions C68_round_trip.
Theorem C68_binary64 (a : elas F64_arith) oc ol :
  ea_built a -> writable (fun x => f64_odd x = None) a -> oc ≡ₚ map_to_list (ea_conc a) -> ol ≡ₚ map_to_list (ea_line a) ->
  (forall e, e ∈ ea_elems a -> PrimFloat.eqb (ElemMore.e_det (rd_elem F64_fmt e)) (ElemMore.e_det (rd_elem F64_fmt e)) = true) ->
  exists t, elas_to_bmsh F64_fmt oc ol a = Ret t /\ bmsh_to_elas F64_fmt t = Ret (Ok (read_back F64_fmt a)).
Proof.
  intros Hb Hw Hc Hl He. apply (round_trip F64_fmt _ F64_fmt_ok); [apply ea_built_ok, Hb|exact Hw|exact Hc|exact Hl|].
  intros e Hin. apply sound_f64; [apply rd_planar|apply He, Hin].
Qed.
Print Assumptions C68_binary64.
Theorem C68_any (A : arith) nf fin (ok : numfmt_ok nf fin) (a : elas A) oc ol :
  ea_built a -> writable fin a -> oc ≡ₚ map_to_list (ea_conc a) -> ol ≡ₚ map_to_list (ea_line a) ->
  (forall e, e ∈ ea_elems a -> sound (rd_elem nf e)) ->
  exists t, elas_to_bmsh nf oc ol a = Ret t /\ bmsh_to_elas nf t = Ret (Ok (read_back nf a)).
Proof. intros Hb. apply (round_trip nf fin ok), ea_built_ok, Hb. Qed.
Print Assumptions C68_any.
(** two triangles with supports and both kinds of loads; the node at 1/3 is read back as 0.333333,
    the load of 1/3 as 0.333 *)
Definition ex_ops : list (ea_op Qc_arith) :=
  [ANodes [pt2 (qc 0) (qc 0); pt2 (qc 1) (qc 0); pt2 (qc 1) (qc 1); pt2 (qc 0) (qcd 1 3)];
   AElement (0, 1, 2); AElement (0, 2, 3); ASupport 0 XYFixed; ASupport 3 XFixed; ASupport 1 (AngleFixed (qcd 3 2));
   AConc 2 (pt2 (qcd 1 3) (qc (-2))); AConc 1 (pt2 (qc 5) (qc 0)); ALine 1 2 (pt2 (qcd 1 2000) (qc 7))].
Definition ex_mesh : out (elas Qc_arith) := foldM ea_step ex_ops (ea_new TEST (PlaneStress (qcd 1 8))).
Example C68_example : exists a, ex_mesh = Ret a /\ ea_built a /\ writable (fun _ => True) a /\
  (t ← elas_to_bmsh Qc_fmt (map_to_list (ea_conc a)) (map_to_list (ea_line a)) a;
   r ← bmsh_to_elas Qc_fmt t;
   match r with
   | Ok b => Ret (map (fun p => (p_x p, p_y p)) (ea_nodes b), map e_ids (ea_elems b), ea_conc b !! 2, ea_cons b)
   | Err _ => Panic
   end) = Ret ([(qc 0, qc 0); (qc 1, qc 0); (qc 1, qc 1); (qc 0, qcd 333333 1000000)], [(0, 1, 2); (0, 2, 3)],
     Some (pt2 (qcd 333 1000) (qc (-2))), [XYFixed; AngleFixed (qcd 3 2); Free; XFixed]).
Proof.
  assert (H : (a ← ex_mesh; Ret (@material_from_str Qc_arith (m_name (ea_mat a)), ea_mat a, map (@p_n _) (ea_nodes a), map_to_list (ea_conc a), map_to_list (ea_line a), length (ea_elems a))) =
    Ret (Some TEST, TEST, [2; 2; 2; 2], [(1, pt2 (qc 5) (qc 0)); (2, pt2 (qcd 1 3) (qc (-2)))], [((1, 2), pt2 (qcd 1 2000) (qc 7))], 2)) by vm_refl.
  apply bind_ret_inv in H as (a & Ea & H). exists a. split; [exact Ea|]. split; [eexists _, _, _; exact Ea|].
  injection H as H1 H2 H3 H4 H5 H6. split.
  - assert (Ln : length (ea_nodes a) = 4) by (rewrite <- (map_length (@p_n _)), H3; reflexivity).
    constructor.
    + congruence.
    + destruct (ea_cond a); exact I.
    + apply Forall_forall. intros p Hp. split; [|split; exact I].
      assert (In : p_n p ∈ map (@p_n _) (ea_nodes a)) by (apply elem_of_list_In, in_map, elem_of_list_In, Hp).
      rewrite H3 in In. apply elem_of_list_In in In. cbn in In. lia.
    + apply Forall_forall. intros c _. destruct c; exact I.
    + intros n f Hf. apply elem_of_map_to_list in Hf. rewrite H4 in Hf. apply elem_of_list_In in Hf. rewrite Ln.
      destruct Hf as [E|[E|[]]]; injection E as <- <-; (split; [lia|]); (split; [cbn; lia|split; exact I]).
    + intros n f Hf. apply elem_of_map_to_list in Hf. rewrite H5 in Hf. apply elem_of_list_In in Hf. rewrite Ln.
      destruct Hf as [E|[]]; injection E as <- <-. cbn [fst snd]. split; [lia|]. split; [lia|]. split; [cbn; lia|split; exact I].
    + assert (Sc : size (ea_conc a) = 2) by (unfold size, map_size; rewrite H4; reflexivity).
      assert (Sl : size (ea_line a) = 1) by (unfold size, map_size; rewrite H5; reflexivity).
      rewrite Ln, Sc, Sl, H6. repeat split.
  - assert (G : (a ← ex_mesh; t ← elas_to_bmsh Qc_fmt (map_to_list (ea_conc a)) (map_to_list (ea_line a)) a;
      r ← bmsh_to_elas Qc_fmt t;
      match r with
      | Ok b => Ret (map (fun p => (p_x p, p_y p)) (ea_nodes b), map e_ids (ea_elems b), ea_conc b !! 2, ea_cons b)
      | Err _ => Panic
      end) = Ret ([(qc 0, qc 0); (qc 1, qc 0); (qc 1, qc 1); (qc 0, qcd 333333 1000000)], [(0, 1, 2); (0, 2, 3)],
        Some (pt2 (qcd 333 1000) (qc (-2))), [XYFixed; AngleFixed (qcd 3 2); Free; XFixed])) by vm_refl.
    rewrite Ea in G. exact G.
Qed.

(** *** C69 — the numbers are not preserved: coordinates keep six decimals, loads three and the
    thickness five.  Witnesses in binary64: a part in units of metres with a node 1e-7 m away from
    the axis, a load of 1e-4 and a thickness of 1e-6 all read back as zero. *)
Definition small_mesh : out (elas F64_arith) := foldM ea_step
  [ANodes [pt2 (fl 0) (fl 0); pt2 (fl 1) (fl 0); pt2 (fl 0x1p-24) (fl 1)]; AElement (0, 1, 2); AConc 1 (pt2 (fl 0x1p-14) (fl 0))]
  (ea_new AL6061 (PlaneStress (fl 0x1p-20))).
Theorem C69_refuted : exists a t b, ea_built a /\ (forall e, e ∈ ea_nodes a -> p_n e = 2) /\
  elas_to_bmsh F64_fmt (map_to_list (ea_conc a)) (map_to_list (ea_line a)) a = Ret t /\ bmsh_to_elas F64_fmt t = Ret (Ok b) /\
  map (@p_x _) (ea_nodes a) = [fl 0; fl 1; fl 0x1p-24] /\ map (@p_x _) (ea_nodes b) = [fl 0; fl 1; fl 0] /\
  (@p_x _ <$> (ea_conc a !! 1)) = Some (fl 0x1p-14) /\ (@p_x _ <$> (ea_conc b !! 1)) = Some (fl 0) /\
  ea_cond a = PlaneStress (fl 0x1p-20) /\ ea_cond b = PlaneStress (fl 0).
Proof.
  assert (H : (a ← small_mesh; t ← elas_to_bmsh F64_fmt (map_to_list (ea_conc a)) (map_to_list (ea_line a)) a; r ← bmsh_to_elas F64_fmt t;
    match r with
    | Ok b => Ret (map (@p_x _) (ea_nodes a), map (@p_x _) (ea_nodes b), (@p_x _ <$> (ea_conc a !! 1)), (@p_x _ <$> (ea_conc b !! 1)),
         ea_cond a, ea_cond b, map (@p_n _) (ea_nodes a))
    | Err _ => Panic
    end) = Ret ([fl 0; fl 1; fl 0x1p-24], [fl 0; fl 1; fl 0], Some (fl 0x1p-14), Some (fl 0), PlaneStress (fl 0x1p-20), PlaneStress (fl 0), [2; 2; 2]))
    by vm_refl.
  apply bind_ret_inv in H as (a & Ea & H). apply bind_ret_inv in H as (t & Et & H). apply bind_ret_inv in H as (r & Er & H).
  destruct r as [b|]; [|discriminate]. exists a, t, b. injection H as H1 H2 H3 H4 H5 H6 H7.
  split; [eexists _, _, _; exact Ea|]. split.
  { intros p Hp. assert (In : p_n p ∈ map (@p_n _) (ea_nodes a)) by (apply elem_of_list_In, in_map, elem_of_list_In, Hp).
    rewrite H7 in In. apply elem_of_list_In in In. cbn in In. lia. }
  auto 10.
Qed.
Print Assumptions C69_refuted.
(** assemblages whose numbers are all written in full come back unchanged *)
Theorem C69_partial (A : arith) (OL : ord_laws A) nf fin (ok : numfmt_ok nf fin) (a : elas A) oc ol :
  ea_built a -> writable fin a -> keeps nf a -> oc ≡ₚ map_to_list (ea_conc a) -> ol ≡ₚ map_to_list (ea_line a) ->
  exists t, elas_to_bmsh nf oc ol a = Ret t /\ bmsh_to_elas nf t = Ret (Ok a).
Proof.
  intros Hb Hw Hk Hc Hl. destruct (C68_round_trip A OL nf fin ok a oc ol Hb Hw Hc Hl) as (t & E1 & E2).
  exists t. split; [exact E1|]. rewrite E2, kept_back; [reflexivity|apply ea_built_ok, Hb|exact Hk].
Qed.
Print Assumptions C69_partial.
(** on the rationals: how far off a number can be, and which numbers are written in full *)
Theorem C69_error_partial k (x : Qc_arith) : 0 < k ->
  (Qabs (this (rnd Qc_fmt k x) - this x) <= 1 # 2 * 10 ^ Pos.of_nat k)%Q /\
  (forall z, (this x == z # 10 ^ Pos.of_nat k)%Q -> rnd Qc_fmt k x = x).
Proof. intros Hk. split; [apply qc_rnd_close, Hk|]. intros z. apply qc_rnd_exact, Hk. Qed.
Print Assumptions C69_error_partial.
Example C69_example : rnd Qc_fmt 3 (qcd 1 3) = qcd 333 1000 /\ rnd Qc_fmt 3 (qcd (-7) 8) = qcd (-7) 8 /\ rnd Qc_fmt 6 (qcd 1 10000000) = qc 0.
Proof. split; [|split]; vm_refl. Qed.

(** *** C70 — a mesh file with wrong counts or numbers is rejected.  An accepted file has right
    counts and numbers ([consistent]), so an inconsistent one is never accepted: reading it gives
    an error or panics.  A file whose lines are otherwise well formed gives an error. *)
Theorem C70_accepted (A : arith) (nf : numfmt A) file a : bmsh_to_elas nf file = Ret (Ok a) ->
  consistent file (length (ea_nodes a)) (length (ea_elems a)).
Proof. exact (accepted_consistent nf file a). Qed.
Print Assumptions C70_accepted.
Theorem C70_inconsistent_partial (A : arith) (nf : numfmt A) file : (forall n m, ~ consistent file n m) ->
  bmsh_to_elas nf file = Ret (Err tt) \/ bmsh_to_elas nf file = Panic.
Proof. exact (inconsistent_refused nf file). Qed.
Print Assumptions C70_inconsistent_partial.
Theorem C70_rejected_partial (A : arith) (nf : numfmt A) file dn ns de es dc cs df fs dd ds :
  wf_file nf file dn ns de es dc cs df fs dd ds ->
  ~ (right_numbers ((txt "count " ++ dn) :: ns) /\ right_numbers ((txt "count " ++ de) :: es) /\
     right_count ((txt "count " ++ dc) :: cs) /\ right_count ((txt "count " ++ df) :: fs) /\ right_count ((txt "count " ++ dd) :: ds)) ->
  bmsh_to_elas nf file = Ret (Err tt).
Proof. exact (wf_rejected nf file dn ns de es dc cs df fs dd ds). Qed.
Print Assumptions C70_rejected_partial.
Definition mesh_text (nodes elems cons : list string) : text :=
  unl (map list_ascii_of_string (["$Header"; "version 1"; "material TEST"; "condition planestress 1"; "$EndHeader"; ""; "$Nodes"] ++ nodes ++
    ["$EndNodes"; "# elements"; "$Elements"] ++ elems ++ ["$EndElements"; "$Constraints"] ++ cons ++
    ["$EndConstraints"; "$Forces"; "count 1"; "1 2/0"; "$EndForces"; "$DistForces"; "count 0"; "$EndDistForces"]))%string.
Definition good_nodes : list string := ["count 3"; "0 0/0"; "1 1/0.0"; "2 0/1"]%string.
(** the full statement is false: a wrong count beside a bad line panics *)
Theorem C70_refuted : exists file, (forall n m, ~ consistent file n m) /\ bmsh_to_elas Qc_fmt file = Panic.
Proof.
  exists (mesh_text ["count 7"; "0 0/0/0/0"] ["count 1"; "0 0/1/2"] ["count 0"])%string. split.
  - intros n m (h & ns & es & cs & fs & ds & rest & E & Hh & Hn & _).
    destruct h as [|h1 [|h2 [|h3 [|h4 h]]]]; try discriminate. clear Hh.
    change (file_lines (mesh_text ["count 7"; "0 0/0/0/0"] ["count 1"; "0 0/1/2"] ["count 0"])%string) with
      (map list_ascii_of_string ["$Header"; "version 1"; "material TEST"; "condition planestress 1"; "$EndHeader"; "$Nodes"; "count 7"; "0 0/0/0/0";
        "$EndNodes"; "$Elements"; "count 1"; "0 0/1/2"; "$EndElements"; "$Constraints"; "count 0"; "$EndConstraints"; "$Forces"; "count 1"; "1 2/0";
        "$EndForces"; "$DistForces"; "count 0"; "$EndDistForces"]%string) in E.
    destruct Hn as (d & ls & -> & (Nd & Dd & Vd) & _). unfold sect in E. cbn [app map] in E. injection E as _ _ _ Ed E.
    assert (d = txt "7") as ->.
    { symmetry. exact Ed. }
    change (dval (txt "7")) with 7%N in Vd. assert (L : length ls = 7) by lia.
    do 7 (destruct ls as [|? ls]; [discriminate L|]). cbn [app] in E. injection E as E1 E2 E3 E4 E5 E6 E7 E8.
    destruct ls; [|discriminate L]. cbn [app] in E8. discriminate E8.
  - vm_refl.
Qed.
Print Assumptions C70_refuted.
(** a good file is accepted; with one count or one number wrong it gives an error *)
Example C70_example :
  (r ← bmsh_to_elas Qc_fmt (mesh_text good_nodes ["count 1"; "0 0/1/2"]%string ["count 2"; "0 xy"; "1 angle:0.5"]%string);
   match r with Ok a => Ret (length (ea_nodes a), length (ea_elems a), ea_cons a) | Err _ => Panic end) = Ret (3, 1, [XYFixed; AngleFixed (qcd 1 2); Free]) /\
  bmsh_to_elas Qc_fmt (mesh_text ["count 4"; "0 0/0"; "1 1/0.0"; "2 0/1"]%string ["count 1"; "0 0/1/2"]%string ["count 0"]%string) = Ret (Err tt) /\
  bmsh_to_elas Qc_fmt (mesh_text ["count 3"; "0 0/0"; "2 1/0.0"; "1 0/1"]%string ["count 1"; "0 0/1/2"]%string ["count 0"]%string) = Ret (Err tt) /\
  bmsh_to_elas Qc_fmt (mesh_text good_nodes ["count 1"; "1 0/1/2"]%string ["count 0"]%string) = Ret (Err tt).
Proof. repeat apply conj; vm_refl. Qed.

(** the second of these files meets the hypotheses of C70_rejected_partial *)
Example C70_wf : let t := map txt in
  wf_file Qc_fmt (mesh_text ["count 4"; "0 0/0"; "1 1/0"; "2 0/1"] ["count 1"; "0 0/1/2"] ["count 0"])%string
    (txt "4") (t ["0 0/0"; "1 1/0"; "2 0/1"]%string) (txt "1") (t ["0 0/1/2"]%string) (txt "0") [] (txt "1") (t ["1 2/0"]%string) (txt "0") [] /\
  ~ right_numbers ((txt "count " ++ txt "4") :: t ["0 0/0"; "1 1/0"; "2 0/1"]%string).
Proof.
  assert (N0 : num_text Qc_fmt (txt "0")) by (split; [apply (lit_check false); [discriminate|reflexivity]|eexists; vm_compute; reflexivity]).
  assert (N1 : num_text Qc_fmt (txt "1")) by (split; [apply (lit_check false); [discriminate|reflexivity]|eexists; vm_compute; reflexivity]).
  assert (N2 : num_text Qc_fmt (txt "2")) by (split; [apply (lit_check false); [discriminate|reflexivity]|eexists; vm_compute; reflexivity]).
  assert (I0 : forall n s, n < 10 -> s = show_nat n -> index_text s).
  { intros n s Hn ->. exists n. split; [apply show_numeral|]. lia. }
  assert (V : forall a b, num_text Qc_fmt a -> num_text Qc_fmt b -> vec_text Qc_fmt (a ++ txt "/" ++ b)).
  { intros a b Ha Hb. exists [a; b]. split; [cbn; lia|]. split; [constructor; [exact Ha|constructor; [exact Hb|constructor]]|].
    cbn [slashed map concat]. rewrite app_nil_r. reflexivity. }
  assert (K : forall n (P : text -> Prop) u, n < 10 -> P u -> numbered_ok P (show_nat n ++ txt " " ++ u)).
  { intros n P u Hn Hu. exists (show_nat n), u. destruct (show_numeral n) as (H1 & H2 & _). auto. }
  cbv zeta. split.
  - constructor.
    + eexists [_; _; _], []. split.
      * exists (txt "TEST"), TEST, (txt "planestress 1"). split; [reflexivity|]. split; [reflexivity|]. right. exists (txt "1"). auto.
      * reflexivity.
    + apply Forall_cons; split; [apply (K 0); [lia|apply (V (txt "0") (txt "0")); assumption]|].
      apply Forall_cons; split; [apply (K 1); [lia|apply (V (txt "1") (txt "0")); assumption]|].
      apply Forall_cons; split; [apply (K 2); [lia|apply (V (txt "0") (txt "1")); assumption]|constructor].
    + apply Forall_cons; split; [|constructor]. apply (K 0); [lia|]. exists [txt "0"; txt "1"; txt "2"]. split; [discriminate|].
      split; [|reflexivity]. constructor; [apply (I0 0); [lia|reflexivity]|]. constructor; [apply (I0 1); [lia|reflexivity]|].
      constructor; [apply (I0 2); [lia|reflexivity]|constructor].
    + constructor.
    + apply Forall_cons; split; [|constructor]. exists (txt "1"), (txt "2/0"). split; [reflexivity|].
      split; [apply (I0 1); [lia|reflexivity]|apply (V (txt "2") (txt "0")); assumption].
    + constructor.
  - intros (d & ls & E & (_ & _ & Vd) & _). injection E as Ed El. subst d ls. vm_compute in Vd. discriminate.
Qed.

(** *** C79 — a boundary file of well-formed items, one after the other, is read as those items:
    the polygons are stored in order, and then the conditions, materials, loads and supports are
    set, the last one winning; labels stand for the last vertex labelled so, and a load or support
    on an unknown label is an error *)
Theorem C79_reads (A : arith) (nf : numfmt A) (g : geo A) ts its b0 tbl : Forall2 (item_text nf) ts its -> store_all g its = Ret (b0, tbl) ->
  (known tbl its -> exists b, bbnd_to_bounds nf g (lines ts) = Ret (Ok b) /\ settled tbl its b0 b) /\
  (~ known tbl its -> bbnd_to_bounds nf g (lines ts) = Ret (Err tt)).
Proof. intros H. apply bbnd_stores, (parse_items nf ts its H). Qed.
Print Assumptions C79_reads.
(** a square with labels, a repeated label, loads and supports *)
Definition ex_bbnd (label : string) : text := lines (map list_ascii_of_string
  ["polygon"; "0 0 a"; "1 0 b"; "1 1"; "0 1e0 c"; "end"; "condition planestrain 0.5"; "material TEST"; "polygon"; "0.25 0.25 b"; "0.5 0.25";
   "0.25 .5 d2"; "end"; "condition planestress 2"; "distributed_force a c 0 -1.5"; "distributed_constraint b d2 angle:0.25"; "distributed_force " ++ label ++ " a 1 1"])%string.
Example C79_example :
  (r ← bbnd_to_bounds Qc_fmt qc_geo (ex_bbnd "b");
   match r with
   | Ok b => Ret (length (b_pts b), b_starts b, b_cond b, b_mat b, map_to_list (b_forces b), map_to_list (b_dcons b))
   | Err _ => Panic
   end) = Ret (7, [0; 4], Some (PlaneStress (qc 2)), Some TEST, [((0, 3), pt2 (qc 0) (qcd (-3) 2)); ((4, 0), pt2 (qc 1) (qc 1))],
     [((4, 6), AngleFixed (qcd 1 4))]) /\
  bbnd_to_bounds Qc_fmt qc_geo (ex_bbnd "x") = Ret (Err tt).
Proof. split; vm_refl. Qed.

(** the hypothesis on the text holds of ordinary files *)
Example C79_text : Forall2 (item_text Qc_fmt)
  [lines (map txt ["polygon"; "0 0 a"; "1 0"; "0 -1 b"; "end"]%string); txt "condition axisymmetric"; txt "material TEST";
   txt "distributed_force a b 0 2"; txt "distributed_constraint b a xy"]
  [IPolygon [(qc 0, qc 0, Some (txt "a")); (qc 1, qc 0, None); (qc 0, qc (-1), Some (txt "b"))]; ICondition Axisymmetric; IMaterial TEST;
   IForce (txt "a") (txt "b") (qc 0) (qc 2); IConstraint (txt "b") (txt "a") XYFixed].
Proof.
  assert (N0 : num_is Qc_fmt (txt "0") (qc 0)) by (split; [apply lit_number, (lit_check false); [discriminate|reflexivity]|vm_refl]).
  assert (N1 : num_is Qc_fmt (txt "1") (qc 1)) by (split; [apply lit_number, (lit_check false); [discriminate|reflexivity]|vm_refl]).
  assert (N2 : num_is Qc_fmt (txt "2") (qc 2)) by (split; [apply lit_number, (lit_check false); [discriminate|reflexivity]|vm_refl]).
  assert (N3 : num_is Qc_fmt (txt "-1") (qc (-1))) by (split; [apply lit_number, (lit_check true (txt "1")); [discriminate|reflexivity]|vm_refl]).
  assert (Wa : word (txt "a")) by (split; [discriminate|constructor; [now apply alnum_in|constructor]]).
  assert (Wb : word (txt "b")) by (split; [discriminate|constructor; [now apply alnum_in|constructor]]).
  apply Forall2_cons; split.
  { exists [txt "0 0 a"; txt "1 0"; txt "0 -1 b"]. split; [discriminate|]. split; [|reflexivity].
    apply Forall2_cons; split; [|apply Forall2_cons; split; [|apply Forall2_cons; split; [|apply Forall2_nil; exact I]]].
    - exists (txt "0"), (txt "0"). split; [exact N0|]. split; [exact N0|]. split; [exact Wa|reflexivity].
    - exists (txt "1"), (txt "0"). split; [exact N1|]. split; [exact N0|]. reflexivity.
    - exists (txt "0"), (txt "-1"). split; [exact N0|]. split; [exact N3|]. split; [exact Wb|reflexivity]. }
  apply Forall2_cons; split; [reflexivity|].
  apply Forall2_cons; split.
  { exists (txt "TEST"). split; [split; [discriminate|apply Forall_forall; intros c Hc; apply elem_of_list_In in Hc; cbn in Hc;
      repeat (destruct Hc as [<-|Hc]; [now apply alnum_in|]); contradiction]|]. split; reflexivity. }
  apply Forall2_cons; split.
  { split; [exact Wa|]. split; [exact Wb|]. exists (txt "0"), (txt "2"). split; [exact N0|]. split; [exact N2|]. reflexivity. }
  apply Forall2_cons; split; [|apply Forall2_nil; exact I].
  split; [exact Wb|]. split; [exact Wa|]. exists (txt "xy"). split; [reflexivity|]. split; [|reflexivity].
  apply Forall_forall; intros c Hc; apply elem_of_list_In in Hc; cbn in Hc. destruct Hc as [<-|[<-|[]]]; split; discriminate.
Qed.

(** *** C80 — a boundary file may end with a newline: false of the code.  A file of well-formed
    items, which is read, is rejected when a newline follows it. *)
Theorem C80_refuted : exists file b, bbnd_to_bounds Qc_fmt qc_geo file = Ret (Ok b) /\
  bbnd_to_bounds Qc_fmt qc_geo (file ++ [nl]) = Ret (Err tt).
Proof.
  assert (H : (r ← bbnd_to_bounds Qc_fmt qc_geo (ex_bbnd "b"); Ret (match r with Ok _ => true | Err _ => false end)) = Ret true) by vm_refl.
  apply bind_ret_inv in H as (r & Er & H). destruct r as [b|]; [|discriminate].
  exists (ex_bbnd "b"), b. split; [exact Er|]. vm_refl.
Qed.
Print Assumptions C80_refuted.
(** every file that is read is rejected when a newline follows it *)
Theorem C80_always_partial (A : arith) (nf : numfmt A) (g : geo A) file b :
  bbnd_to_bounds nf g file = Ret (Ok b) -> bbnd_to_bounds nf g (file ++ [nl]) = Ret (Err tt).
Proof. exact (newline_refused nf g file b). Qed.
Print Assumptions C80_always_partial.

(** *** C113 — the boundary files that are read.  A text is parsed into a list of items exactly
    when it consists of their texts with newlines between them ([item_text]); a file that is read
    into a boundary is such a text, its labels are known, and the boundary is what the items say *)
Theorem C113_grammar (A : arith) (nf : numfmt A) file its :
  parse_bbnd nf file = Ret (Some its) <-> exists ts, Forall2 (item_text nf) ts its /\ file = lines ts.
Proof. exact (parse_exact nf file its). Qed.
Print Assumptions C113_grammar.
Theorem C113_accepted (A : arith) (nf : numfmt A) (g : geo A) file b : bbnd_to_bounds nf g file = Ret (Ok b) ->
  exists ts its b0 tbl, file = lines ts /\ Forall2 (item_text nf) ts its /\ store_all g its = Ret (b0, tbl) /\ known tbl its /\ settled tbl its b0 b.
Proof. exact (accepted_exact nf g file b). Qed.
Print Assumptions C113_accepted.
(** the numbers in those texts: a reader at the start of a text takes a number and leaves the rest *)
Theorem C113_number : (forall s r, number s -> stop r -> float_text (s ++ r) = POk r s) /\
  (forall i r s, float_text i = POk r s -> i = s ++ r /\ number s).
Proof. split; [exact number_float|exact float_number]. Qed.
Print Assumptions C113_number.
(** accepted files are those of C79_example and C79_text; outlines without corners, missing ends,
    spaces at the end, items on one line and blank lines are rejected *)
Example C113_example : (forall f, f ∈ map (fun ls => lines (map list_ascii_of_string ls))
    [["polygon"; "end"]; ["polygon"; "0 0"; "1 0"]; ["material TEST "]; ["material TEST material TEST"]; ["material TEST"; ""; "material TEST"]; [""; "material TEST"];
     ["polygon"; "0 0 a b"; "end"]; ["polygon"; "0"; "end"]; ["condition planestrain"]; ["distributed_force a b 1"]; ["Material TEST"]; ["polygon"; "0 1e"; "end"]]%string ->
    parse_bbnd Qc_fmt f = Ret None) /\
  (r ← parse_bbnd Qc_fmt (lines (map list_ascii_of_string ["polygon"; "-.5 +2E1 a"; "3. 1e-1"; "end"; "condition axisymmetric"]%string)); Ret (default [] r)) =
    Ret [IPolygon [(qcd (-1) 2, qc 20, Some (txt "a")); (qc 3, qcd 1 10, None)]; ICondition Axisymmetric].
Proof.
  split; [|vm_refl]. intros f Hf. apply elem_of_list_In in Hf. cbn [map] in Hf. repeat (destruct Hf as [<-|Hf]; [vm_refl|]). contradiction.
Qed.
