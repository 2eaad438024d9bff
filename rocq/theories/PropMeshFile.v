(** C117: the mesh files that are read. *)
From Coq Require Import Ascii String Floats QArith Qcanon.
From Verif Require Import FileMesh InstFile InstQc MeshEx.
Local Close Scope Q_scope.
Local Close Scope Qc_scope.
Local Close Scope string_scope.
Local Open Scope nat_scope.
Local Open Scope list_scope.

(** *** C117 — the mesh files that are read.  A text is parsed into a mesh exactly when its lines,
    without the blank ones and the comments, are the six sections in their order with right counts
    and numbers and well-formed items, and anything after the last section ([mesh_says]); the
    assemblage that is built is determined by the mesh ([built_from]) *)
Theorem C117_grammar (A : arith) (nf : numfmt A) file (x : parsed) :
  parse_bmsh nf file = Ret (Some x) <-> mesh_says nf file x.
Proof. exact (mesh_exact nf file x). Qed.
Print Assumptions C117_grammar.
Theorem C117_built (A : arith) (x : @parsed A) a : build_elas x = Ret a <-> built_from x a.
Proof. exact (build_exact x a). Qed.
Print Assumptions C117_built.
Theorem C117_accepted (A : arith) (nf : numfmt A) file (a : elas A) :
  bmsh_to_elas nf file = Ret (Ok a) <-> exists x, mesh_says nf file x /\ built_from x a.
Proof. exact (file_exact nf file a). Qed.
Print Assumptions C117_accepted.

(** comments, blank lines, leading zeros, signs and exponents, text after the last section, several
    supports of one node and several forces at one node are accepted *)
Definition with_rest (n e c f d rest : list string) : text :=
  lines (map list_ascii_of_string (["# a mesh"; "$Header"; "version 01"; ""; "material TEST"; "condition planestress 1e0"; "$EndHeader";
    "$Nodes"] ++ n ++ ["$EndNodes"; "$Elements"] ++ e ++ ["$EndElements"; "$Constraints"] ++ c ++ ["$EndConstraints";
    "$Forces"] ++ f ++ ["$EndForces"; "$DistForces"] ++ d ++ ["$EndDistForces"] ++ rest))%string.
Definition seen (r : result unit (elas Qc_arith)) :=
  match r with
  | Ok a => Some (map (fun p : point Qc_arith => (p_x p, p_y p)) (ea_nodes a), map e_ids (ea_elems a), ea_cons a,
      map (fun p : point Qc_arith => (p_x p, p_y p)) (omap (fun n => ea_conc a !! n) (seq 0 3)),
      map (fun p : point Qc_arith => (p_x p, p_y p)) (omap (fun n => ea_line a !! n) [(0, 1); (1, 0)]))
  | Err _ => None
  end.
Example C117_example :
  seen <$> bmsh_to_elas Qc_fmt (with_rest ["count 003"; "0 0/0"; "01 +1e0/-.0"; "# c"; "2 0./1"] ["count 1"; "0 0/01/2"]
     ["count 3"; "0 x"; "1 angle:0.5"; "0 y"] ["count 2"; "1 2/0"; "1 3/0"] ["count 1"; "0 1 5/6"] ["anything"])%string
  = Ret (Some ([(qc 0, qc 0); (qc 1, qc 0); (qc 0, qc 1)], [(0, 1, 2)], [XYFixed; AngleFixed (qcd 1 2); Free], [(qc 3, qc 0)], [(qc 5, qc 6)])).
Proof. vm_refl. Qed.
(** spaces at the end, sections out of order, missing ends, too many coordinates, corners that are
    no nodes or are not three are not *)
Definition refused (r : out (result unit (elas Qc_arith))) : bool := match r with Ret (Ok _) => false | _ => true end.
Example C117_refused : let n := ["count 3"; "0 0/0"; "1 1/0"; "2 0/1"]%string in let e := ["count 1"; "0 0/1/2"]%string in let z := ["count 0"]%string in
  refused (bmsh_to_elas Qc_fmt (with_rest n e z z z [])) = false /\
  forallb (fun f => refused (bmsh_to_elas Qc_fmt f))
    [with_rest ["count 3 "; "0 0/0"; "1 1/0"; "2 0/1"]%string e z z z []; with_rest ["count 3"; "0 0/0"; "1 1/0 "; "2 0/1"]%string e z z z [];
     with_rest n ["count 1"; "0 0/1/2/"]%string z z z []; with_rest n ["count 1"; "0 0/1"]%string z z z [];
     with_rest n ["count 1"; "0 0/1/3"]%string z z z [];
     with_rest n e ["count 1"; "3 x"]%string z z []; with_rest n e ["count 1"; "0 z"]%string z z []; with_rest n e ["count 1"; "0"]%string z z [];
     with_rest n e z ["count 1"; "0 1/2/3/4"]%string z []; with_rest n e z ["count 1"; "0 1/"]%string z []; with_rest n e z z ["count 1"; "0 1/2"]%string [];
     with_rest n e z z ["count 1"; "0 3 1/2"]%string []; with_rest n e z z [] []; with_rest (n ++ ["3 1/1"%string]) e z z z [];
     with_rest n e (z ++ ["0 x"%string]) z z []; with_rest n e z z (z ++ ["$EndDistForces "%string]) []] = true.
Proof. cbv zeta. split; vm_refl. Qed.
