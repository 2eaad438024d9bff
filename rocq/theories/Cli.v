(** Model of the command line program.  /repo/src/main.rs, the file selection of
    /repo/src/file/mod.rs and the two [visualize] functions the commands use.

    clap is not modelled: a command gets the texts of its arguments by name ([args]), and an
    argument declared [required] in cli.yml may still be missing here, which panics as its
    [unwrap] would.  Paths and arguments are ASCII texts, so [FileError::NonUniPath] does not
    occur.  The file system is the record [world]; what a command leaves behind (files written,
    lines on standard output) is a list of [effect]s.  Progress messages on standard error,
    timings, error messages, and the picture err_state.png drawn just before a panic of the
    mesher are left out. *)
From Coq Require Import Ascii String.
From Verif Require Export File Plane Visual Eigen.

(** *** std::path::Path::{file_name, extension} for Unix paths.
    A path is cut at '/'; empty pieces and "." are skipped; ".." has no name. *)
Fixpoint split_on (c : ascii) (s : text) : list text :=
  match s with
  | [] => [[]]
  | x :: r => if Ascii.eqb x c then [] :: split_on c r
              else match split_on c r with l :: ls => (x :: l) :: ls | [] => [[x]] end
  end.
Definition normal (s : text) : bool := negb (bool_decide (s = [])) && negb (bool_decide (s = txt ".")).
Definition file_name (p : text) : option text :=
  match last (List.filter normal (split_on "/" p)) with
  | Some f => if bool_decide (f = txt "..") then None else Some f
  | None => None
  end.
(** what is before and after the last dot *)
Fixpoint rsplit_dot (f : text) : option (text * text) :=
  match f with
  | [] => None
  | x :: r => match rsplit_dot r with
              | Some (b, a) => Some (x :: b, a)
              | None => if Ascii.eqb x "." then Some ([], r) else None
              end
  end.
Definition extension (p : text) : option text :=
  match file_name p with
  | Some f => match rsplit_dot f with
              | Some (_ :: _, a) => Some a
              | _ => None
              end
  | None => None
  end.

(** *** str::parse *)
(** u32 and usize: an optional '+', then digits only, below the bound *)
Definition digits_val (top : N) (s : text) : option N :=
  fold_left (fun o c => match o with
                        | Some v => if is_digit c then
                                      let w := (v * 10 + (code c - 48))%N in if (w <? top)%N then Some w else None
                                    else None
                        | None => None
                        end) s (Some 0%N).
Definition parse_uint (top : N) (s : text) : option N :=
  let d := match s with c :: r => if Ascii.eqb c "+" then r else s | [] => [] end in
  match d with [] => None | _ => digits_val top d end.
Definition parse_u32 (s : text) : option N := parse_uint (2 ^ 32) s.
Definition parse_usize (s : text) : option nat := N.to_nat <$> parse_uint (2 ^ 64) s.
Definition parse_bool (s : text) : option bool :=
  if bool_decide (s = txt "true") then Some true else if bool_decide (s = txt "false") then Some false else None.

(** FileError, file/mod.rs:52-58, and BugiError, main.rs:18-21, whose run errors are split by
    their origin *)
Inductive file_error := NoExt | NoOpen | BadParse | BadType (ext : text).
Inductive cli_error := ArgError (what : string) | FileErr (e : file_error) | NoMaterial.

(** which files can be read, with their contents; whether an image of a size, or a text file,
    can be saved under a path *)
Record world := World {
  w_read : text -> option text;
  w_image : text -> Z -> bool;
  w_write : text -> bool }.

Section cli.
Context {A : arith} (nf : numfmt A) (ra : raster A) (g : geo A).

(** read_to_elas, file/mod.rs:12-29 *)
Definition read_to_elas (w : world) (path : text) : out (result file_error (elas A)) :=
  match extension path with
  | None => Ret (Err NoExt)
  | Some ext =>
      match w_read w path with
      | None => Ret (Err NoOpen)
      | Some file =>
          if bool_decide (ext = txt "bmsh") then
            r ← bmsh_to_elas nf file;
            Ret (match r with Ok a => Ok a | Err _ => Err BadParse end)
          else Ret (Err (BadType ext))
      end
  end.
(** read_to_bound, file/mod.rs:30-43 *)
Definition read_to_bound (w : world) (path : text) : out (result file_error (bound A)) :=
  match extension path with
  | None => Ret (Err NoExt)
  | Some ext =>
      match w_read w path with
      | None => Ret (Err NoOpen)
      | Some file =>
          if bool_decide (ext = txt "bbnd") then
            r ← bbnd_to_bounds nf g file;
            Ret (match r with Ok b => Ok b | Err _ => Err BadParse end)
          else Ret (Err (BadType ext))
      end
  end.

(** *** what a command leaves behind, and commands *)
Inductive effect :=
| SavedImage (path : text) (size : Z) (pixels : list (pix * rgb))
| SavedFile (path : text) (content : text)
| PrintMax (von_mises displacement : A)         (* main.rs:131-134 *)
| PrintMode (mode : nat) (freq : A).            (* main.rs:266-270 *)

Definition cmd (X : Type) : Type := (list effect * out (result cli_error X))%type.
Definition c_ret {X} (x : X) : cmd X := ([], Ret (Ok x)).
Definition c_fail {X} (e : cli_error) : cmd X := ([], Ret (Err e)).
Definition c_emit (e : effect) : cmd unit := ([e], Ret (Ok tt)).
Definition c_do {X} (m : out X) : cmd X := ([], Ok <$> m).
(** the operator ? *)
Definition c_bind {X Y} (m : cmd X) (k : X -> cmd Y) : cmd Y :=
  match m.2 with
  | Ret (Ok x) => let r := k x in (m.1 ++ r.1, r.2)
  | Ret (Err e) => (m.1, Ret (Err e))
  | Panic => (m.1, Panic)
  | UB => (m.1, UB)
  | Fuel => (m.1, Fuel)
  end.
(** a fallible file operation under ? *)
Definition c_file {X} (m : out (result file_error X)) : cmd X :=
  ([], r ← m; Ret (match r with Ok x => Ok x | Err e => Err (FileErr e) end)).
Definition c_arg {X} (what : string) (o : option X) : cmd X :=
  match o with Some x => c_ret x | None => c_fail (ArgError what) end.

Definition args := string -> option text.

(** how the standard library's hash maps are traversed, by contents *)
Record hashes := Hashes {
  h_k : hash_oracle A;                                     (* the sparse matrices *)
  h_sys : hash_oracle A;                                   (* the solver's *)
  h_conc : gmap nat (point A) -> list (nat * point A);     (* elas.conc_forces *)
  h_line : gmap (nat * nat) (point A) -> list (nat * nat * point A);
  h_pick : pick_fn;                                        (* the mesher *)
  h_order : order_fn A;
  h_segs : gset segment -> list segment;
  h_full : gmap tri A -> list tri;
  h_dcons : gmap segment (constr A) -> list segment;
  h_cons : gmap nat (constr A) -> list nat;
  h_forces : gmap segment (point A) -> list segment;
  h_keys : gmap edge vertex -> list edge;                  (* the mesh picture *)
  h_drain : gset edge -> list edge }.

(** Deformation::visualize, element/mod.rs:431-439 *)
Definition dfm_visualize (a : elas A) (disp : list (point A)) (scale : A) : out (visual A) :=
  nodes ← displaced_nodes a disp scale;
  v ← vis_new nodes;
  Ret (set_triangles (set_edges v (ea_edges a)) (ea_triangles a)).

(** PlaneTriangulation::visualize, plane.rs:536-566 *)
Definition pl_visualize (h : hashes) (st : plane A) : out (visual A) :=
  let nodes := map (fun v => xy_pt (tget st v)) (all_vertices st) in
  let lk := lookup_vertex st in
  let es : gset edge := fold_left (fun X (e : edge) => if bool_decide ((e.2, e.1) ∈ X) then X else {[e]} ∪ X)
                                  (h_keys h (t_tris st)) ∅ in
  es ← mapM_out (fun e : edge => i ← unwrap (lk !! e.1); j ← unwrap (lk !! e.2); Ret (i, j)) (h_drain h es);
  v ← vis_new nodes;
  Ret (set_edges v es).

(** Visualizer::draw with the saving of the image, visual/mod.rs:164-221 *)
Definition draw_to (w : world) (v : visual A) (path : text) (size : Z) (cm : option (A -> rgb)) (show : bool) : cmd unit :=
  c_bind (c_do (draw ra size cm show v)) (fun im =>
  if w_image w path size then c_emit (SavedImage path size im) else c_do Panic).

(** the options common to the commands, main.rs:98-119 and 236-260 *)
Definition colormap (o : option text) : option (option (A -> rgb)) :=
  match o with
  | None => Some None
  | Some s => if bool_decide (s = txt "hot") then Some (Some (hot_map ra))
              else if bool_decide (s = txt "rgb") then Some (Some (rgb_map ra)) else None
  end.
Definition im_size (o : option text) : option N := parse_u32 (default (txt "1024") o).
Definition show_mesh (o : option text) : option bool := parse_bool (default (txt "true") o).
Definition scale_of (o : option text) : option A := nf_read nf (default (txt "50.0") o).

(** the choice of the solver, main.rs:57-63 *)
Definition solver_of (h : hashes) (o : option text) : option (system A -> out (result unit (list A))) :=
  match o with
  | None => Some dense_gauss
  | Some s => if bool_decide (s = txt "densegauss") then Some dense_gauss
              else if bool_decide (s = txt "cholesky") then Some (cholesky_solver (h_sys h))
              else if bool_decide (s = txt "gaussseidel") then Some (gauss_seidel_solver (h_sys h)) else None
  end.
(** what the nodes are coloured by, main.rs:88-92 *)
Definition node_value (a : elas A) (disp : list (point A)) (o : option text) : option (out (list A)) :=
  match o with
  | None => Some (Ret (displacement_norms disp))
  | Some s => if bool_decide (s = txt "displacement") then Some (Ret (displacement_norms disp))
              else if bool_decide (s = txt "vonmises") then Some (ea_von_mises a disp) else None
  end.

(** linear, main.rs:36-137 *)
Definition linear (w : world) (h : hashes) (ar : args) : cmd unit :=
  c_bind (c_do (unwrap (ar "INPUT"%string))) (fun path =>
  c_bind (c_file (read_to_elas w path)) (fun a =>
  c_bind (c_arg "solver" (solver_of h (ar "solver"%string))) (fun solver =>
  c_bind (c_do (calc_displacements (h_k h) (h_conc h (ea_conc a)) (h_line h (ea_line a)) solver a)) (fun disp =>
  c_bind (c_do (vm ← ea_von_mises a disp; Visual.max_by vm)) (fun max_vm =>
  c_bind (c_do (Visual.max_by (displacement_norms disp))) (fun max_d =>
  c_bind (c_arg "scale" (scale_of (ar "scale"%string))) (fun scale =>
  c_bind (c_do (dfm_visualize a disp scale)) (fun vis =>
  c_bind (c_arg "nodevalue" (node_value a disp (ar "nodevalue"%string))) (fun vals =>
  c_bind (c_do (vals ← vals; set_vals vis vals)) (fun vis =>
  c_bind (c_arg "colormap" (colormap (ar "colormap"%string))) (fun cm =>
  c_bind (c_arg "imsize" (im_size (ar "imsize"%string))) (fun size =>
  c_bind (c_arg "showmesh" (show_mesh (ar "showmesh"%string))) (fun show =>
  c_bind (draw_to w vis (default (txt "out.png") (ar "out"%string)) (Z.of_N size) cm show) (fun _ =>
  c_emit (PrintMax max_vm max_d))))))))))))))).

(** the choice of the mesher, main.rs:162-170; [fuel] bounds its loops *)
Definition mesher (h : hashes) (fuel : nat) (size : A) (o : option text) (st : plane A) : option (out (plane A)) :=
  let chew := chew_mesh g (h_pick h) (h_order h) (h_segs h (b_set (t_bound st))) fuel size st in
  match o with
  | None => Some chew
  | Some s => if bool_decide (s = txt "chew") then Some chew
              else if bool_decide (s = txt "ruppert") then Some (ruppert_mesh g (h_pick h) (h_order h) fuel size st) else None
  end.
(** assemble with the traversal orders of a run *)
Definition assemble_of (h : hashes) (st : plane A) : out (option (elas A)) :=
  let b := t_bound st in
  let os := h_dcons h (b_dcons b) in
  pl_assemble (h_full h (t_full st)) os (h_cons h (all_constraints b os)) (h_forces h (b_forces b)) st.

(** save_elas, file/mod.rs:45-50 *)
Definition save_elas (w : world) (h : hashes) (path : text) (a : elas A) : cmd unit :=
  c_bind (c_do (elas_to_bmsh nf (h_conc h (ea_conc a)) (h_line h (ea_line a)) a)) (fun t =>
  if w_write w path then c_emit (SavedFile path t) else c_do Panic).

(** mesh, main.rs:139-203 *)
Definition mesh (w : world) (h : hashes) (fuel : nat) (ar : args) : cmd unit :=
  c_bind (c_do (unwrap (ar "INPUT"%string))) (fun path =>
  c_bind (c_file (read_to_bound w path)) (fun b =>
  let st := pl_new b in
  c_bind (c_do (unwrap (ar "elementsize"%string))) (fun s =>
  c_bind (c_arg "elementsize" (nf_read nf s)) (fun size =>
  c_bind (c_arg "mesher" (mesher h fuel size (ar "mesher"%string) st)) (fun m =>
  c_bind (c_do m) (fun st =>
  c_bind (c_do (pl_visualize h st)) (fun vis =>
  c_bind (c_arg "imsize" (im_size (ar "imsize"%string))) (fun size =>
  c_bind (draw_to w vis (default (txt "out.png") (ar "imageout"%string)) (Z.of_N size) None true) (fun _ =>
  c_bind (c_do (assemble_of h st)) (fun o =>
  match o with
  | None => c_fail NoMaterial
  | Some a => save_elas w h (default (txt "out.bmsh") (ar "meshout"%string)) a
  end)))))))))).

(** modal, main.rs:205-276.  [fl], [fi], [fs] bound the loops of the eigenvalue search, [rnd] is
    its random start *)
Definition pad2 (s : text) : text := replicate (2 - length s) "0"%char ++ s.
Definition mode_path (i : nat) : text := txt "out_" ++ pad2 (show_nat i) ++ txt ".png".
Definition modal_one (w : world) (ar : args) (a : elas A) (scale : A) (i : nat) (dfm : list (point A) * A) : cmd unit :=
  c_bind (c_do (v ← dfm_visualize a dfm.1 scale; set_vals v (displacement_norms dfm.1))) (fun vis =>
  c_bind (c_arg "colormap" (colormap (ar "colormap"%string))) (fun cm =>
  c_bind (c_arg "imsize" (im_size (ar "imsize"%string))) (fun size =>
  c_bind (c_arg "showmesh" (show_mesh (ar "showmesh"%string))) (fun show =>
  c_bind (draw_to w vis (mode_path i) (Z.of_N size) cm show) (fun _ =>
  c_emit (PrintMode i dfm.2)))))).
Fixpoint modal_loop (w : world) (ar : args) (a : elas A) (scale : A) (i : nat) (l : list (list (point A) * A)) : cmd unit :=
  match l with
  | [] => c_ret tt
  | d :: l => c_bind (modal_one w ar a scale i d) (fun _ => modal_loop w ar a scale (S i) l)
  end.
Definition modal (w : world) (h : hashes) (fl fi fs : nat) (rnd : list A) (ar : args) : cmd unit :=
  c_bind (c_do (unwrap (ar "INPUT"%string))) (fun path =>
  c_bind (c_file (read_to_elas w path)) (fun a =>
  c_bind (c_do (unwrap (ar "NUM"%string))) (fun s =>
  c_bind (c_arg "NUM" (parse_usize s)) (fun num =>
  c_bind (c_do (calc_modes (h_k h) (h_sys h) fl fi fs num rnd a)) (fun dfms =>
  c_bind (c_arg "scale" (scale_of (ar "scale"%string))) (fun scale =>
  modal_loop w ar a scale 0 dfms)))))).
End cli.
Global Arguments effect _ : clear implicits.
Global Arguments hashes _ : clear implicits.
