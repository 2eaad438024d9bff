(** Model of the file formats.  /repo/src/file/{bmsh,bbnd,mod}.rs

    A text is its list of bytes.  The parser combinators of nom 7.1 that are used are modelled by
    hand: a parser answers the rest of the text with a value, a recoverable error, or a failure.
    Reading and printing of floating-point numbers (str::parse and the format machinery of the
    standard library) are parameters, record [numfmt]; the grammar of the literals accepted by
    nom's [double] is modelled.  Errors carry no message here.  Files and paths are not modelled. *)
From Coq Require Import Ascii String.
From Verif Require Export Bounds Assem.

Notation text := (list ascii) (only parsing).
Definition txt (s : string) : text := list_ascii_of_string s.
Definition nl : ascii := Ascii.ascii_of_N 10.
Definition cr : ascii := Ascii.ascii_of_N 13.
Global Arguments txt s%string.

(** *** characters and prefixes *)
Definition code (c : ascii) : N := N_of_ascii c.
Definition is_digit (c : ascii) : bool := (48 <=? code c)%N && (code c <=? 57)%N.
Definition is_alnum (c : ascii) : bool :=
  is_digit c || ((65 <=? code c)%N && (code c <=? 90)%N) || ((97 <=? code c)%N && (code c <=? 122)%N).
Definition lower (c : ascii) : ascii :=
  if (65 <=? code c)%N && (code c <=? 90)%N then ascii_of_N (code c + 32) else c.
Fixpoint strip (p i : text) : option text :=
  match p, i with
  | [], _ => Some i
  | a :: p, b :: i => if Ascii.eqb a b then strip p i else None
  | _ :: _, [] => None
  end.
Fixpoint span (f : ascii -> bool) (i : text) : text * text :=
  match i with
  | [] => ([], [])
  | c :: r => if f c then let '(a, b) := span f r in (c :: a, b) else ([], i)
  end.

(** *** nom *)
Inductive pres (X : Type) := POk (rest : text) (x : X) | PErr | PFail.
Global Arguments POk {X} _ _.
Global Arguments PErr {X}.
Global Arguments PFail {X}.
(** a parser may also panic, through an [expect] in a [map] *)
Definition parser (X : Type) := text -> out (pres X).
Definition p_ret {X} (x : X) : parser X := fun i => Ret (POk i x).
Definition p_bind {X Y} (p : parser X) (f : X -> parser Y) : parser Y := fun i =>
  r ← p i; match r with POk i' x => f x i' | PErr => Ret PErr | PFail => Ret PFail end.
(** a map whose function may panic *)
Definition p_map {X Y} (p : parser X) (f : X -> out Y) : parser Y := fun i =>
  r ← p i; match r with POk i' x => y ← f x; Ret (POk i' y) | PErr => Ret PErr | PFail => Ret PFail end.
(** tag, character::complete::char *)
Definition tag (s : text) : parser unit := fun i =>
  Ret (match strip s i with Some r => POk r tt | None => PErr end).
(** alt, of two *)
Definition p_alt {X} (p q : parser X) : parser X := fun i =>
  r ← p i; match r with PErr => q i | _ => Ret r end.
(** errors of any kind become recoverable: the map_err calls of bmsh.rs *)
Definition soften {X} (p : parser X) : parser X := fun i =>
  r ← p i; Ret (match r with POk i' x => POk i' x | _ => PErr end).
Definition preceded {X Y} (p : parser X) (q : parser Y) : parser Y := p_bind p (fun _ => q).
Definition terminated {X Y} (p : parser X) (q : parser Y) : parser X := p_bind p (fun x => p_bind q (fun _ => p_ret x)).
Definition delimited {X Y Z} (p : parser X) (q : parser Y) (r : parser Z) : parser Y :=
  p_bind p (fun _ => p_bind q (fun y => p_bind r (fun _ => p_ret y))).

(** character::complete::u64 and u8: checked decimal numbers below [top] *)
Fixpoint uint_loop (top : N) (first : bool) (v : N) (i : text) : pres N :=
  match i with
  | [] => if first then PErr else POk [] v
  | c :: r =>
    if is_digit c then
      let v' := (v * 10 + (code c - 48))%N in
      if (v' <? top)%N then uint_loop top false v' r else PErr
    else if first then PErr else POk i v
  end.
Definition uint (top : N) : parser N := fun i => Ret (uint_loop top true 0 i).
Definition u64 : parser nat := p_map (uint (2 ^ 64)) (fun n => Ret (N.to_nat n)).
Definition u8 : parser N := uint (2 ^ 8).

(** alphanumeric1, not_line_ending *)
Definition alphanumeric1 : parser text := fun i =>
  let '(a, r) := span is_alnum i in Ret (match a with [] => PErr | _ => POk r a end).
Definition not_line_ending : parser text := fun i =>
  let '(a, r) := span (fun c => negb (Ascii.eqb c cr || Ascii.eqb c nl)) i in
  Ret (match r with
       | c :: r' => if Ascii.eqb c cr then (match r' with c' :: _ => if Ascii.eqb c' nl then POk r a else PErr | [] => PErr end) else POk r a
       | [] => POk r a
       end).

(** multi::separated_list0 and separated_list1; every separator used consumes something, so the
    length of the text bounds the number of rounds *)
Fixpoint sep_loop {X} (fuel : nat) (sep : parser unit) (p : parser X) (res : list X) (i : text) : out (pres (list X)) :=
  match fuel with
  | 0 => Fuel
  | S fuel =>
    s ← sep i;
    match s with
    | PErr => Ret (POk i res)
    | PFail => Ret PFail
    | POk i1 _ =>
      r ← p i1;
      match r with
      | PErr => Ret (POk i res)
      | PFail => Ret PFail
      | POk i2 x => sep_loop fuel sep p (res ++ [x]) i2
      end
    end
  end.
Definition separated_list0 {X} (sep : parser unit) (p : parser X) : parser (list X) := fun i =>
  r ← p i;
  match r with
  | PErr => Ret (POk i [])
  | PFail => Ret PFail
  | POk i1 x => sep_loop (S (length i1)) sep p [x] i1
  end.
Definition separated_list1 {X} (sep : parser unit) (p : parser X) : parser (list X) := fun i =>
  r ← p i;
  match r with
  | PErr => Ret PErr
  | PFail => Ret PFail
  | POk i1 x => sep_loop (S (length i1)) sep p [x] i1
  end.

(** the literals of nom's recognize_float: a sign, digits with an optional fraction or a bare
    fraction, and an exponent, which must have digits *)
Definition is_sign (c : ascii) : bool := Ascii.eqb c "+" || Ascii.eqb c "-".
Definition opt_sign (i : text) : text * text :=
  match i with c :: r => if is_sign c then ([c], r) else ([], i) | [] => ([], []) end.
Definition float_mant (i : text) : option (text * text) :=
  let '(d, r) := span is_digit i in
  match d, r with
  | _ :: _, c :: r' => if Ascii.eqb c "." then let '(f, r'') := span is_digit r' in Some (d ++ c :: f, r'') else Some (d, r)
  | _ :: _, [] => Some (d, [])
  | [], c :: r' => if Ascii.eqb c "." then (match span is_digit r' with ((_ :: _) as f, r'') => Some (c :: f, r'') | _ => None end) else None
  | [], [] => None
  end.
Definition recognize_float (i : text) : pres text :=
  let '(s, i1) := opt_sign i in
  match float_mant i1 with
  | None => PErr
  | Some (m, i2) =>
    match i2 with
    | c :: i3 =>
      if Ascii.eqb (lower c) "e" then
        let '(s', i4) := opt_sign i3 in
        match span is_digit i4 with
        | ((_ :: _) as d, i5) => POk i5 (s ++ m ++ c :: s' ++ d)
        | _ => PFail
        end
      else POk i2 (s ++ m)
    | [] => POk [] (s ++ m)
    end
  end.
(** recognize_float_or_exceptions: tag_no_case of nan and inf ("infinity" is tried after "inf") *)
Fixpoint strip_no_case (p i : text) : option text :=
  match p, i with
  | [], _ => Some i
  | a :: p, b :: i => if Ascii.eqb a (lower b) then strip_no_case p i else None
  | _ :: _, [] => None
  end.
Definition tag_no_case (s : text) (i : text) : pres text :=
  match strip_no_case s i with Some r => POk r (take (length s) i) | None => PErr end.
Definition float_text (i : text) : pres text :=
  match recognize_float i with
  | PErr => match tag_no_case (txt "nan") i with PErr => tag_no_case (txt "inf") i | r => r end
  | r => r
  end.

(** *** numbers *)
Record numfmt (A : arith) := NumFmt {
  nf_read : text -> option A;             (* str::parse::<f64> *)
  nf_fix : nat -> A -> text;              (* format with {:.k} *)
  nf_show : A -> text }.                  (* format with {} *)
Global Arguments NumFmt {A} _ _ _.
Global Arguments nf_read {A} _ _.
Global Arguments nf_fix {A} _ _ _.
Global Arguments nf_show {A} _ _.

(** format of a usize with {} *)
Definition digit (n : N) : ascii := ascii_of_N (48 + n).
Fixpoint show_loop (fuel : nat) (n : N) (acc : text) : text :=
  match fuel with
  | 0 => acc
  | S fuel => let acc := digit (n mod 10) :: acc in if (n <? 10)%N then acc else show_loop fuel (n / 10) acc
  end.
Definition show_N (n : N) : text := show_loop (S (N.to_nat (N.size n))) n [].
Definition show_nat (n : nat) : text := show_N (N.of_nat n).

Section format.
Context {A : arith} (nf : numfmt A).

(** number::complete::double *)
Definition double : parser A := fun i =>
  Ret (match float_text i with
       | POk r s => match nf_read nf s with Some x => POk r x | None => PErr end
       | PErr => PErr
       | PFail => PFail
       end).

(** Constraint::from_str, constraint.rs:35-56, and Display, constraint.rs:58-68 *)
Definition constraint_from_str (s : text) : option (constr A) :=
  if bool_decide (s = txt "x") then Some XFixed
  else if bool_decide (s = txt "y") then Some YFixed
  else if bool_decide (s = txt "xy") then Some XYFixed
  else match strip (txt "angle:") s with
       | Some r => AngleFixed <$> nf_read nf r
       | None => None
       end.
Definition show_constraint (c : constr A) : text :=
  match c with
  | Free => txt "free"
  | XFixed => txt "x"
  | YFixed => txt "y"
  | XYFixed => txt "xy"
  | AngleFixed theta => txt "angle:" ++ nf_show nf theta
  end.

(** ToString for Condition, strain.rs:124-132; the width 3 pads on the left *)
Definition pad3 (s : text) : text := replicate (3 - length s) " "%char ++ s.
Definition show_condition (c : strain_cond A) : text :=
  match c with
  | PlaneStress t => txt "planestress " ++ pad3 (nf_fix nf 5 t)
  | PlaneStrain t => txt "planestrain " ++ pad3 (nf_fix nf 5 t)
  | Axisymmetric => txt "axisymmetric"
  end.

(** TryFrom<Vec<f64>> for Point, spatial/mod.rs:166-177, with the expect of the caller *)
Definition point_of (l : list A) : out (point A) :=
  match l with
  | [x] => Ret (Pt 1 x s0 s0)
  | [x; y] => Ret (Pt 2 x y s0)
  | [x; y; z] => Ret (Pt 3 x y z)
  | _ => Panic
  end.
Definition expect {X} (o : option X) : out X := match o with Some x => Ret x | None => Panic end.
Definition slash : parser unit := tag (txt "/").
Definition newline : parser unit := tag [nl].
Definition space : parser unit := tag (txt " ").

(** *** bmsh.rs *)
(** monotonic_list, bmsh.rs:26-75: the counter, then the items with their indices *)
Definition count_line : parser nat := delimited (tag (txt "count ")) u64 newline.
Fixpoint mono_loop {X} (p : parser X) (n i : nat) (res : list X) : parser (list X) :=
  match n with
  | 0 => p_ret res
  | S n => p_bind u64 (fun num => if num =? i then
             p_bind (soften space) (fun _ => p_bind (soften p) (fun x => p_bind (soften newline) (fun _ =>
               mono_loop p n (S i) (res ++ [x]))))
           else fun _ => Ret PErr)
  end.
Definition monotonic_list {X} (p : parser X) : parser (list X) := p_bind count_line (fun n => mono_loop p n 0 []).
(** free_list, bmsh.rs:77-113 *)
Fixpoint free_loop {X} (p : parser X) (n : nat) (res : list X) : parser (list X) :=
  match n with
  | 0 => p_ret res
  | S n => p_bind (soften p) (fun x => p_bind (soften newline) (fun _ => free_loop p n (res ++ [x])))
  end.
Definition free_list {X} (p : parser X) : parser (list X) := p_bind count_line (fun n => free_loop p n []).
(** section_parse, bmsh.rs:114-130; named_value, bmsh.rs:132-144 *)
Definition section_parse {X} (name : text) (p : parser X) : parser X :=
  delimited (delimited (tag (txt "$")) (tag name) newline) p (delimited (tag (txt "$End")) (tag name) newline).
Definition named_value {X} (name : text) (p : parser X) : parser X := delimited (terminated (tag name) space) p newline.

(** the preprocessing, bmsh.rs:169-178 *)
Fixpoint split_nl (s : text) : list text :=
  match s with
  | [] => [[]]
  | c :: r => if Ascii.eqb c nl then [] :: split_nl r else
              match split_nl r with l :: ls => (c :: l) :: ls | [] => [[c]] end
  end.
Definition line_kept (l : text) : bool := match l with [] => false | c :: _ => negb (Ascii.eqb c "#") end.
Definition clean (s : text) : text := concat (map (fun l => l ++ [nl]) (List.filter line_kept (split_nl s))).

(** the header, bmsh.rs:181-213 *)
Definition condition_parser : parser (strain_cond A) :=
  p_alt (p_map (preceded (tag (txt "planestrain ")) double) (fun t => Ret (PlaneStrain t)))
 (p_alt (p_map (preceded (tag (txt "planestress ")) double) (fun t => Ret (PlaneStress t)))
        (p_map (tag (txt "axisymmetric")) (fun _ => Ret Axisymmetric))).
Definition header_parser : parser (N * material A * strain_cond A) :=
  section_parse (txt "Header")
    (p_map (p_bind (named_value (txt "version") u8) (fun v =>
            p_bind (named_value (txt "material") alphanumeric1) (fun m =>
            p_bind (named_value (txt "condition") condition_parser) (fun c => p_ret (v, m, c)))))
           (fun vmc => mat ← expect (material_from_str (string_of_list_ascii vmc.1.2)); Ret (vmc.1.1, mat, vmc.2))).
(** the item parsers, bmsh.rs:215-264; code_to_desc, bmsh.rs:16-20 *)
Definition coords : parser (point A) := p_map (separated_list0 slash double) point_of.
Definition nodes_parser : parser (list (point A)) := section_parse (txt "Nodes") (monotonic_list coords).
Definition elements_parser : parser (list (list nat)) := section_parse (txt "Elements") (monotonic_list (separated_list0 slash u64)).
Definition constraint_line : parser (nat * constr A) :=
  p_bind u64 (fun n => p_bind space (fun _ => p_bind (p_map not_line_ending (fun s => expect (constraint_from_str s))) (fun c => p_ret (n, c)))).
Definition constraints_parser := section_parse (txt "Constraints") (free_list constraint_line).
Definition force_line : parser (nat * point A) :=
  p_bind u64 (fun n => p_bind space (fun _ => p_bind coords (fun f => p_ret (n, f)))).
Definition forces_parser := section_parse (txt "Forces") (free_list force_line).
Definition dist_line : parser (nat * nat * point A) :=
  p_bind (terminated u64 space) (fun n => p_bind (terminated u64 space) (fun m => p_bind coords (fun f => p_ret (n, m, f)))).
Definition dist_parser := section_parse (txt "DistForces") (free_list dist_line).

(** the assembly, bmsh.rs:266-290 *)
Definition code_to_desc (ids : list nat) : out (nat * nat * nat) :=
  match ids with [a; b; c] => Ret (a, b, c) | _ => Panic end.
Record parsed := Parsed {
  pa_mat : material A; pa_cond : strain_cond A; pa_nodes : list (point A); pa_elems : list (list nat);
  pa_cons : list (nat * constr A); pa_forces : list (nat * point A); pa_dist : list (nat * nat * point A) }.
Definition build_elas (x : parsed) : out (elas A) :=
  let '(a, ids) := add_nodes (ea_new (pa_mat x) (pa_cond x)) (pa_nodes x) in
  a ← foldM (fun ns a => nids ← mapM_out (idx ids) ns; d ← code_to_desc nids; add_element a d) (pa_elems x) a;
  a ← foldM (fun (nc : nat * constr A) a => n ← idx ids nc.1; add_constraint a n nc.2) (pa_cons x) a;
  a ← foldM (fun (nf : nat * point A) a => n ← idx ids nf.1; Ret (add_conc_force a n nf.2)) (pa_forces x) a;
  foldM (fun (nmf : nat * nat * point A) a => n ← idx ids nmf.1.1; m ← idx ids nmf.1.2; Ret (add_dist_line_force a n m nmf.2)) (pa_dist x) a.

(** bmsh_to_elas, bmsh.rs:158-291; the text after the last section is ignored *)
Definition parse_bmsh (file : text) : out (option parsed) :=
  h ← header_parser (clean file);
  match h with
  | POk i hd =>
    if negb (hd.1.1 =? 1)%N then Ret None else
    ns ← nodes_parser i;
    match ns with POk i ns =>
    es ← elements_parser i;
    match es with POk i es =>
    cs ← constraints_parser i;
    match cs with POk i cs =>
    fs ← forces_parser i;
    match fs with POk i fs =>
    ds ← dist_parser i;
    match ds with POk _ ds => Ret (Some (Parsed hd.1.2 hd.2 ns es cs fs ds)) | _ => Ret None end
    | _ => Ret None end | _ => Ret None end | _ => Ret None end | _ => Ret None end
  | _ => Ret None
  end.
Definition bmsh_to_elas (file : text) : out (result unit (elas A)) :=
  p ← parse_bmsh file;
  match p with Some x => a ← build_elas x; Ret (Ok a) | None => Ret (Err tt) end.

(** elas_to_bmsh, bmsh.rs:293-360; [oc] and [ol] are the traversal orders of the force maps *)
Definition nlt (s : text) : text := nl :: s.
Definition coord_text (k : nat) (p : point A) : out text :=
  x ← pt_idx p 0; y ← pt_idx p 1; Ret (nf_fix nf k x ++ txt "/" ++ nf_fix nf k y).
Definition elas_to_bmsh (oc : list (nat * point A)) (ol : list (nat * nat * point A)) (a : elas A) : out text :=
  let res := txt "$Header" ++ nlt (txt "version 1") in
  let res := res ++ nlt (txt "material " ++ list_ascii_of_string (m_name (ea_mat a))) in
  let res := res ++ nlt (txt "condition " ++ show_condition (ea_cond a)) in
  let res := res ++ nlt (txt "$EndHeader") ++ nlt [] ++ nlt (txt "$Nodes") in
  let res := res ++ nlt (txt "count " ++ show_nat (length (ea_nodes a))) in
  res ← foldM (fun (ip : nat * point A) res => c ← coord_text 6 ip.2; Ret (res ++ nlt (show_nat ip.1 ++ txt " " ++ c)))
              (zip (seq 0 (length (ea_nodes a))) (ea_nodes a)) res;
  let res := res ++ nlt (txt "$EndNodes") ++ nlt [] ++ nlt (txt "$Elements") in
  let descs := map e_ids (ea_elems a) in
  let res := res ++ nlt (txt "count " ++ show_nat (length descs)) in
  let res := fold_left (fun res (id : nat * (nat * nat * nat)) =>
    res ++ nlt (show_nat id.1 ++ txt " " ++ show_nat id.2.1.1 ++ (txt "/" ++ show_nat id.2.1.2) ++ (txt "/" ++ show_nat id.2.2)))
    (zip (seq 0 (length descs)) descs) res in
  let res := res ++ nlt (txt "$EndElements") ++ nlt [] ++ nlt (txt "$Constraints") in
  let cons := List.filter (fun nc : nat * constr A => match nc.2 with Free => false | _ => true end)
                (zip (seq 0 (length (ea_cons a))) (ea_cons a)) in
  let res := res ++ nlt (txt "count " ++ show_nat (length cons)) in
  let res := fold_left (fun res (nc : nat * constr A) => res ++ nlt (show_nat nc.1 ++ txt " " ++ show_constraint nc.2)) cons res in
  let res := res ++ nlt (txt "$EndConstraints") ++ nlt [] ++ nlt (txt "$Forces") in
  let res := res ++ nlt (txt "count " ++ show_nat (length oc)) in
  res ← foldM (fun (np : nat * point A) res => c ← coord_text 3 np.2; Ret (res ++ nlt (show_nat np.1 ++ txt " " ++ c))) oc res;
  let res := res ++ nlt (txt "$EndForces") ++ nlt [] ++ nlt (txt "$DistForces") in
  let res := res ++ nlt (txt "count " ++ show_nat (length ol)) in
  res ← foldM (fun (nmp : nat * nat * point A) res => c ← coord_text 3 nmp.2;
     Ret (res ++ nlt (show_nat nmp.1.1 ++ txt " " ++ show_nat nmp.1.2 ++ txt " " ++ c))) ol res;
  Ret (res ++ nlt (txt "$EndDistForces")).

(** *** bbnd.rs *)
(** ParseItem and ParseVertex, bbnd.rs:24-55: a vertex has an optional label *)
Definition pvertex : Type := (A * A * option text)%type.
Inductive pitem :=
  | IPolygon (vs : list pvertex)
  | ICondition (c : strain_cond A)
  | IMaterial (m : material A)
  | IForce (a b : text) (x y : A)
  | IConstraint (a b : text) (c : constr A).

(** the item parsers of parse_file, bbnd.rs:118-183 *)
Definition condition_item : parser pitem :=
  p_alt (p_map (preceded (tag (txt "condition planestrain ")) double) (fun t => Ret (ICondition (PlaneStrain t))))
 (p_alt (p_map (preceded (tag (txt "condition planestress ")) double) (fun t => Ret (ICondition (PlaneStress t))))
        (p_map (tag (txt "condition axisymmetric")) (fun _ => Ret (ICondition Axisymmetric)))).
Definition material_item : parser pitem :=
  p_map (preceded (tag (txt "material ")) alphanumeric1)
        (fun m => mat ← expect (material_from_str (string_of_list_ascii m)); Ret (IMaterial mat)).
Definition force_item : parser pitem :=
  preceded (tag (txt "distributed_force "))
    (p_bind alphanumeric1 (fun a => p_bind (preceded space alphanumeric1) (fun b =>
     p_bind (preceded space double) (fun x => p_bind (preceded space double) (fun y => p_ret (IForce a b x y)))))).
Definition constraint_item : parser pitem :=
  p_map (preceded (tag (txt "distributed_constraint "))
    (p_bind alphanumeric1 (fun a => p_bind (preceded space alphanumeric1) (fun b =>
     p_bind (preceded space not_line_ending) (fun c => p_ret (a, b, c))))))
    (fun abc => c ← expect (constraint_from_str abc.2); Ret (IConstraint abc.1.1 abc.1.2 c)).
Definition vertex_parser : parser pvertex :=
  p_alt (p_bind double (fun x => p_bind (preceded space double) (fun y =>
         p_bind (preceded space alphanumeric1) (fun l => p_ret (x, y, Some l)))))
        (p_bind double (fun x => p_bind space (fun _ => p_bind double (fun y => p_ret (x, y, None))))).
Definition polygon_item : parser pitem :=
  delimited (tag (txt "polygon" ++ [nl]))
            (p_map (separated_list1 newline vertex_parser) (fun vs => Ret (IPolygon vs)))
            (tag (nl :: txt "end")).
Definition item_parser : parser pitem :=
  p_alt polygon_item (p_alt condition_item (p_alt material_item (p_alt force_item constraint_item))).
(** parse_file, bbnd.rs:118-196 *)
Definition parse_bbnd (file : text) : out (option (list pitem)) :=
  r ← separated_list0 newline item_parser file;
  Ret (match r with POk [] l => Some l | _ => None end).

(** bbnd_to_bounds, bbnd.rs:57-116: the polygons with their labels, then the rest *)
Definition label_all (vls : list (option text * vertex)) (m : gmap text vertex) : gmap text vertex :=
  fold_left (fun m lv => match lv.1 with Some l => <[l := lv.2]> m | None => m end) vls m.
Definition first_pass (g : geo A) (items : list pitem) : out (bound A * gmap text vertex) :=
  foldM (fun it (st : bound A * gmap text vertex) =>
    match it with
    | IPolygon vs => r ← store_polygon g st.1 (map fst vs); Ret (r.1, label_all (zip (map snd vs) r.2) st.2)
    | _ => Ret st
    end) items (b_new [], ∅).
Definition apply_item (m : gmap text vertex) (it : pitem) (b : bound A) : option (bound A) :=
  match it with
  | IPolygon _ => Some b
  | ICondition c => Some (set_condition b c)
  | IMaterial mat => Some (set_material b mat)
  | IForce l1 l2 x y =>
    match m !! l1 with None => None | Some v => match m !! l2 with None => None | Some w =>
      Some (store_distributed_force b v w (pt2 x y)) end end
  | IConstraint l1 l2 c =>
    match m !! l1 with None => None | Some v => match m !! l2 with None => None | Some w =>
      Some (store_distributed_constraint b v w c) end end
  end.
Fixpoint second_pass (m : gmap text vertex) (items : list pitem) (b : bound A) : option (bound A) :=
  match items with
  | [] => Some b
  | it :: items => match apply_item m it b with Some b => second_pass m items b | None => None end
  end.
Definition bbnd_to_bounds (g : geo A) (file : text) : out (result unit (bound A)) :=
  p ← parse_bbnd file;
  match p with
  | None => Ret (Err tt)
  | Some items =>
    st ← first_pass g items;
    Ret (match second_pass st.2 items st.1 with Some b => Ok b | None => Err tt end)
  end.
End format.
