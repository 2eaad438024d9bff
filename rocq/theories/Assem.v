(** Model of supports and of the element assemblage.
    /repo/src/element/{constraint,mod}.rs *)
From stdpp Require Import sorting.
From Verif Require Export Elem Eigen.

(** ** Constraint, constraint.rs:6-12 *)
Inductive constr (A : arith) := Free | XFixed | YFixed | XYFixed | AngleFixed (theta : A).
Global Arguments Free {A}.
Global Arguments XFixed {A}.
Global Arguments YFixed {A}.
Global Arguments XYFixed {A}.
Global Arguments AngleFixed {A} _.

(** ** DofTransform, constraint.rs:71-74 *)
Record dtr (A : arith) := DTr { dt_mask : list bool; dt_rots : list (nat * nat * A) }.
Global Arguments DTr {A} _ _.
Global Arguments dt_mask {A} _.
Global Arguments dt_rots {A} _.

(** the rows of a map's entries in some order sorted by row (sparse.rs:543-546, an
    unstable sort: which of the sorted orders comes out depends on the hash order) *)
Definition row_le {A : arith} (x y : (nat * nat) * A) : Prop := (x.1.1 <= y.1.1)%nat.
Global Instance row_le_dec {A : arith} : RelDecision (@row_le A).
Proof. intros x y. unfold row_le. apply _. Defined.
Definition by_row {A : arith} (l : list ((nat * nat) * A)) : list ((nat * nat) * A) :=
  merge_sort row_le l.

Section transform.
Context {A : arith}.

(** from_constraints, constraint.rs:77-104 *)
Definition from_constraints (cons : list (constr A)) : out (dtr A) :=
  foldM (fun ic t =>
    let '(i, con) := ic in
    match con with
    | Free => Ret t
    | XFixed => m ← set (dt_mask t) (i * 2) false; Ret (DTr m (dt_rots t))
    | YFixed => m ← set (dt_mask t) (i * 2 + 1) false; Ret (DTr m (dt_rots t))
    | XYFixed => m ← set (dt_mask t) (i * 2) false;
                 m ← set m (i * 2 + 1) false; Ret (DTr m (dt_rots t))
    | AngleFixed theta => m ← set (dt_mask t) (i * 2) false;
                          Ret (DTr m (dt_rots t ++ [(i * 2, i * 2 + 1, theta)]))
    end) (imap pair cons) (DTr (replicate (length cons * 2) true) []).

(** rotation_matrix, constraint.rs:106-122 *)
Definition rotation_matrix (t : dtr A) : out (dict A) :=
  rot ← eye (M := dict A) (length (dt_mask t), length (dt_mask t));
  st ← foldM (fun abt (st : dict A * list bool) =>
    let '(a, b, theta) := abt in
    va ← idx st.2 a;
    vb ← (if va then Ret true else idx st.2 b);
    _ ← assert_ (negb va && negb vb);
    vis ← set st.2 a true;
    vis ← set vis b true;
    rot ← index_set st.1 (a, a) (scos theta);
    rot ← index_set rot (a, b) (smul (sneg s1) (ssin theta));
    rot ← index_set rot (b, a) (ssin theta);
    rot ← index_set rot (b, b) (scos theta);
    Ret (rot, vis)) (dt_rots t) (rot, replicate (length (dt_mask t)) false);
  Ret st.1.

(** mask_vec, constraint.rs:124-136 *)
Definition mask_vec (t : dtr A) (xs : list A) : out (list A) :=
  _ ← assert_ (length (dt_mask t) =? length xs);
  Ret (map snd (List.filter fst (zip (dt_mask t) xs))).

(** unmask_vec, constraint.rs:138-144; [xs] is what is left of the iterator *)
Fixpoint unmask (mask : list bool) (xs : list A) : out (list A) :=
  match mask with
  | [] => Ret []
  | true :: mask' => match xs with
                     | x :: xs' => l ← unmask mask' xs'; Ret (x :: l)
                     | [] => Panic
                     end
  | false :: mask' => l ← unmask mask' xs; Ret (s0 :: l)
  end.
Definition unmask_vec (t : dtr A) (xs : list A) : out (list A) := unmask (dt_mask t) xs.

(** bar_matrix, constraint.rs:147-156; traversals t0 .. t0+5 of the hash oracle *)
Definition bar_matrix (ho : hash_oracle A) (t0 : nat) (t : dtr A) (mat : dict A) : out (dict A) :=
  rot ← rotation_matrix t;
  let rot' := d_transposed (ho t0 (d_data rot)) rot in
  inner ← mul_dict (ho (t0 + 1) (d_data mat)) (by_row (ho (t0 + 2) (d_data rot))) mat rot;
  res ← mul_dict (ho (t0 + 3) (d_data rot')) (by_row (ho (t0 + 4) (d_data inner))) rot' inner;
  d_mask (ho (t0 + 5) (d_data res)) res (dt_mask t).

Local Open Scope arith_scope.
(** unbar_vec, constraint.rs:158-172 *)
Definition unbar_vec (t : dtr A) (xs : list A) : out (list A) :=
  xs ← unmask_vec t xs;
  foldM (fun abt xs =>
    let '(a, b, theta) := abt in
    u ← idx xs a; v ← idx xs b;
    xs ← set xs a (0 + scos theta * u - ssin theta * v);
    set xs b (0 + ssin theta * u + scos theta * v)) (dt_rots t) xs.

(** bar_vec, constraint.rs:174-188 *)
Definition bar_vec (t : dtr A) (xs : list A) : out (list A) :=
  xs ← foldM (fun abt xs =>
    let '(a, b, theta) := abt in
    u ← idx xs a; v ← idx xs b;
    xs ← set xs a (0 + scos theta * u + ssin theta * v);
    set xs b (0 - ssin theta * u + scos theta * v)) (dt_rots t) xs;
  mask_vec t xs.
End transform.

(** ** ElementAssemblage, mod.rs:74-84.  The force maps are keyed by node ids. *)
Record elas (A : arith) := Elas {
  ea_nodes : list (point A);
  ea_cond : strain_cond A;
  ea_mat : material A;
  ea_elems : list (element A);
  ea_cons : list (constr A);
  ea_conc : gmap nat (point A);
  ea_line : gmap (nat * nat) (point A) }.
Global Arguments Elas {A} _ _ _ _ _ _ _.
Global Arguments ea_nodes {A} _.
Global Arguments ea_cond {A} _.
Global Arguments ea_mat {A} _.
Global Arguments ea_elems {A} _.
Global Arguments ea_cons {A} _.
Global Arguments ea_conc {A} _.
Global Arguments ea_line {A} _.

(** lexicographic order on index pairs, the derived Ord of (usize, usize) *)
Definition lex_le (x y : nat * nat) : Prop := x.1 < y.1 \/ x.1 = y.1 /\ x.2 <= y.2.
Global Instance lex_le_dec : RelDecision lex_le.
Proof. intros x y. unfold lex_le. apply _. Defined.
(** Vec::dedup: removes an element equal to the one kept before it *)
Fixpoint dedup (l : list (nat * nat)) : list (nat * nat) :=
  match l with
  | x :: l' => match dedup l' with
               | y :: r => if decide (x = y) then y :: r else x :: y :: r
               | [] => [x]
               end
  | [] => []
  end.

Section assemblage.
Context {A : arith}.
Implicit Types a : elas A.

(** new, mod.rs:87-97 *)
Definition ea_new (mat : material A) (cond : strain_cond A) : elas A :=
  Elas [] cond mat [] [] ∅ ∅.

(** node, mod.rs:107-110 *)
Definition ea_node a (n : nat) : out (point A) := idx (ea_nodes a) n.

(** node_count, mod.rs:211-213 *)
Definition node_count a : nat := length (ea_nodes a).

(** add_nodes, mod.rs:122-133, with the ids it answers *)
Definition add_nodes a (ns : list (point A)) : elas A * list nat :=
  (Elas (ea_nodes a ++ ns) (ea_cond a) (ea_mat a) (ea_elems a)
        (ea_cons a ++ replicate (length ns) Free) (ea_conc a) (ea_line a),
   seq (length (ea_nodes a)) (length ns)).

(** Element::new, element.rs:36-50, through build_element, mod.rs:68-70 *)
Definition build_element a (d : nat * nat * nat) : out (element A) :=
  p0 ← ea_node a d.1.1; p1 ← ea_node a d.1.2; p2 ← ea_node a d.2;
  Ret (El d (p0, p1, p2) (ea_mat a) (ea_cond a)).

(** add_element, mod.rs:142-158; the warning below 0.033 only prints *)
Definition add_element a (d : nat * nat * nat) : out (elas A) :=
  e ← build_element a d;
  j ← jacobian_ratio e;
  if sltb j s0 then Panic else
  Ret (Elas (ea_nodes a) (ea_cond a) (ea_mat a) (ea_elems a ++ [e]) (ea_cons a)
            (ea_conc a) (ea_line a)).

(** add_conc_force, mod.rs:167-169 *)
Definition add_conc_force a (n : nat) (f : point A) : elas A :=
  Elas (ea_nodes a) (ea_cond a) (ea_mat a) (ea_elems a) (ea_cons a) (<[n := f]> (ea_conc a)) (ea_line a).

(** add_dist_line_force, mod.rs:178-180 *)
Definition add_dist_line_force a (n m : nat) (f : point A) : elas A :=
  Elas (ea_nodes a) (ea_cond a) (ea_mat a) (ea_elems a) (ea_cons a) (ea_conc a)
       (<[(n, m) := f]> (ea_line a)).

(** the match of add_constraint, mod.rs:190-209 *)
Definition combine (old new : constr A) : constr A :=
  match old, new with
  | Free, c => c
  | AngleFixed a, AngleFixed b => AngleFixed (sdiv (sadd a b) (sz 2))
  | AngleFixed _, c => c
  | c, AngleFixed _ => c
  | XFixed, YFixed | YFixed, XFixed => XYFixed
  | c, _ => c
  end.

(** add_constraint, mod.rs:190-209 *)
Definition add_constraint a (n : nat) (c : constr A) : out (elas A) :=
  old ← idx (ea_cons a) n;
  cs ← set (ea_cons a) n (combine old c);
  Ret (Elas (ea_nodes a) (ea_cond a) (ea_mat a) (ea_elems a) cs (ea_conc a) (ea_line a)).

(** NodeDof::to_dof, mod.rs:48-50 *)
Definition to_dof (nd : nat * nat) : nat := nd.1 * 2 + nd.2.

(** the accumulation loops of calc_k and calc_m, mod.rs:215-228 and 230-243 *)
Definition accum (entries : element A -> out (list ((nat * nat) * (nat * nat) * A)))
  (els : list (element A)) (d : dict A) : out (dict A) :=
  foldM (fun e d =>
           l ← entries e;
           foldM (fun ijv d => index_upd d (to_dof ijv.1.1, to_dof ijv.1.2)
                                 (fun x => sadd x ijv.2)) l d) els d.

(** calc_k and calc_m, mod.rs:215-243 *)
Definition ea_calc_k a : out (dict A) :=
  accum calc_k (ea_elems a) (d_zeros (node_count a * 2, node_count a * 2)).
Definition ea_calc_m a : out (dict A) :=
  accum calc_m (ea_elems a) (d_zeros (node_count a * 2, node_count a * 2)).

(** calc_load, mod.rs:245-269; [oc] and [ol] are the traversal orders of the two maps *)
Definition conc_step (nf : nat * point A) (res : list A) : out (list A) :=
  foldM (fun d res => v ← pt_idx nf.2 d; set res (to_dof (nf.1, d)) v) (range 0 2) res.
Definition line_step (els : list (element A)) (ef : (nat * nat) * point A) (res : list A)
  : out (list A) :=
  foldM (fun e res =>
           if nodes_connect e ef.1.1 ef.1.2 then
             o ← int_f_l e ef.1 ef.2; l ← unwrap o;
             foldM (fun iv res => set res (to_dof iv.1) iv.2) l res
           else Ret res) els res.
Definition calc_load a (oc : list (nat * point A)) (ol : list ((nat * nat) * point A))
  : out (list A) :=
  res ← foldM conc_step oc (replicate (node_count a * 2) s0);
  foldM (line_step (ea_elems a)) ol res.

(** raw_to_node_disp, mod.rs:271-290 *)
Definition raw_to_node_disp a (raw : list A) : out (list (point A)) :=
  t ← from_constraints (ea_cons a);
  u ← unbar_vec t raw;
  mapM_out (fun n => foldM (fun d p => v ← idx u (to_dof (n, d)); pt_set p d v)
                           (range 0 2) (pt_zero 2)) (range 0 (node_count a)).

(** calc_displacements, mod.rs:292-310, the node displacements of the Deformation;
    [solver] is T::new followed by solve, col_vec goes through from_kr *)
Definition calc_displacements (ho : hash_oracle A) (oc : list (nat * point A))
  (ol : list ((nat * nat) * point A)) (solver : system A -> out (result unit (list A))) a
  : out (list (point A)) :=
  t ← from_constraints (ea_cons a);
  k ← ea_calc_k a;
  r ← calc_load a oc ol;
  k ← bar_matrix ho 0 t k;
  r ← bar_vec t r;
  rm ← col_vec (M := lm A) r;
  sys ← from_kr (fun k => d_nzs (ho 12 (d_data k))) k rm;
  x ← solver sys;
  match x with Ok raw => raw_to_node_disp a raw | Err _ => Panic end.

(** calc_modes, mod.rs:312-338: mode shapes with their angular frequencies.  The solver's
    traversals are numbered by a second oracle. *)
Definition calc_modes (ho ho' : hash_oracle A) (fl fi fs n : nat) (rnd : list A) a
  : out (list (list (point A) * A)) :=
  t ← from_constraints (ea_cons a);
  k ← ea_calc_k a;
  k ← bar_matrix ho 0 t k;
  m ← ea_calc_m a;
  m ← bar_matrix ho 6 t m;
  sys ← from_km (fun k => d_nzs (ho 12 (d_data k))) (fun m => d_nzs (ho 13 (d_data m))) k m;
  es ← eigen_new ho' sys;
  sp ← find_eigens fl fi fs n rnd (searcher_new es);
  mapM_out (fun p => d ← raw_to_node_disp a (ep_vec p); Ret (d, ssqrt (ep_value p))) sp.2.

(** triangles, mod.rs:340-347 *)
Definition ea_triangles a : list (nat * nat * nat) := concat (map e_triangles (ea_elems a)).

(** edges, mod.rs:349-359 *)
Definition ea_edges a : list (nat * nat) :=
  dedup (merge_sort lex_le (concat (map e_edges (ea_elems a)))).

(** ** Deformation, mod.rs:365-445; the displacements are passed explicitly *)

(** displacement_norms, mod.rs:388-390 *)
Definition displacement_norms (disp : list (point A)) : list A := map pt_norm disp.

(** displaced_nodes, mod.rs:392-400 *)
Definition displaced_nodes a (disp : list (point A)) (scale : A) : out (list (point A)) :=
  mapM_out (fun nd => pt_add nd.1 (pt_scale nd.2 scale)) (zip (ea_nodes a) disp).

(** Average<StressState>::update, /repo/src/matrix/mod.rs:510-532; stress addition can
    panic, unlike the generic model [average_update] *)
Definition st_update (v : average (stress A)) (s : stress A) : out (average (stress A)) :=
  match av_avg v with
  | Some avg => t ← st_add (st_mul avg (sz (Z.of_nat (av_n v)))) s;
                Ret (Average (S (av_n v)) (Some (st_div t (sz (Z.of_nat (S (av_n v)))))))
  | None => Ret (Average 1 (Some s))
  end.

(** stresses, mod.rs:402-420 *)
Definition ea_stresses a (disp : list (point A)) : out (list (option (stress A))) :=
  avs ← foldM (fun e avs =>
           l ← e_stresses e (idx disp);
           foldM (fun ns avs => v ← idx avs ns.1; v ← st_update v ns.2; set avs ns.1 v) l avs)
         (ea_elems a) (replicate (node_count a) average_new);
  Ret (map average_consume avs).

(** von_mises, mod.rs:422-428 *)
Definition ea_von_mises a (disp : list (point A)) : out (list A) :=
  l ← ea_stresses a disp;
  Ret (map (fun o => match o with Some s => von_mises s | None => s0 end) l).
End assemblage.
