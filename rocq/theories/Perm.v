(** Model of [Permutation] and [Graph].  /repo/src/matrix/graph.rs *)
From Verif Require Export Base.

(** [&l[a..b]]: panics when a > b or b > len *)
Definition slice {B} (l : list B) (a b : nat) : out (list B) :=
  if (a <=? b) && (b <=? length l) then Ret (take (b - a) (drop a l)) else Panic.

(** [sort_by] (a stable sort) for a total preorder [le]: every stable sort returns the
    same list, modelled by insertion sort. *)
Fixpoint insert_by {B} (le : B -> B -> bool) (x : B) (l : list B) : list B :=
  match l with
  | [] => [x]
  | y :: l' => if le x y then x :: l else y :: insert_by le x l'
  end.
Definition sort_by {B} (le : B -> B -> bool) (l : list B) : list B :=
  fold_right (insert_by le) [] l.

(** comparison by first then second component, graph.rs:58-61 and sparse.rs:113-116 *)
Definition lex_le (x y : nat * nat) : bool :=
  (x.1 <? y.1) || ((x.1 =? y.1) && (x.2 <=? y.2)).

(** ** Permutation, graph.rs:237-241 *)
Record permutation := Perm { p_fwd : list nat; p_back : list nat }.

(** from_placement, graph.rs:244-267.  The HashSet of seen values (lines 255-259) is
    the list [seen]. *)
Fixpoint all_new (len : nat) (seen p : list nat) : bool :=
  match p with
  | [] => true
  | x :: p' => negb (bool_decide (x ∈ seen)) && (x <? len) && all_new len (x :: seen) p'
  end.
Definition from_placement (p : list nat) : out permutation :=
  _ ← assert_ (all_new (length p) [] p);
  fb ← foldM (fun (ix : nat * nat) (fb : list nat * list nat) =>
                f ← set fb.1 ix.2 ix.1; b ← set fb.2 ix.1 ix.2; Ret (f, b))
             (zip (seq 0 (length p)) p) (replicate (length p) 0, replicate (length p) 0);
  Ret (Perm fb.1 fb.2).

(** identity, graph.rs:269-276 *)
Definition perm_identity (n : nat) : permutation := Perm (seq 0 n) (seq 0 n).

(** permute, graph.rs:278-280 *)
Definition permute (p : permutation) (x : nat) : out nat := idx (p_fwd p) x.

(** unpermute, graph.rs:292-294 *)
Definition unpermute (p : permutation) (x : nat) : out nat := idx (p_back p) x.

(** permute_slice, graph.rs:282-290 *)
Definition permute_slice {B} (p : permutation) (vals : list B) : out (list B) :=
  _ ← assert_ (length vals =? length (p_fwd p));
  foldM (fun (ix : nat * B) vals => j ← permute p ix.1; set vals j ix.2)
        (zip (seq 0 (length vals)) vals) vals.

(** invert, graph.rs:296-301 *)
Definition invert (p : permutation) : permutation := Perm (p_back p) (p_fwd p).

(** ** Graph, graph.rs:4-9 (the scratch buffer [temp] is not part of the value) *)
Record graph := Graph { g_adj : list nat; g_ind : list nat }.

(** from_lol, graph.rs:12-33 *)
Definition from_lol (adjs : list (list nat)) : graph :=
  fold_left (fun g adj => Graph (g_adj g ++ adj) (g_ind g ++ [length (g_adj g)]))
            adjs (Graph [] []).

(** from_edges, graph.rs:35-80 *)
Definition clean_edges (v_count : nat) (edges : list (nat * nat)) : out (list (nat * nat)) :=
  foldM (fun (e : nat * nat) acc =>
           if (v_count <=? e.1) || (v_count <=? e.2) then Panic
           else if e.1 =? e.2 then Ret acc
           else Ret (acc ++ [e; (e.2, e.1)]))
        edges [].

(** Vec::dedup: drops consecutive repetitions, graph.rs:63 *)
Fixpoint dedup (l : list (nat * nat)) : list (nat * nat) :=
  match l with
  | x :: (y :: _) as l' => if bool_decide (x = y) then dedup l' else x :: dedup l'
  | _ => l
  end.

(** the [while] of lines 72-74 pushes until indices.len() = x + 1 *)
Definition push_edge (g : graph) (e : nat * nat) : graph :=
  Graph (g_adj g ++ [e.2])
        (g_ind g ++ replicate (S e.1 - length (g_ind g)) (length (g_adj g))).

Definition from_edges (v_count : nat) (edges : list (nat * nat)) : out graph :=
  es ← clean_edges v_count edges;
  Ret (fold_left push_edge (dedup (sort_by lex_le es)) (Graph [] [])).

(** vertex_count, graph.rs:82-84 *)
Definition vertex_count (g : graph) : nat := length (g_ind g).

(** adj_idxs, graph.rs:86-95 *)
Definition adj_idxs (g : graph) (v : nat) : out (nat * nat) :=
  start ← idx (g_ind g) v;
  Ret (start, default (length (g_adj g)) (g_ind g !! (v + 1))).

(** adjacent, graph.rs:97-104 *)
Definition adjacent (g : graph) (v : nat) : out (list nat) :=
  _ ← assert_ (v <? vertex_count g);
  se ← adj_idxs g v;
  slice (g_adj g) se.1 se.2.

(** adjacent_masked, graph.rs:106-122 *)
Definition adjacent_masked (g : graph) (i : nat) (mask : list bool) : out (list nat) :=
  _ ← assert_ (i <? vertex_count g);
  se ← adj_idxs g i;
  foldM (fun x temp => v ← idx (g_adj g) x; b ← idx mask v;
                       Ret (if b : bool then temp ++ [v] else temp))
        (range se.1 se.2) [].

(** degree, graph.rs:124-129 *)
Definition degree (g : graph) (v : nat) : out nat := se ← adj_idxs g v; usub se.2 se.1.

(** one level of the breadth-first search, graph.rs:158-166 *)
Definition bfs_level (g : graph) (cur : list nat) (mask : list bool)
  : out (list nat * list bool) :=
  foldM (fun v (st : list nat * list bool) =>
           mask ← set st.2 v false;
           adj ← adjacent_masked g v mask;
           foldM (fun a (st : list nat * list bool) =>
                    mask ← set st.2 a false; Ret (st.1 ++ [a], mask))
                 adj (st.1, mask))
        cur ([], mask).

(** the loop of graph.rs:155-176 *)
Fixpoint bfs_loop (g : graph) (fuel : nat) (cur : list nat) (mask : list bool) (len : nat)
  : out (list nat * nat) :=
  match fuel with
  | O => Fuel
  | S f => nm ← bfs_level g cur mask;
           match nm.1 with
           | [] => Ret (cur, len)
           | _ => bfs_loop g f nm.1 nm.2 (len + 1)
           end
  end.

(** [min_by] with the degree as key keeps the first minimum, graph.rs:181-184 *)
Definition min_by_degree (g : graph) (l : list nat) : out (option nat) :=
  foldM (fun v best => match best with
                       | None => dv ← degree g v; Ret (Some v)
                       | Some b => db ← degree g b; dv ← degree g v;
                                   Ret (Some (if dv <? db then v else b))
                       end) l None.

(** far_node, graph.rs:139-186.  Every level of the loop unmasks a new vertex; the step
    bound is the vertex count plus one. *)
Definition far_node (g : graph) (root : nat) : out (nat * nat) :=
  _ ← assert_ (root <? vertex_count g);
  mask ← set (replicate (vertex_count g) true) root false;
  cl ← bfs_loop g (S (vertex_count g)) [root] mask 0;
  b ← min_by_degree g cl.1;
  v ← unwrap b;
  Ret (v, cl.2).

(** pseudo_peripheral, graph.rs:188-205 *)
Fixpoint periph_loop (g : graph) (fuel x longest : nat) : out nat :=
  match fuel with
  | O => Fuel
  | S f => nl ← far_node g x;
           if longest <? nl.2 then periph_loop g f nl.1 nl.2 else Ret nl.1
  end.
Definition pseudo_peripheral (g : graph) : out nat :=
  periph_loop g (S (S (vertex_count g))) 0 0.

(** reverse_cuthill_mckee, graph.rs:207-228 *)
Definition rcm_loop (g : graph) (start : nat) (mask : list bool) : out (list nat * list bool) :=
  foldM (fun i (st : list nat * list bool) =>
           v ← idx st.1 i;
           adj ← adjacent_masked g v st.2;
           foldM (fun a (st : list nat * list bool) =>
                    mask ← set st.2 a false; Ret (st.1 ++ [a], mask)) adj st)
        (range 0 (vertex_count g)) ([start], mask).
Definition rcm (g : graph) : out permutation :=
  s ← pseudo_peripheral g;
  mask ← set (replicate (vertex_count g) true) s false;
  om ← rcm_loop g s mask;
  _ ← assert_ (length om.1 =? vertex_count g);
  from_placement (rev om.1).
