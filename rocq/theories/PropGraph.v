(** Properties of permutations and graphs: C22 - C25. *)
From Verif Require Import EdgeProofs.

(** a slice permuted there and back is restored *)
Lemma permute_slice_back {B} n p (vals : list B) : perm_wf n p -> length vals = n ->
  exists v', permute_slice p vals = Ret v' /\ permute_slice (invert p) v' = Ret vals.
Proof.
  intros Wp Hl. destruct (permute_slice_ret n p vals Wp Hl) as (v' & E & Hv' & Hm). exists v'. split; [exact E|].
  destruct (permute_slice_ret n (invert p) v' (invert_wf n p Wp) Hv') as (v2 & E2 & Hv2 & Hm2). rewrite E2. f_equal.
  apply list_eq. intros i. destruct (decide (i < n)) as [Hi|Hi].
  - destruct (pf_lookup n p i Wp Hi) as (_ & Hlt & _ & Hb). specialize (Hm2 (pf p i) Hlt).
    change (pf (invert p) (pf p i)) with (pb p (pf p i)) in Hm2. rewrite Hb in Hm2. rewrite Hm2. now apply Hm.
  - rewrite !lookup_ge_None_2 by lia. reflexivity.
Qed.

(** *** C22 — permutations. *)
Theorem C22_accepts (pl : list nat) : NoDup pl -> (forall x, x ∈ pl -> x < length pl) ->
  exists p, from_placement pl = Ret p /\
    (forall i x, pl !! i = Some x -> unpermute p i = Ret x /\ permute p x = Ret i) /\
    (forall x, x < length pl -> exists i, permute p x = Ret i /\ i < length pl /\ unpermute p i = Ret x) /\
    (forall i, i < length pl -> exists x, unpermute p i = Ret x /\ x < length pl /\ permute p x = Ret i) /\
    (forall x, length pl <= x -> permute p x = Panic) /\
    invert (invert p) = p /\
    (forall x, permute (invert p) x = unpermute p x) /\
    (forall (B : Type) (vals : list B), length vals = length pl ->
       exists v', permute_slice p vals = Ret v' /\ length v' = length vals /\
         (forall i x, pl !! i = Some x -> v' !! i = vals !! x) /\
         permute_slice (invert p) v' = Ret vals) /\
    (forall (B : Type) (vals : list B), length vals <> length pl -> permute_slice p vals = Panic).
Proof.
  intros H1 H2. destruct (from_placement_ret pl H1 H2) as (p & E & Wp & Hb). exists p. split; [exact E|].
  assert (Hpl : forall i x, pl !! i = Some x -> i < length pl /\ pb p i = x /\ pf p x = i /\ x < length pl).
  { intros i x Hi. pose proof (lookup_lt_Some _ _ _ Hi) as Hlt. destruct (pb_lookup _ p i Wp Hlt) as (Hq & Hx & _ & Hf).
    rewrite Hb in Hq. assert (pb p i = x) as <- by congruence. auto. }
  split.
  { intros i x Hi. destruct (Hpl i x Hi) as (Hlt & <- & Hf & Hx). split; [now apply (unpermute_ret _ p i Wp)|].
    rewrite (permute_ret _ p _ Wp Hx). now rewrite Hf. }
  split.
  { intros x Hx. destruct (pf_lookup _ p x Wp Hx) as (_ & Hlt & _ & Hq). exists (pf p x).
    split; [now apply (permute_ret _ p x Wp)|]. split; [exact Hlt|]. rewrite (unpermute_ret _ p _ Wp Hlt). now rewrite Hq. }
  split.
  { intros x Hx. destruct (pb_lookup _ p x Wp Hx) as (_ & Hlt & _ & Hq). exists (pb p x).
    split; [now apply (unpermute_ret _ p x Wp)|]. split; [exact Hlt|]. rewrite (permute_ret _ p _ Wp Hlt). now rewrite Hq. }
  split; [intros x Hx; now apply (permute_panic _ p x Wp)|].
  split; [now destruct p|]. split; [reflexivity|]. split.
  - intros B vals Hl. destruct (permute_slice_ret _ p vals Wp Hl) as (v' & Ev & Hlv & Hm). exists v'. split; [exact Ev|].
    split; [lia|]. split.
    + intros i x Hi. destruct (Hpl i x Hi) as (Hlt & _ & Hf & Hx). rewrite <- (Hm x Hx). now rewrite Hf.
    + destruct (permute_slice_back _ p vals Wp Hl) as (v2 & E2 & E3). congruence.
  - intros B vals Hl. apply permute_slice_panic. now rewrite (pw_fwd _ p Wp).
Qed.
Print Assumptions C22_accepts.
Theorem C22_rejects (pl : list nat) : ~ (NoDup pl /\ forall x, x ∈ pl -> x < length pl) -> from_placement pl = Panic.
Proof. exact (from_placement_panic pl). Qed.
Print Assumptions C22_rejects.
Example C22_example :
  (p ← from_placement [2; 0; 1]; a ← permute_slice p [10; 11; 12]; b ← permute_slice (invert p) a; Ret (a, b))
    = Ret ([12; 10; 11], [10; 11; 12]) /\
  from_placement [1; 1; 0] = Panic /\ from_placement [0; 3; 1] = Panic.
Proof. split; [|split]; vm_compute; reflexivity. Qed.

(** *** C23 — bandwidth reordering of undirected graphs.  [nbrs g v] is the neighbour list
    of v, [walk g k u v] a walk of k edges, [dist g u v d] the length of a shortest one;
    [p_back p] lists the vertices in their new order. *)
Theorem C23_connected (g : graph) : graph_wf g -> 0 < vertex_count g ->
  (forall u v, u < vertex_count g -> v < vertex_count g -> reachable g u v) ->
  exists p s, rcm g = Ret p /\ pseudo_peripheral g = Ret s /\ p_back p ≡ₚ seq 0 (vertex_count g) /\
    (forall i u, p_back p !! i = Some u -> p_fwd p !! u = Some i) /\
    (forall i j u v du dv, i <= j -> p_back p !! i = Some u -> p_back p !! j = Some v ->
       dist g s u du -> dist g s v dv -> dv <= du).
Proof.
  intros W Hn Hc. destruct (rcm_spec g W Hn) as (s & Es & Hs & Hok & _).
  destruct (Hok (fun u Hu => Hc s u Hs Hu)) as (p & Ep & Wp & Hd). exists p, s. split; [exact Ep|]. split; [exact Es|].
  split; [|split; [|exact Hd]].
  - assert (Hnd : NoDup (p_back p)).
    { apply NoDup_alt. intros i j x Hi Hj.
      destruct (pb_lookup _ p i Wp) as (H1 & _ & H2 & _); [rewrite <- (pw_back _ p Wp); now apply lookup_lt_Some in Hi|].
      destruct (pb_lookup _ p j Wp) as (H3 & _ & H4 & _); [rewrite <- (pw_back _ p Wp); now apply lookup_lt_Some in Hj|].
      congruence. }
    apply submseteq_Permutation_length_le; [rewrite seq_length, (pw_back _ p Wp); lia|].
    apply NoDup_submseteq; [exact Hnd|]. intros x Hx. apply elem_of_list_lookup in Hx as (i & Hi).
    destruct (pb_lookup _ p i Wp) as (H1 & H2 & _); [rewrite <- (pw_back _ p Wp); now apply lookup_lt_Some in Hi|].
    apply elem_of_seq. assert (pb p i = x) by congruence. lia.
  - intros i u Hi. destruct (pb_lookup _ p i Wp) as (H1 & _ & H2 & _); [rewrite <- (pw_back _ p Wp); now apply lookup_lt_Some in Hi|]. congruence.
Qed.
Print Assumptions C23_connected.
Theorem C23_disconnected (g : graph) : graph_wf g -> graph_sym g ->
  (exists u v, u < vertex_count g /\ v < vertex_count g /\ ~ reachable g u v) \/ vertex_count g = 0 -> rcm g = Panic.
Proof.
  intros W Sy [(u & v & Hu & Hv & Hn)|H0]; [|now apply rcm_empty].
  destruct (rcm_spec g W ltac:(lia)) as (s & Es & Hs & _ & Hbad). apply Hbad.
  destruct (rcm_spec g W ltac:(lia)) as (s' & Es' & _ & Hok' & Hbad').
  assert (s' = s) as -> by congruence. clear Es'.
  destruct (set (replicate (vertex_count g) true) s false) as [mask| | |] eqn:Em;
    [|rewrite set_lookup in Em by (rewrite replicate_length; exact Hs); discriminate..].
  destruct (rcm_loop_cases g W s mask Hs Em) as [[_ Hex]|(om & _ & I)]; [exact Hex|].
  exfalso. destruct (rinv_n_all g s om I) as [_ Hp]. apply Hn.
  assert (Hr : forall x, x < vertex_count g -> reachable g s x).
  { intros x Hx. assert (Hin : x ∈ om.1) by (rewrite Hp; apply elem_of_seq; lia).
    destruct (ri_dist _ _ _ _ I x Hin) as (d & Hd & _). now exists d. }
  destruct (Hr u Hu) as (ku & Wu), (Hr v Hv) as (kv & Wv). exists (ku + kv). apply walk_app with s; [|exact Wv].
  now apply walk_sym.
Qed.
Print Assumptions C23_disconnected.

(** a path 3-0-2-1 given as edges: hypotheses met, order by decreasing distance from 1 *)
Example C23_example : exists g, from_edges 4 [(0, 2); (3, 0); (1, 2); (2, 2); (2, 0)] = Ret g /\
  graph_wf g /\ graph_sym g /\ vertex_count g = 4 /\ pseudo_peripheral g = Ret 1 /\
  (forall u v, u < 4 -> v < 4 -> reachable g u v) /\
  rcm g = Ret (Perm [1; 3; 2; 0] [3; 0; 2; 1]).
Proof.
  destruct (from_edges 4 [(0, 2); (3, 0); (1, 2); (2, 2); (2, 0)]) as [g| | |] eqn:E; [|vm_compute in E; discriminate..].
  destruct (from_edges_wf _ _ _ E) as (Wg & Sg & _). exists g. split; [reflexivity|]. split; [exact Wg|]. split; [exact Sg|].
  vm_compute in E. injection E as <-. split; [reflexivity|]. split; [vm_compute; reflexivity|]. split; [|vm_compute; reflexivity].
  assert (Hs : forall k u v w, walk (Graph [2; 3; 2; 0; 1; 0] [0; 2; 3; 5]) k u v -> bool_decide (w ∈ nbrs (Graph [2; 3; 2; 0; 1; 0] [0; 2; 3; 5]) v) = true ->
    walk (Graph [2; 3; 2; 0; 1; 0] [0; 2; 3; 5]) (S k) u w).
  { intros k u v w H1 H2. apply bool_decide_eq_true in H2. econstructor; eassumption. }
  assert (H1 : forall v, v < 4 -> reachable (Graph [2; 3; 2; 0; 1; 0] [0; 2; 3; 5]) 1 v).
  { intros v Hv. destruct v as [|[|[|[|v]]]]; [exists 2|exists 0|exists 1|exists 3|lia].
    - apply Hs with 2; [apply Hs with 1; [constructor|reflexivity]|reflexivity].
    - constructor.
    - apply Hs with 1; [constructor|reflexivity].
    - apply Hs with 0; [|reflexivity]. apply Hs with 2; [apply Hs with 1; [constructor|reflexivity]|reflexivity]. }
  intros u v Hu Hv. destruct (H1 u Hu) as (a & Ha), (H1 v Hv) as (b & Hb). exists (a + b).
  apply walk_app with 1; [|exact Hb]. now apply walk_sym.
Qed.
Example C23_example_disconnected : exists g, from_edges 4 [(0, 1); (2, 3)] = Ret g /\ rcm g = Panic.
Proof. eexists. split; vm_compute; reflexivity. Qed.

(** *** C24 — the farthest vertex, its distance, least degree among ties; termination of
    the peripheral search ([Fuel] never occurs). *)
Theorem C24_far_node (g : graph) (root : nat) : graph_wf g ->
  (root < vertex_count g -> exists v d, far_node g root = Ret (v, d) /\ dist g root v d /\
     (forall u e, dist g root u e -> e <= d) /\
     (forall u, dist g root u d -> length (nbrs g v) <= length (nbrs g u))) /\
  (vertex_count g <= root -> far_node g root = Panic).
Proof.
  intros W. split.
  - intros Hr. destruct (far_node_ret g W root Hr) as (v & d & E & _ & H1 & H2 & H3). eauto 10.
  - intros Hr. unfold far_node. now rewrite (proj2 (Nat.ltb_ge _ _) Hr).
Qed.
Print Assumptions C24_far_node.
Theorem C24_terminates (g : graph) : graph_wf g ->
  (0 < vertex_count g -> exists v, pseudo_peripheral g = Ret v /\ v < vertex_count g) /\
  (vertex_count g = 0 -> pseudo_peripheral g = Panic).
Proof.
  intros W. split; [apply (pseudo_peripheral_ret g W)|].
  intros H. unfold pseudo_peripheral. rewrite H. cbn. unfold far_node. now rewrite H.
Qed.
Print Assumptions C24_terminates.
(** 0-1, 1-2, 1-3, 3-4, 3-2 : from 0 vertices 2 and 3 are at distance 2 and 4 at 3 *)
Example C24_example : exists g, from_edges 5 [(0, 1); (1, 2); (1, 3); (3, 4); (3, 2)] = Ret g /\
  graph_wf g /\ far_node g 0 = Ret (4, 3) /\ far_node g 1 = Ret (4, 2) /\ far_node g 4 = Ret (0, 3).
Proof.
  destruct (from_edges 5 [(0, 1); (1, 2); (1, 3); (3, 4); (3, 2)]) as [g| | |] eqn:E; [|vm_compute in E; discriminate..].
  destruct (from_edges_wf _ _ _ E) as (Wg & _). exists g. split; [reflexivity|]. split; [exact Wg|].
  vm_compute in E. injection E as <-. repeat split; vm_compute; reflexivity.
Qed.

(** *** C25 — graphs from edges.  The adjacency is as claimed; the vertex count is one more
    than the largest vertex with an edge, which can be less than the count asked for. *)
Theorem C25_from_edges (vc : nat) (es : list (nat * nat)) :
  ((forall e, e ∈ es -> e.1 < vc /\ e.2 < vc) ->
   exists g, from_edges vc es = Ret g /\ graph_wf g /\
    (forall u, u < vertex_count g <-> exists a b, a <> b /\ ((a, b) ∈ es \/ (b, a) ∈ es) /\ u <= a) /\
    (forall u, u < vertex_count g -> exists l, adjacent g u = Ret l /\ StronglySorted lt l /\
       forall a, a ∈ l <-> u <> a /\ ((u, a) ∈ es \/ (a, u) ∈ es))) /\
  ((exists e, e ∈ es /\ (vc <= e.1 \/ vc <= e.2)) -> from_edges vc es = Panic).
Proof.
  split.
  - intros H. destruct (from_edges_ret vc es H) as (g & E & H1 & H2). exists g. split; [exact E|].
    split; [now apply (from_edges_wf vc es)|]. auto.
  - intros (e & He & Hb). now apply (from_edges_panic vc es e).
Qed.
Print Assumptions C25_from_edges.
(** when the last vertex has an edge to another vertex, every vertex is kept *)
Theorem C25_all_vertices (vc : nat) (es : list (nat * nat)) (g : graph) :
  from_edges (S vc) es = Ret g -> (exists b, b <> vc /\ ((vc, b) ∈ es \/ (b, vc) ∈ es)) -> vertex_count g = S vc.
Proof.
  intros E (b & Hb & Hes). destruct (from_edges_wf _ _ _ E) as (_ & _ & _ & H).
  destruct (from_edges_ret _ _ H) as (g' & E' & Hv & _). assert (g' = g) as -> by congruence.
  assert (H1 : vc < vertex_count g) by (apply Hv; exists vc, b; auto).
  destruct (decide (S vc < vertex_count g)) as [H2|]; [|lia]. exfalso.
  apply Hv in H2 as (a & c & _ & [Hin|Hin] & Hle); apply H in Hin; cbn in Hin; lia.
Qed.
Print Assumptions C25_all_vertices.
Theorem C25_refuted : exists vc es g, (forall e, e ∈ es -> e.1 < vc /\ e.2 < vc) /\ from_edges vc es = Ret g /\
  vc = 4 /\ vertex_count g = 2 /\ adjacent g 3 = Panic.
Proof.
  exists 4, [(0, 1); (3, 3)]. eexists. split.
  - intros e He. repeat (apply elem_of_cons in He as [->|He]; [cbn; lia|]). now apply elem_of_nil in He.
  - split; [vm_compute; reflexivity|]. repeat split; vm_compute; reflexivity.
Qed.
Print Assumptions C25_refuted.
(** graphs from explicit neighbour lists keep them *)
Theorem C25_from_lists (adjs : list (list nat)) : vertex_count (from_lol adjs) = length adjs /\
  forall u, adjacent (from_lol adjs) u = match adjs !! u with Some l => Ret l | None => Panic end.
Proof. exact (from_lol_ret adjs). Qed.
Print Assumptions C25_from_lists.
Example C25_example : exists g, from_edges 4 [(2, 0); (0, 2); (1, 1); (3, 2); (0, 1)] = Ret g /\
  map (adjacent g) [0; 1; 2; 3] = [Ret [1; 2]; Ret [0]; Ret [0; 3]; Ret [2]] /\ vertex_count g = 4 /\
  from_edges 3 [(0, 3)] = Panic.
Proof. eexists. split; [vm_compute; reflexivity|]. repeat split; vm_compute; reflexivity. Qed.
