(** Proofs about the plane boundary: chains of segments, closed loops, attributes. *)
From Verif Require Export Bounds Safety.

(** ** Chains: the segments from [x] through the vertices [l] *)
Fixpoint chain (x : nat) (l : list nat) : list segment :=
  match l with [] => [] | y :: l' => (x, y) :: chain y l' end.
Lemma chain_length x l : length (chain x l) = length l.
Proof. revert x; induction l as [|y l IH]; intros x; cbn; [reflexivity|now rewrite IH]. Qed.
Lemma chain_app x l y l' : chain x (l ++ y :: l') = chain x (l ++ [y]) ++ chain y l'.
Proof. revert x; induction l as [|z l IH]; intros x; cbn; [reflexivity|now rewrite IH]. Qed.
Lemma chain_snoc x l y : chain x (l ++ [y]) = chain x l ++ [(List.last l x, y)].
Proof.
  revert x; induction l as [|z l IH]; intros x; [reflexivity|]. cbn [app chain]. rewrite IH. cbn [app]. f_equal.
  destruct l; [reflexivity|]. do 2 f_equal. cbn [List.last]. f_equal. clear. revert n. induction l as [|w l IH]; intros n; [reflexivity|]. apply (IH w).
Qed.
Lemma chain_fst x l y : (chain x (l ++ [y])).*1 = x :: l.
Proof. revert x; induction l as [|z l IH]; intros x; cbn; [reflexivity|]. f_equal. apply IH. Qed.
Lemma chain_snd x l : (chain x l).*2 = l.
Proof. revert x; induction l as [|z l IH]; intros x; cbn; [reflexivity|]. f_equal. apply IH. Qed.

(** putting new vertices into one segment of a chain *)
Lemma chain_refine x l e a c E1 E2 ns : chain x (l ++ [e]) = E1 ++ (a, c) :: E2 ->
  exists l', chain x (l' ++ [e]) = E1 ++ chain a (ns ++ [c]) ++ E2 /\ sublist l l' /\ l' ≡ₚ ns ++ l.
Proof.
  revert x E1; induction l as [|z l IH]; intros x E1; cbn [app chain]; intros E.
  - destruct E1 as [|e1 E1]; cbn in E.
    + injection E as -> -> <-. exists ns. cbn. rewrite !app_nil_r. repeat split; [apply sublist_nil_l|reflexivity].
    + injection E as _ E. destruct E1; discriminate.
  - destruct E1 as [|e1 E1]; cbn in E.
    + injection E as -> -> <-. exists (ns ++ c :: l). split; [|split].
      * rewrite <- app_assoc. cbn [app]. rewrite chain_app. reflexivity.
      * apply (sublist_app [] ns (c :: l) (c :: l)); [apply sublist_nil_l|reflexivity].
      * reflexivity.
    + injection E as <- E. destruct (IH z E1 E) as (l' & E' & S' & P'). exists (z :: l'). cbn [app chain]. rewrite E'.
      split; [reflexivity|]. split; [now apply sublist_skip|]. rewrite P'. apply Permutation_middle.
Qed.

(** ** The walk along a chain *)
Lemma wall_from_chain (m : gmap nat nat) start : forall l fuel prev,
  (forall s, s ∈ chain prev (l ++ [start]) -> m !! s.1 = Some s.2) -> start ∉ l -> length l < fuel ->
  wall_from fuel m start prev = Ret (chain prev (l ++ [start])).
Proof.
  induction l as [|y l IH]; intros fuel prev Hm Hs Hf; (destruct fuel as [|fuel]; [cbn in Hf; lia|]); cbn [app chain wall_from].
  - pose proof (Hm (prev, start) ltac:(cbn; apply elem_of_list_here)) as M. cbn [fst snd] in M. rewrite M. now rewrite Nat.eqb_refl.
  - pose proof (Hm (prev, y) ltac:(cbn; apply elem_of_list_here)) as M. cbn [fst snd] in M. rewrite M.
    rewrite (proj2 (Nat.eqb_neq y start)) by (intros ->; apply Hs, elem_of_list_here).
    rewrite IH; [reflexivity| | |].
    + intros s H. apply Hm. cbn [app chain]. now apply elem_of_list_further.
    + intros H. apply Hs. now apply elem_of_list_further.
    + cbn in Hf. lia.
Qed.

(** ** Loops *)
Definition loop : Type := (nat * list nat)%type.
Definition loop_list (c : loop) : list nat := c.1 :: c.2.
Definition loop_edges (c : loop) : list segment := chain c.1 (c.2 ++ [c.1]).
Definition edges_of (cs : list loop) : list segment := concat (map loop_edges cs).
Definition verts_of (cs : list loop) : list nat := concat (map loop_list cs).
Lemma loop_edges_fst c : (loop_edges c).*1 = loop_list c.
Proof. apply chain_fst. Qed.
Lemma edges_fst cs : (edges_of cs).*1 = verts_of cs.
Proof.
  unfold edges_of, verts_of. induction cs as [|c cs IH]; [reflexivity|]. cbn [map concat]. rewrite fmap_app, IH. f_equal. apply loop_edges_fst.
Qed.
Lemma edges_app cs cs' : edges_of (cs ++ cs') = edges_of cs ++ edges_of cs'.
Proof. unfold edges_of. now rewrite map_app, concat_app. Qed.
Lemma verts_app cs cs' : verts_of (cs ++ cs') = verts_of cs ++ verts_of cs'.
Proof. unfold verts_of. now rewrite map_app, concat_app. Qed.
Lemma loop_edges_snd c : (loop_edges c).*2 ≡ₚ loop_list c.
Proof. unfold loop_edges, loop_list. rewrite chain_snd. symmetry. apply Permutation_cons_append. Qed.
Lemma edges_snd cs : (edges_of cs).*2 ≡ₚ verts_of cs.
Proof.
  unfold edges_of, verts_of. induction cs as [|c cs IH]; [reflexivity|]. cbn [map concat]. rewrite fmap_app, IH. now rewrite loop_edges_snd.
Qed.

(** the loop map: exactly the given segments, no vertex twice *)
Definition loops_ok (m : gmap nat nat) (cs : list loop) : Prop :=
  NoDup (verts_of cs) /\ forall u w, m !! u = Some w <-> (u, w) ∈ edges_of cs.
Lemma loops_size m cs : loops_ok m cs -> size m = length (edges_of cs).
Proof.
  intros [Hn Hm]. assert (m = list_to_map (edges_of cs)) as ->.
  { apply map_eq. intros u. apply option_eq. intros w. rewrite Hm. apply elem_of_list_to_map. now rewrite edges_fst. }
  rewrite <- (size_dom (D := gset nat)), dom_list_to_map_L, size_list_to_set by (now rewrite edges_fst). now rewrite fmap_length.
Qed.
Lemma wall_loop m cs c : loops_ok m cs -> c ∈ cs -> wall m c.1 = Ret (loop_edges c).
Proof.
  intros H Hc. pose proof (loops_size m cs H) as Hsz. destruct H as [Hn Hm]. unfold wall.
  apply elem_of_list_split in Hc as (l1 & l2 & ->).
  assert (Hin : forall s, s ∈ loop_edges c -> s ∈ edges_of (l1 ++ c :: l2)).
  { intros s Hs. rewrite edges_app. apply elem_of_app. right. unfold edges_of. cbn. apply elem_of_app. now left. }
  apply wall_from_chain.
  - intros [u w] Hs. apply Hm, Hin, Hs.
  - rewrite verts_app in Hn. apply NoDup_app in Hn as (_ & _ & Hn). unfold verts_of in Hn. cbn [map concat] in Hn.
    apply NoDup_app in Hn as (Hn & _ & _). now apply NoDup_cons in Hn as [Hn _].
  - rewrite Hsz, edges_app, app_length. unfold edges_of at 2. cbn [map concat]. rewrite app_length. unfold loop_edges at 1.
    rewrite chain_length, app_length. cbn. lia.
Qed.
Lemma all_walls_loops m cs : loops_ok m cs -> cs <> [] -> all_walls_of m (map fst cs) = Ret (edges_of cs).
Proof.
  intros H Hne. destruct cs as [|c cs]; [contradiction|]. cbn [map all_walls_of].
  rewrite (wall_loop m (c :: cs) c H) by apply elem_of_list_here. cbn [mbind out_bind].
  assert (K : forall l, (forall d, d ∈ l -> d ∈ c :: cs) ->
    mapM_out (fun t => w ← wall m t; _ ← assert_ (negb (length w =? 0)); Ret w) (map fst l) = Ret (map loop_edges l)).
  { induction l as [|d l IH]; intros Hl; [reflexivity|]. cbn [map mapM_out].
    rewrite (wall_loop m (c :: cs) d H) by (apply Hl, elem_of_list_here). cbn [mbind out_bind].
    replace (length (loop_edges d) =? 0) with false by (symmetry; apply Nat.eqb_neq; unfold loop_edges; rewrite chain_length, app_length; cbn; lia).
    cbn [negb assert_ mbind out_bind].
    rewrite IH by (intros e He; apply Hl; now apply elem_of_list_further). reflexivity. }
  rewrite K by (intros d Hd; now apply elem_of_list_further). reflexivity.
Qed.

(** inserting new vertices into one segment of the loops *)
Lemma loops_refine cs a c ns : (a, c) ∈ edges_of cs ->
  exists cs' E1 E2, edges_of cs = E1 ++ (a, c) :: E2 /\ edges_of cs' = E1 ++ chain a (ns ++ [c]) ++ E2 /\
    verts_of cs' ≡ₚ ns ++ verts_of cs /\
    Forall2 (fun d d' => d.1 = d'.1 /\ sublist d.2 d'.2) cs cs'.
Proof.
  unfold edges_of. induction cs as [|d cs IH]; cbn [map concat]; intros H; [apply elem_of_nil in H; contradiction|].
  assert (R : Forall2 (fun d d' : loop => d.1 = d'.1 /\ sublist d.2 d'.2) cs cs).
  { clear. induction cs; constructor; [split; reflexivity|assumption]. }
  apply elem_of_app in H as [H|H].
  - apply elem_of_list_split in H as (E1 & E2 & E). destruct (chain_refine _ _ _ _ _ E1 E2 ns E) as (l' & E' & S' & P').
    exists ((d.1, l') :: cs), E1, (E2 ++ concat (map loop_edges cs)). cbn [map concat]. rewrite E, <- app_assoc. split; [reflexivity|].
    change (loop_edges (d.1, l')) with (chain d.1 (l' ++ [d.1])). rewrite E', <- !app_assoc. split; [reflexivity|].
    split; [|constructor; [split; [reflexivity|exact S']|exact R]].
    unfold verts_of. cbn [map concat]. change (loop_list (d.1, l')) with (d.1 :: l'). rewrite P'. unfold loop_list. cbn [app].
    rewrite <- app_assoc. rewrite (Permutation_middle ns). reflexivity.
  - destruct (IH H) as (cs' & E1 & E2 & Ea & Eb & P & F). exists (d :: cs'), (loop_edges d ++ E1), E2. cbn [map concat].
    rewrite Ea, Eb, <- !app_assoc. repeat split; [|constructor; [split; reflexivity|exact F]].
    unfold verts_of in *. cbn [map concat]. rewrite P. rewrite !app_assoc, (Permutation_app_comm ns). reflexivity.
Qed.

(** ** Inserting the segments of a chain into the maps *)
Definition insert_all (m : gmap nat nat) (l : list segment) : gmap nat nat := fold_left (fun m s => <[s.1 := s.2]> m) l m.
Lemma insert_all_app m l l' : insert_all m (l ++ l') = insert_all (insert_all m l) l'.
Proof. apply fold_left_app. Qed.
Lemma insert_all_lookup m l u w : NoDup l.*1 ->
  insert_all m l !! u = Some w <-> (u, w) ∈ l \/ (u ∉ l.*1 /\ m !! u = Some w).
Proof.
  revert m; induction l as [|[x y] l IH]; intros m; cbn [fmap list_fmap insert_all fold_left].
  - intros _. split; [intros H; right; split; [apply not_elem_of_nil|exact H]|intros [H|[_ H]]; [apply elem_of_nil in H; contradiction|exact H]].
  - intros [Hx Hn]%NoDup_cons. change (fold_left _ l ?m0) with (insert_all m0 l). rewrite IH by exact Hn. cbn [fst snd].
    rewrite not_elem_of_cons, elem_of_cons. split.
    + intros [H|[H1 H2]]; [auto|]. destruct (decide (u = x)) as [->|Hu].
      * rewrite lookup_insert in H2. injection H2 as ->. auto.
      * rewrite lookup_insert_ne in H2 by congruence. auto.
    + intros [[[= -> ->]|H]|[[H1 H2] H3]]; [right|now left|right].
      * split; [exact Hx|apply lookup_insert].
      * split; [exact H2|]. now rewrite lookup_insert_ne by congruence.
Qed.

(** replacing one segment by a chain of fresh vertices *)
Lemma loops_ok_refine (m : gmap nat nat) cs a c ns : loops_ok m cs -> (a, c) ∈ edges_of cs ->
  NoDup ns -> (forall v, v ∈ ns -> v ∉ verts_of cs) ->
  exists cs', loops_ok (insert_all (delete a m) (chain a (ns ++ [c]))) cs' /\
    verts_of cs' ≡ₚ ns ++ verts_of cs /\ Forall2 (fun d d' => d.1 = d'.1 /\ sublist d.2 d'.2) cs cs' /\
    (forall s, s ∈ edges_of cs' <-> s ∈ chain a (ns ++ [c]) \/ (s ∈ edges_of cs /\ s <> (a, c))).
Proof.
  intros [Hn Hm] Hin Hns Hf. destruct (loops_refine cs a c ns Hin) as (cs' & E1 & E2 & Ea & Eb & P & F).
  assert (Hn' : NoDup (verts_of cs')).
  { rewrite P. apply NoDup_app. auto. }
  assert (Hk : NoDup (edges_of cs).*1) by (now rewrite edges_fst).
  assert (Ka : a ∉ E1.*1 /\ a ∉ E2.*1).
  { rewrite Ea, fmap_app in Hk. cbn in Hk. apply NoDup_app in Hk as (_ & H1 & H2). apply NoDup_cons in H2 as [H2 _].
    split; [|exact H2]. intros H. apply (H1 a H), elem_of_list_here. }
  assert (Es : forall s, s ∈ edges_of cs' <-> s ∈ chain a (ns ++ [c]) \/ (s ∈ edges_of cs /\ s <> (a, c))).
  { intros s. rewrite Ea, Eb, !elem_of_app, elem_of_cons. split.
    - intros [H|[H|H]]; [right|now left|right]; (split; [auto|]); intros ->;
        [apply (proj1 Ka)|apply (proj2 Ka)]; apply elem_of_list_fmap; exists (a, c); auto.
    - intros [H|[[H|[H|H]] Hs]]; auto. contradiction. }
  exists cs'. split; [split; [exact Hn'|]|auto].
  intros u w. rewrite insert_all_lookup by (rewrite chain_fst; apply NoDup_cons; split;
    [intros H; apply (Hf a H); rewrite <- edges_fst; apply elem_of_list_fmap; exists (a, c); auto|exact Hns]).
  rewrite Es, chain_fst, not_elem_of_cons. split.
  - intros [H|[[H1 H2] H3]]; [now left|]. right. rewrite lookup_delete_ne in H3 by congruence. split; [now apply Hm|congruence].
  - intros [H|[H1 H2]]; [now left|]. right.
    assert (Hu : u <> a).
    { intros ->. apply H2. f_equal. apply Hm in H1. apply Hm in Hin. congruence. }
    split; [split; [exact Hu|]|].
    + intros H. apply (Hf u H). rewrite <- edges_fst. apply elem_of_list_fmap. exists (u, w). auto.
    + rewrite lookup_delete_ne by congruence. now apply Hm.
Qed.

(** ** The operations as updates of the whole record *)
Definition put_all {K V : Type} `{Countable K} (m : gmap K V) (l : list K) (o : option V) : gmap K V :=
  fold_left (fun m s => put_opt m s o) l m.
Definition set_all (X : gset segment) (l : list segment) : gset segment := fold_left (fun X s => {[s]} ∪ X) l X.
Lemma put_all_None {K V : Type} `{Countable K} (m : gmap K V) l : put_all m l None = m.
Proof. unfold put_all. induction l as [|x l IH]; [reflexivity|exact IH]. Qed.
Lemma put_all_Some {K V : Type} `{Countable K} (m : gmap K V) l v t :
  put_all m l (Some v) !! t = if decide (t ∈ l) then Some v else m !! t.
Proof.
  revert m; induction l as [|x l IH]; intros m.
  - cbn. rewrite decide_False by apply not_elem_of_nil. reflexivity.
  - change (put_all m (x :: l) (Some v)) with (put_all (<[x := v]> m) l (Some v)). rewrite IH.
    destruct (decide (t ∈ l)) as [Hl|Hl].
    + rewrite decide_True by (now apply elem_of_list_further). reflexivity.
    + destruct (decide (t = x)) as [->|Hx].
      * rewrite decide_True by apply elem_of_list_here. apply lookup_insert.
      * rewrite decide_False by (intros [?|?]%elem_of_cons; contradiction). apply lookup_insert_ne; congruence.
Qed.
Lemma elem_of_set_all X l s : s ∈ set_all X l <-> s ∈ l \/ s ∈ X.
Proof.
  revert X; induction l as [|x l IH]; intros X; cbn.
  - rewrite elem_of_nil. tauto.
  - change (fold_left _ l ?Y) with (set_all Y l). rewrite IH, elem_of_cons, elem_of_union, elem_of_singleton. tauto.
Qed.

Section ops.
Context {A : arith} (g : geo A).
Implicit Types b : bound A.

Definition div_step (dist_f : option (point A)) (dist_c : option (constr A)) (leg : xy A) (x : nat) (st : bound A * nat * xy A) : out (bound A * nat * xy A) :=
    let '(b, cur, new_point) := st in
    let '(b, i) := store_vertex b new_point in
    let b := store_segment_unchecked b (cur, i) in
    let b := with_attrs b (put_opt (b_cons b) i dist_c) (put_opt (b_forces b) (cur, i) dist_f) (put_opt (b_dcons b) (cur, i) dist_c) in
    Ret (b, i, xy_add new_point leg).

(** k points from p on, each a leg further *)
Fixpoint steps (p leg : xy A) (k : nat) : list (xy A) :=
  match k with 0 => [] | S k => p :: steps (xy_add p leg) leg k end.
Lemma steps_length p leg k : length (steps p leg k) = k.
Proof. revert p; induction k as [|k IH]; intros p; cbn; [reflexivity|now rewrite IH]. Qed.

Lemma div_loop f c leg : forall k j b cur np, exists np',
  foldM (div_step f c leg) (seq j k) (b, cur, np) =
  Ret (Bnd (b_pts b ++ steps np leg k) (b_verts b ++ seq (length (b_pts b)) k) (b_starts b)
        (insert_all (b_map b) (chain cur (seq (length (b_pts b)) k))) (set_all (b_set b) (chain cur (seq (length (b_pts b)) k)))
        (b_base_starts b) (b_base_map b) (b_cond b) (b_mat b)
        (put_all (b_cons b) (seq (length (b_pts b)) k) c)
        (put_all (b_forces b) (chain cur (seq (length (b_pts b)) k)) f)
        (put_all (b_dcons b) (chain cur (seq (length (b_pts b)) k)) c),
       List.last (seq (length (b_pts b)) k) cur, np').
Proof.
  induction k as [|k IH]; intros j b cur np.
  - cbn. exists np. rewrite !app_nil_r. destruct b. reflexivity.
  - set (b1 := Bnd (b_pts b ++ [np]) (b_verts b ++ [length (b_pts b)]) (b_starts b) (<[cur := length (b_pts b)]> (b_map b))
      ({[(cur, length (b_pts b))]} ∪ b_set b) (b_base_starts b) (b_base_map b) (b_cond b) (b_mat b) (put_opt (b_cons b) (length (b_pts b)) c)
      (put_opt (b_forces b) (cur, length (b_pts b)) f) (put_opt (b_dcons b) (cur, length (b_pts b)) c)).
    destruct (IH (S j) b1 (length (b_pts b)) (xy_add np leg)) as (np' & E).
    change (foldM (div_step f c leg) (seq j (S k)) (b, cur, np)) with (foldM (div_step f c leg) (seq (S j) k) (b1, length (b_pts b), xy_add np leg)).
    unfold b1 in *. clear b1. cbn [seq].
    exists np'. rewrite E. clear E IH. cbn [b_pts b_verts b_starts b_map b_set b_base_starts b_base_map b_cond b_mat b_cons b_forces b_dcons
      with_attrs store_segment_unchecked with_segs with_verts with_pts fst snd].
    rewrite app_length. cbn [length]. replace (length (b_pts b) + 1) with (S (length (b_pts b))) by lia. cbn [steps].
    rewrite <- !app_assoc. cbn [app]. do 2 f_equal. f_equal. clear. cbn [List.last].
    assert (K : forall l (n : nat), List.last l n = match l with [] => n | _ :: _ => List.last l cur end).
    { induction l as [|x [|y l] IH]; intros n; [reflexivity|reflexivity|]. exact (IH n). }
    apply K.
Qed.

(** the attributes moved from a segment to the pieces replacing it *)
Definition carried {V : Type} (m : gmap segment V) (s : segment) : option V :=
  match m !! s with Some v => Some v | None => m !! seg_rev s end.
Definition removed {V : Type} (m : gmap segment V) (s : segment) : gmap segment V := delete s (take_attr m s).1.
Lemma take_attr_snd {V : Type} (m : gmap segment V) s : (take_attr m s).2 = carried m s.
Proof. unfold take_attr, carried. destruct (m !! s); reflexivity. Qed.
Lemma removed_None {V : Type} (m : gmap segment V) s : carried m s = None -> removed m s = m.
Proof.
  unfold carried, removed, take_attr. destruct (m !! s) eqn:E; [discriminate|]. intros E'. cbn [fst].
  rewrite (delete_notin m (seg_rev s) E'). now apply delete_notin.
Qed.
Lemma removed_lookup {V : Type} (m : gmap segment V) s t :
  removed m s !! t = if decide (t = s \/ (t = seg_rev s /\ m !! s = None)) then None else m !! t.
Proof.
  unfold removed, take_attr. destruct (m !! s) as [v|] eqn:E; cbn [fst].
  - destruct (decide (t = s)) as [->|Hs].
    + rewrite lookup_delete. now rewrite decide_True by auto.
    + rewrite !lookup_delete_ne by congruence. rewrite decide_False by (intros [?|[_ ?]]; congruence). reflexivity.
  - destruct (decide (t = s)) as [->|Hs].
    + rewrite lookup_delete. now rewrite decide_True by auto.
    + rewrite lookup_delete_ne by congruence. destruct (decide (t = seg_rev s)) as [->|Hr].
      * rewrite lookup_delete. now rewrite decide_True by auto.
      * rewrite lookup_delete_ne by congruence. rewrite decide_False by (intros [?|[? _]]; congruence). reflexivity.
Qed.

(** number of pieces of divide_segment, when it does not panic *)
Definition div_num (a c : xy A) (h : A) : Z := g_floor g (sdiv (xy_dist a c) h).
Definition div_low (a c : xy A) (h : A) : Z := g_floor g (sdiv (xy_dist a c) (smul h (ssqrt (sz 3)))).
Definition div_leg (a c : xy A) (h : A) : xy A :=
  xy_scale (xy_unit (xy_sub c a)) (sdiv (xy_dist a c) (sz (div_num a c h))).
Definition pieces b (s : segment) (k : nat) : list segment := chain s.1 (seq (length (b_pts b)) k ++ [s.2]).

Lemma divide_ret b s h b' : divide_segment g b s h = Ret b' ->
  let a := vget b s.1 in let c := vget b s.2 in let k := Z.to_nat (div_num a c h - 1) in
  let ns := seq (length (b_pts b)) k in
  s ∈ b_set b /\ div_low a c h <> div_num a c h /\
  b' = Bnd (b_pts b ++ steps (xy_add a (div_leg a c h)) (div_leg a c h) k) (b_verts b ++ ns) (b_starts b)
        (insert_all (delete s.1 (b_map b)) (pieces b s k)) (set_all (b_set b ∖ {[s]}) (pieces b s k))
        (b_base_starts b) (b_base_map b) (b_cond b) (b_mat b)
        (put_all (b_cons b) (ns ++ [s.1; s.2]) (carried (b_dcons b) s))
        (put_all (removed (b_forces b) s) (pieces b s k) (carried (b_forces b) s))
        (put_all (removed (b_dcons b) s) (chain s.1 ns) (carried (b_dcons b) s)).
Proof.
  intros E. cbv zeta. unfold divide_segment in E. apply bind_ret_inv in E as ([] & Ha & E). unfold assert_ in Ha.
  destruct (is_segment b s) eqn:Hs; [|discriminate]. clear Ha. unfold is_segment in Hs. apply bool_decide_eq_true in Hs.
  cbv zeta in E. fold (div_num (vget b s.1) (vget b s.2) h) in E. fold (div_low (vget b s.1) (vget b s.2) h) in E. fold (div_leg (vget b s.1) (vget b s.2) h) in E.
  destruct (Z.eqb_spec (div_low (vget b s.1) (vget b s.2) h) (div_num (vget b s.1) (vget b s.2) h)) as [?|Hn]; [discriminate|].
  split; [exact Hs|]. split; [exact Hn|]. set (k := Z.to_nat _) in *. set (leg := div_leg _ _ _) in *.
  pose proof (take_attr_snd (b_forces b) s) as Tf. pose proof (take_attr_snd (b_dcons b) s) as Tc.
  destruct (take_attr (b_forces b) s) as [fs of] eqn:Ef. destruct (take_attr (b_dcons b) s) as [ds oc] eqn:Ed. cbn [snd] in Tf, Tc. subst of oc.
  fold (div_step (carried (b_forces b) s) (carried (b_dcons b) s) leg) in E.
  match type of E with context [foldM _ _ (?b0, ?i, ?q)] =>
    destruct (div_loop (carried (b_forces b) s) (carried (b_dcons b) s) leg k 0 b0 i q) as (np' & El) end.
  rewrite El in E. clear El. cbn [mbind out_bind] in E. injection E as <-.
  unfold with_attrs, store_segment_unchecked, remove_segment, with_segs, with_verts, with_pts, with_attrs. cbn [b_pts b_verts b_starts b_map b_set b_base_starts b_base_map b_cond b_mat b_cons b_forces b_dcons
      with_attrs store_segment_unchecked remove_segment with_segs with_verts with_pts fst snd].
  unfold removed. rewrite Ef, Ed. cbn [fst]. unfold pieces. rewrite chain_snoc. f_equal.
  - rewrite insert_all_app. reflexivity.
  - unfold set_all. rewrite fold_left_app. reflexivity.
  - unfold put_all. rewrite fold_left_app. reflexivity.
  - unfold put_all. rewrite fold_left_app. reflexivity.
Qed.

Lemma split_ret b s r : split_segment b s = Ret r ->
  let m := length (b_pts b) in
  s ∈ b_set b /\
  r = (Bnd (b_pts b ++ [xy_mid (vget b s.1) (vget b s.2)]) (b_verts b ++ [m]) (b_starts b)
        (insert_all (delete s.1 (b_map b)) (pieces b s 1)) (set_all (b_set b ∖ {[s]}) (pieces b s 1))
        (b_base_starts b) (b_base_map b) (b_cond b) (b_mat b) (b_cons b)
        (put_all (removed (b_forces b) s) (pieces b s 1) (carried (b_forces b) s))
        (put_all (removed (b_dcons b) s) (pieces b s 1) (carried (b_dcons b) s)),
       ((s.1, m), (m, s.2), m)).
Proof.
  intros E. cbv zeta. unfold split_segment in E. apply bind_ret_inv in E as ([] & Ha & E). unfold assert_ in Ha.
  destruct (is_segment b s) eqn:Hs; [|discriminate]. clear Ha. unfold is_segment in Hs. apply bool_decide_eq_true in Hs.
  split; [exact Hs|]. cbn [store_vertex vertex_new] in E. cbv zeta in E.
  cbn [b_forces b_dcons with_verts with_pts] in E.
  pose proof (take_attr_snd (b_forces b) s) as Tf. pose proof (take_attr_snd (b_dcons b) s) as Tc.
  destruct (take_attr (b_forces b) s) as [fs of] eqn:Ef. destruct (take_attr (b_dcons b) s) as [ds oc] eqn:Ed. cbn [snd] in Tf, Tc. subst of oc.
  injection E as <-. f_equal. unfold removed. rewrite Ef, Ed. reflexivity.
Qed.
End ops.

(** ** Polygons *)
Section polygon.
Context {A : arith} (g : geo A).
Implicit Types b : bound A.

Lemma base_segment_ret b s b' : store_base_segment g b s = Ret b' ->
  b' = Bnd (b_pts b) (b_verts b) (b_starts b) (insert_all (b_map b) [s]) (set_all (b_set b) [s]) (b_base_starts b)
         (insert_all (b_base_map b) [s]) (b_cond b) (b_mat b) (b_cons b) (b_forces b) (b_dcons b).
Proof. unfold store_base_segment. destruct (intersects _ _ _ _ _); [discriminate|]. intros [= <-]. reflexivity. Qed.

Definition poly_step (p : xy A) (st : bound A * nat * list nat) : out (bound A * nat * list nat) :=
  let '(b, prev, ids) := st in
  let '(b, i) := store_vertex b p in
  b ← store_base_segment g b (prev, i);
  Ret (b, i, ids ++ [i]).

Lemma poly_loop : forall poly b prev ids r, foldM poly_step poly (b, prev, ids) = Ret r ->
  let ns := seq (length (b_pts b)) (length poly) in
  r = (Bnd (b_pts b ++ poly) (b_verts b ++ ns) (b_starts b) (insert_all (b_map b) (chain prev ns)) (set_all (b_set b) (chain prev ns))
         (b_base_starts b) (insert_all (b_base_map b) (chain prev ns)) (b_cond b) (b_mat b) (b_cons b) (b_forces b) (b_dcons b),
       List.last ns prev, ids ++ ns).
Proof.
  induction poly as [|p poly IH]; intros b prev ids r; cbn [foldM].
  - intros [= <-]. cbn. rewrite !app_nil_r. destruct b. reflexivity.
  - unfold poly_step at 1. cbn [store_vertex vertex_new]. intros E. apply bind_ret_inv in E as (st & E & F).
    apply bind_ret_inv in E as (b1 & E & E'). injection E' as <-. apply base_segment_ret in E.
    unfold with_verts, with_pts in E. cbn in E. subst b1. apply IH in F. cbv zeta in F |- *. cbn in F. rewrite app_length in F. cbn [length] in F.
    replace (length (b_pts b) + 1) with (S (length (b_pts b))) in F by lia. rewrite F. cbn [seq length].
    rewrite <- !app_assoc. cbn [app]. do 2 f_equal. clear. cbn [List.last].
    assert (K : forall l (n : nat), List.last l n = match l with [] => n | _ :: _ => List.last l prev end).
    { induction l as [|x [|y l] IH]; intros n; [reflexivity|reflexivity|]. exact (IH n). }
    apply K.
Qed.

Lemma polygon_ret b poly r : store_polygon g b poly = Ret r ->
  exists p rest, poly = p :: rest /\
  let N := length (b_pts b) in let es := loop_edges (N, seq (S N) (length rest)) in
  r = (Bnd (b_pts b ++ poly) (b_verts b ++ seq N (length poly)) (b_starts b ++ [N]) (insert_all (b_map b) es) (set_all (b_set b) es)
         (b_base_starts b ++ [N]) (insert_all (b_base_map b) es) (b_cond b) (b_mat b) (b_cons b) (b_forces b) (b_dcons b),
       seq N (length poly)).
Proof.
  destruct poly as [|p rest]; [discriminate|]. intros E. exists p, rest. split; [reflexivity|].
  unfold store_polygon in E. cbn [store_vertex vertex_new] in E. fold poly_step in E.
  apply bind_ret_inv in E as (st & E & F). apply poly_loop in E. cbv zeta in E. subst st.
  apply bind_ret_inv in F as (b1 & E & F). apply base_segment_ret in E. injection F as <-.
  unfold with_starts, with_verts, with_pts in E. cbn in E. rewrite app_length in E. cbn [length] in E.
  replace (length (b_pts b) + 1) with (S (length (b_pts b))) in E by lia. subst b1. cbv zeta. cbn [length seq].
  unfold with_starts, with_verts, with_pts. cbn [b_pts b_verts b_starts b_map b_set b_base_starts b_base_map b_cond b_mat b_cons b_forces b_dcons].
  rewrite app_length. cbn [length]. replace (length (b_pts b) + 1) with (S (length (b_pts b))) by lia.
  rewrite <- !app_assoc. cbn [app]. f_equal. unfold loop_edges. cbn [fst snd]. rewrite chain_snoc. rewrite !insert_all_app. unfold set_all. rewrite fold_left_app. reflexivity.
Qed.
End polygon.

(** ** Histories *)
Inductive bd_op (A : arith) :=
| DPoly (poly : list (xy A)) | DVertex (p : xy A) | DNew (p : xy A) | DSplit (s : segment) | DDivide (s : segment) (h : A)
| DDivAll (ord : list segment) (h : A) | DCons (v : nat) (c : constr A) | DForce (v w : nat) (f : point A)
| DDcons (v w : nat) (c : constr A) | DCond (c : strain_cond A) | DMat (m : material A).
Global Arguments DPoly {A} _.
Global Arguments DVertex {A} _.
Global Arguments DNew {A} _.
Global Arguments DSplit {A} _.
Global Arguments DDivide {A} _ _.
Global Arguments DDivAll {A} _ _.
Global Arguments DCons {A} _ _.
Global Arguments DForce {A} _ _ _.
Global Arguments DDcons {A} _ _ _.
Global Arguments DCond {A} _.
Global Arguments DMat {A} _.

Section history.
Context {A : arith} (g : geo A).
Implicit Types b : bound A.

(** the boundary, and the vertex lists store_polygon has returned *)
Definition bd_step (o : bd_op A) (st : bound A * list (list nat)) : out (bound A * list (list nat)) :=
  let '(b, polys) := st in
  match o with
  | DPoly poly => r ← store_polygon g b poly; Ret (r.1, polys ++ [r.2])
  | DVertex p => Ret ((store_vertex b p).1, polys)
  | DNew p => Ret ((vertex_new b p).1, polys)
  | DSplit s => r ← split_segment b s; Ret (r.1, polys)
  | DDivide s h => b ← divide_segment g b s h; Ret (b, polys)
  | DDivAll ord h => b ← divide_all_segments g b ord h; Ret (b, polys)
  | DCons v c => Ret (store_constraint b v c, polys)
  | DForce v w f => Ret (store_distributed_force b v w f, polys)
  | DDcons v w c => Ret (store_distributed_constraint b v w c, polys)
  | DCond c => Ret (set_condition b c, polys)
  | DMat m => Ret (set_material b m, polys)
  end.

(** the invariant: [base] are the stored polygons, [cs] the refined loops *)
Record bd_inv b (base cs : list loop) : Prop := {
  bi_starts : b_starts b = map fst cs;
  bi_loops : loops_ok (b_map b) cs;
  bi_set : forall s, s ∈ b_set b <-> s ∈ edges_of cs;
  bi_base_starts : b_base_starts b = map fst base;
  bi_base : loops_ok (b_base_map b) base;
  bi_refines : Forall2 (fun d d' : loop => d.1 = d'.1 /\ sublist d.2 d'.2) base cs;
  bi_stored : forall v, v ∈ verts_of cs -> v ∈ b_verts b;
  bi_fresh : forall v, v ∈ b_verts b -> v < length (b_pts b);
  bi_distinct : NoDup (b_verts b) }.

Lemma refines_fst base cs : Forall2 (fun d d' : loop => d.1 = d'.1 /\ sublist d.2 d'.2) base cs -> map fst base = map fst cs.
Proof. induction 1 as [|d d' ? ? [H _] _ IH]; cbn; [reflexivity|now rewrite H, IH]. Qed.
Lemma refines_verts base cs v : Forall2 (fun d d' : loop => d.1 = d'.1 /\ sublist d.2 d'.2) base cs -> v ∈ verts_of base -> v ∈ verts_of cs.
Proof.
  induction 1 as [|d d' ? ? [H H'] _ IH]; [auto|]. unfold verts_of in *. cbn [map concat]. rewrite !elem_of_app. intros [Hv|Hv]; [left|auto].
  unfold loop_list in *. apply elem_of_cons in Hv as [->|Hv]; [rewrite H; apply elem_of_list_here|]. apply elem_of_list_further.
  eapply (elem_of_submseteq d.2); [exact Hv|]. now apply sublist_submseteq.
Qed.
Lemma refines_trans x y z : Forall2 (fun d d' : loop => d.1 = d'.1 /\ sublist d.2 d'.2) x y ->
  Forall2 (fun d d' : loop => d.1 = d'.1 /\ sublist d.2 d'.2) y z -> Forall2 (fun d d' : loop => d.1 = d'.1 /\ sublist d.2 d'.2) x z.
Proof.
  intros H. revert z. induction H as [|d d' ? ? [H1 H2] _ IH]; intros z Hz; inversion Hz as [|? d'' ? ? [K1 K2] Hr]; subst; constructor; auto.
  split; [congruence|]. now transitivity d'.2.
Qed.

Lemma elem_seq v a n : v ∈ seq a n -> a <= v < a + n.
Proof. intros H. apply elem_of_list_In, in_seq in H. lia. Qed.

(** replacing a segment by a chain through [k] fresh vertices *)
Lemma inv_refine b base cs s k pts m X co fo dc (X' : X = set_all (b_set b ∖ {[s]}) (pieces b s k))
  (M' : m = insert_all (delete s.1 (b_map b)) (pieces b s k)) : bd_inv b base cs -> s ∈ b_set b -> length pts = length (b_pts b) + k ->
  exists cs', bd_inv (Bnd pts (b_verts b ++ seq (length (b_pts b)) k) (b_starts b) m X (b_base_starts b) (b_base_map b) (b_cond b) (b_mat b) co fo dc) base cs' /\
    Forall2 (fun d d' : loop => d.1 = d'.1 /\ sublist d.2 d'.2) cs cs'.
Proof.
  intros H Hs Hp. subst X m. destruct s as [a c]. cbn [fst snd]. pose proof (proj1 (bi_set _ _ _ H _) Hs) as Hin.
  assert (Hfr : forall v, v ∈ seq (length (b_pts b)) k -> v ∉ verts_of cs).
  { intros v Hv Hc. apply elem_seq in Hv. pose proof (bi_fresh _ _ _ H _ (bi_stored _ _ _ H _ Hc)). lia. }
  destruct (loops_ok_refine (b_map b) cs a c (seq (length (b_pts b)) k) (bi_loops _ _ _ H) Hin (NoDup_seq _ _) Hfr) as (cs' & Hl & P & F & Es).
  exists cs'. split; [|exact F]. constructor; cbn [b_pts b_verts b_starts b_map b_set b_base_starts b_base_map].
  - rewrite (bi_starts _ _ _ H). now apply refines_fst.
  - exact Hl.
  - intros s. unfold pieces. cbn [fst snd]. rewrite elem_of_set_all, Es, elem_of_difference, elem_of_singleton, (bi_set _ _ _ H). tauto.
  - apply (bi_base_starts _ _ _ H).
  - apply (bi_base _ _ _ H).
  - eapply refines_trans; [apply (bi_refines _ _ _ H)|exact F].
  - intros v. rewrite P, !elem_of_app. intros [Hv|Hv]; [auto|]. left. now apply (bi_stored _ _ _ H).
  - intros v. rewrite elem_of_app, Hp. intros [Hv|Hv]; [pose proof (bi_fresh _ _ _ H _ Hv); lia|]. apply elem_seq in Hv. lia.
  - apply NoDup_app. split; [apply (bi_distinct _ _ _ H)|]. split; [|apply NoDup_seq].
    intros v Hv Hv'. apply elem_seq in Hv'. pose proof (bi_fresh _ _ _ H _ Hv). lia.
Qed.

Lemma inv_divide b base cs s h b' : bd_inv b base cs -> divide_segment g b s h = Ret b' -> exists cs', bd_inv b' base cs'.
Proof.
  intros H E. apply divide_ret in E as (Hs & _ & ->).
  match goal with |- exists cs', bd_inv (Bnd ?pts _ _ _ _ _ _ _ _ ?co ?fo ?dc) _ _ =>
    destruct (inv_refine b base cs s (Z.to_nat (div_num g (vget b s.1) (vget b s.2) h - 1)) pts _ _ co fo dc eq_refl eq_refl H Hs) as (cs' & Hi & _) end;
    [|exists cs'; exact Hi].
  rewrite app_length, steps_length. reflexivity.
Qed.
Lemma inv_split b base cs s r : bd_inv b base cs -> split_segment b s = Ret r -> exists cs', bd_inv r.1 base cs'.
Proof.
  intros H E. apply split_ret in E as (Hs & ->). cbn [fst].
  destruct (inv_refine b base cs s 1 (b_pts b ++ [xy_mid (vget b s.1) (vget b s.2)]) _ _ (b_cons b)
    (put_all (removed (b_forces b) s) (pieces b s 1) (carried (b_forces b) s))
    (put_all (removed (b_dcons b) s) (pieces b s 1) (carried (b_dcons b) s)) eq_refl eq_refl H Hs) as (cs' & Hi & _); [|exists cs'; exact Hi].
  rewrite app_length. reflexivity.
Qed.
Lemma inv_divide_all ord h : forall b base cs b', bd_inv b base cs -> divide_all_segments g b ord h = Ret b' -> exists cs', bd_inv b' base cs'.
Proof.
  unfold divide_all_segments. induction ord as [|s ord IH]; intros b base cs b' H; cbn [foldM].
  - intros [= <-]. eauto.
  - intros E. apply bind_ret_inv in E as (b1 & E & E'). destruct (inv_divide _ _ _ _ _ _ H E) as (cs1 & H1). eapply IH; eauto.
Qed.

Lemma loops_ok_add m cs N k : loops_ok m cs -> (forall v, v ∈ verts_of cs -> v < N) ->
  loops_ok (insert_all m (loop_edges (N, seq (S N) k))) (cs ++ [(N, seq (S N) k)]).
Proof.
  intros [Hn Hm] Hv. assert (Hd : NoDup (loop_list (N, seq (S N) k))) by (apply (NoDup_seq N (S k))). split.
  - rewrite verts_app. apply NoDup_app. split; [exact Hn|]. split.
    + intros v H1 H2. apply Hv in H1. unfold verts_of in H2. cbn [map concat] in H2. rewrite app_nil_r in H2. apply (elem_seq v N (S k)) in H2. lia.
    + unfold verts_of. cbn [map concat]. now rewrite app_nil_r.
  - intros u w. rewrite insert_all_lookup by (now rewrite loop_edges_fst). rewrite edges_app, elem_of_app, Hm.
    unfold edges_of at 3. cbn [map concat]. rewrite app_nil_r, loop_edges_fst. split; [tauto|]. intros [H|H]; [|tauto]. right. split; [|exact H].
    intros H'. apply (elem_seq u N (S k)) in H'. assert (u ∈ verts_of cs) as K by (rewrite <- edges_fst; apply elem_of_list_fmap; exists (u, w); auto).
    apply Hv in K. lia.
Qed.

Lemma inv_polygon b base cs poly r : bd_inv b base cs -> store_polygon g b poly = Ret r ->
  exists l, bd_inv r.1 (base ++ [l]) (cs ++ [l]) /\ r.2 = loop_list l.
Proof.
  intros H E. apply polygon_ret in E as (p & rest & -> & E). cbv zeta in E. subst r. cbn [fst snd].
  set (N := length (b_pts b)) in *. exists (N, seq (S N) (length rest)). split; [|reflexivity].
  assert (Hc : forall v, v ∈ verts_of cs -> v < N) by (intros v Hv; apply (bi_fresh _ _ _ H), (bi_stored _ _ _ H), Hv).
  constructor; cbn [b_pts b_verts b_starts b_map b_set b_base_starts b_base_map].
  - rewrite (bi_starts _ _ _ H), map_app. reflexivity.
  - apply loops_ok_add; [apply (bi_loops _ _ _ H)|exact Hc].
  - intros s. rewrite elem_of_set_all, edges_app, elem_of_app, (bi_set _ _ _ H). unfold edges_of at 3. cbn [map concat]. rewrite app_nil_r. tauto.
  - rewrite (bi_base_starts _ _ _ H), map_app. reflexivity.
  - apply loops_ok_add; [apply (bi_base _ _ _ H)|]. intros v Hv. apply Hc. eapply refines_verts; [apply (bi_refines _ _ _ H)|exact Hv].
  - apply Forall2_app; [apply (bi_refines _ _ _ H)|]. constructor; [split; reflexivity|constructor].
  - intros v. rewrite verts_app, !elem_of_app. intros [Hv|Hv]; [left; now apply (bi_stored _ _ _ H)|right].
    unfold verts_of in Hv. cbn [map concat] in Hv. rewrite app_nil_r in Hv. exact Hv.
  - intros v. rewrite elem_of_app, app_length. fold N. intros [Hv|Hv]; [pose proof (bi_fresh _ _ _ H _ Hv) as K; fold N in K; lia|]. apply elem_seq in Hv. lia.
  - apply NoDup_app. split; [apply (bi_distinct _ _ _ H)|]. split; [|apply NoDup_seq].
    intros v Hv Hv'. apply elem_seq in Hv'. pose proof (bi_fresh _ _ _ H _ Hv) as K. fold N in K. lia.
Qed.

Lemma bd_step_inv o b polys r base cs : bd_inv b base cs -> polys = map loop_list base -> bd_step o (b, polys) = Ret r ->
  exists base' cs', bd_inv r.1 base' cs' /\ r.2 = map loop_list base'.
Proof.
  intros H Hp E. destruct o as [poly|p|p|s|s h|ord h|v c|v w f|v w c|c|m]; cbn [bd_step] in E.
  1: { apply bind_ret_inv in E as (st & E & F). injection F as <-. destruct (inv_polygon _ _ _ _ _ H E) as (l & Hi & El).
       exists (base ++ [l]), (cs ++ [l]). split; [exact Hi|]. cbn [snd]. rewrite map_app, Hp, El. reflexivity. }
  3: { apply bind_ret_inv in E as (st & E & F). injection F as <-. destruct (inv_split _ _ _ _ _ H E) as (cs' & Hi). exists base, cs'. auto. }
  3: { apply bind_ret_inv in E as (st & E & F). injection F as <-. destruct (inv_divide _ _ _ _ _ _ H E) as (cs' & Hi). exists base, cs'. auto. }
  3: { apply bind_ret_inv in E as (st & E & F). injection F as <-. destruct (inv_divide_all _ _ _ _ _ _ H E) as (cs' & Hi). exists base, cs'. auto. }
  all: injection E as <-; exists base, cs; cbn [fst snd]; (split; [|exact Hp]); destruct H as [H1 H2 H3 H4 H5 H6 H7 H8 H9];
    constructor; cbn; try assumption.
  - intros x Hx. apply elem_of_app. left. auto.
  - intros x. rewrite elem_of_app, app_length, elem_of_list_singleton. cbn. intros [Hx| ->]; [apply H8 in Hx|]; lia.
  - apply NoDup_app. split; [exact H9|]. split; [|apply NoDup_singleton]. intros x Hx Hx'. apply elem_of_list_singleton in Hx'. apply H8 in Hx. lia.
  - intros x Hx. apply H8 in Hx. rewrite app_length. lia.
Qed.

Lemma bd_new_inv pts : bd_inv (b_new pts) [] [].
Proof.
  assert (L : loops_ok ∅ []).
  { split; [apply NoDup_nil_2|]. intros u w. rewrite lookup_empty. unfold edges_of. cbn. rewrite elem_of_nil. split; [discriminate|contradiction]. }
  constructor.
  - reflexivity.
  - exact L.
  - intros s. unfold edges_of. cbn. rewrite elem_of_nil. set_solver.
  - reflexivity.
  - exact L.
  - constructor.
  - intros v Hv. apply elem_of_nil in Hv. contradiction.
  - intros v Hv. apply elem_of_nil in Hv. contradiction.
  - apply NoDup_nil_2.
Qed.

Definition bd_built b polys : Prop := exists pts ops, foldM bd_step ops (b_new pts, []) = Ret (b, polys).
Lemma bd_built_inv b polys : bd_built b polys -> exists base cs, bd_inv b base cs /\ polys = map loop_list base.
Proof.
  intros (pts & ops & E).
  assert (K : forall ops st r, (exists base cs, bd_inv st.1 base cs /\ st.2 = map loop_list base) -> foldM bd_step ops st = Ret r ->
    exists base cs, bd_inv r.1 base cs /\ r.2 = map loop_list base).
  { clear. induction ops as [|o ops IH]; intros [b polys] r (base & cs & Hi & Hp); cbn [foldM].
    - intros [= <-]. eauto.
    - intros E. apply bind_ret_inv in E as (st & E & F). eapply IH; [|exact F]. eapply bd_step_inv; eauto. }
  apply (K ops (b_new pts, []) (b, polys)); [|exact E]. exists [], []. split; [apply bd_new_inv|reflexivity].
Qed.
End history.
