(** Breadth-first searches, the peripheral vertex search, the bandwidth reordering and
    the construction of graphs from edges. *)
From Verif Require Export CrProofs.

(** [l] lists the neighbours of [v] *)
Definition nbrs (g : graph) (v : nat) : list nat :=
  match adjacent g v with Ret l => l | _ => [] end.

(** every vertex has a readable neighbour list, without repetitions, of vertices *)
Definition graph_wf (g : graph) : Prop :=
  forall v, v < vertex_count g -> exists l, adjacent g v = Ret l /\ NoDup l /\ forall a, a ∈ l -> a < vertex_count g.

(** [walk g k u v]: a walk of [k] edges from [u] to [v] *)
Inductive walk (g : graph) : nat -> nat -> nat -> Prop :=
| walk_0 u : walk g 0 u u
| walk_S k u v w : walk g k u v -> w ∈ nbrs g v -> walk g (S k) u w.
Definition dist (g : graph) (u v d : nat) : Prop :=
  walk g d u v /\ forall k, k < d -> ~ walk g k u v.
Definition reachable (g : graph) (u v : nat) : Prop := exists k, walk g k u v.

Section graph.
Context (g : graph) (W : graph_wf g).
Notation n := (vertex_count g).

Lemma nbrs_ret v : v < n -> adjacent g v = Ret (nbrs g v).
Proof. intros H. destruct (W v H) as (l & E & _). unfold nbrs. now rewrite E. Qed.
Lemma nbrs_nodup v : v < n -> NoDup (nbrs g v).
Proof. intros H. destruct (W v H) as (l & E & Hn & _). unfold nbrs. now rewrite E. Qed.
Lemma nbrs_lt v a : a ∈ nbrs g v -> v < n /\ a < n.
Proof.
  intros Ha. destruct (decide (v < n)) as [H|H].
  - destruct (W v H) as (l & E & _ & Hb). unfold nbrs in Ha. rewrite E in Ha. auto.
  - exfalso. unfold nbrs, adjacent in Ha. rewrite (proj2 (Nat.ltb_ge v n)) in Ha by lia. cbn in Ha. now apply elem_of_nil in Ha.
Qed.

Lemma adj_idxs_ret v : v < n -> exists s e, adj_idxs g v = Ret (s, e) /\ s <= e /\ e <= length (g_adj g) /\
  nbrs g v = take (e - s) (drop s (g_adj g)).
Proof.
  intros H. pose proof (nbrs_ret v H) as E. unfold adjacent in E.
  rewrite (proj2 (Nat.ltb_lt v n)) in E by exact H. cbn [assert_ mbind out_bind] in E.
  apply bind_ret_inv in E as ([s e] & E1 & E2). exists s, e. split; [exact E1|]. cbn [fst snd] in E2.
  unfold slice in E2. destruct (Nat.leb_spec s e), (Nat.leb_spec e (length (g_adj g))); cbn in E2; try discriminate.
  injection E2 as E2. auto.
Qed.

Lemma degree_ret v : v < n -> degree g v = Ret (length (nbrs g v)).
Proof.
  intros H. destruct (adj_idxs_ret v H) as (s & e & E & H1 & H2 & H3). unfold degree. rewrite E. cbn [mbind out_bind fst snd].
  rewrite usub_ret by lia. rewrite H3, take_length, drop_length. f_equal. lia.
Qed.

(** value of the visited mask *)
Definition mk (mask : list bool) (v : nat) : bool := nth v mask false.

Lemma mk_lookup (mask : list bool) v : v < length mask -> mask !! v = Some (mk mask v).
Proof. intros H. unfold mk. apply nth_lookup_Some with (d := false) in H as Hq || idtac. 
  destruct (lookup_lt_is_Some_2 _ _ H) as [b Hb]. rewrite Hb. f_equal. symmetry. now apply nth_lookup_Some. Qed.

Lemma mk_insert (mask : list bool) v w b : v < length mask -> mk (<[v := b]> mask) w = if w =? v then b else mk mask w.
Proof.
  intros H. unfold mk. destruct (Nat.eqb_spec w v) as [->|Hne].
  - apply nth_lookup_Some. now apply list_lookup_insert.
  - rewrite !nth_lookup. now rewrite list_lookup_insert_ne by congruence.
Qed.

Lemma take_S_drop {B} (l : list B) s k x : drop s l !! k = Some x -> take (S k) (drop s l) = take k (drop s l) ++ [x].
Proof. intros H. now apply take_S_r. Qed.

Lemma adjacent_masked_ret v mask : v < n -> length mask = n ->
  adjacent_masked g v mask = Ret (List.filter (mk mask) (nbrs g v)).
Proof.
  intros H Hm. destruct (adj_idxs_ret v H) as (s & e & E & H1 & H2 & H3).
  unfold adjacent_masked. rewrite (proj2 (Nat.ltb_lt v n)) by exact H. cbn [assert_ mbind out_bind]. rewrite E.
  cbn [mbind out_bind fst snd].
  assert (Hlt : forall a, a ∈ nbrs g v -> a < n) by (intros a Ha; now apply (nbrs_lt v a)).
  destruct (foldM_range_inv (fun x temp => temp = List.filter (mk mask) (take (x - s) (drop s (g_adj g))))
     (fun x temp => v ← idx (g_adj g) x; b ← idx mask v; Ret (if b : bool then temp ++ [v] else temp)) s e []) as (t & Et & Ht).
  - lia.
  - now rewrite Nat.sub_diag, take_0.
  - intros x temp [Hx1 Hx2] ->.
    destruct (lookup_lt_is_Some_2 (g_adj g) x ltac:(lia)) as [a Ha].
    rewrite (idx_lookup _ _ _ Ha). cbn [mbind out_bind].
    assert (Hd : drop s (g_adj g) !! (x - s) = Some a) by (rewrite lookup_drop; replace (s + (x - s)) with x by lia; exact Ha).
    assert (Hin : a ∈ nbrs g v).
    { rewrite H3. apply elem_of_list_lookup. exists (x - s). rewrite lookup_take by lia. exact Hd. }
    rewrite (idx_lookup mask a (mk mask a)) by (apply mk_lookup; rewrite Hm; auto). cbn [mbind out_bind].
    eexists; split; [reflexivity|]. replace (S x - s) with (S (x - s)) by lia.
    rewrite (take_S_drop _ _ _ _ Hd), List.filter_app. cbn [List.filter]. destruct (mk mask a); [reflexivity|now rewrite app_nil_r].
  - rewrite Et, Ht, H3. reflexivity.
Qed.

(** visiting a list of vertices *)
Lemma visit_ret (l : list nat) : forall (acc : list nat) (mask : list bool), (forall a, a ∈ l -> a < length mask) ->
  exists mask', foldM (fun a (st : list nat * list bool) => mask ← set st.2 a false; Ret (st.1 ++ [a], mask)) l (acc, mask)
    = Ret (acc ++ l, mask') /\ length mask' = length mask /\
    forall w, mk mask' w = mk mask w && negb (bool_decide (w ∈ l)).
Proof.
  induction l as [|a l IH]; intros acc mask H; cbn [foldM].
  - exists mask. rewrite app_nil_r. split; [reflexivity|]. split; [reflexivity|]. intros w.
    rewrite bool_decide_eq_false_2 by apply not_elem_of_nil. cbn. now rewrite andb_true_r.
  - cbn [fst snd]. rewrite set_lookup by (apply H; left). cbn [mbind out_bind].
    destruct (IH (acc ++ [a]) (<[a := false]> mask)) as (mask' & E & Hl & Hm).
    { intros x Hx. rewrite insert_length. apply H. now right. }
    exists mask'. cbn [mbind out_bind] in *. rewrite E, <- app_assoc. split; [reflexivity|].
    rewrite insert_length in Hl. split; [exact Hl|]. intros w. rewrite Hm, mk_insert by (apply H; left).
    destruct (Nat.eqb_spec w a) as [->|Hne].
    + rewrite (bool_decide_eq_true_2 (a ∈ a :: l)) by left. cbn. now rewrite andb_false_r.
    + f_equal. f_equal. apply bool_decide_ext. rewrite elem_of_cons. tauto.
Qed.

(** one level: the new vertices are the unvisited neighbours of the current level *)
Lemma bfs_level_ret cur mask : (forall v, v ∈ cur -> v < n /\ mk mask v = false) -> length mask = n ->
  exists nxt mask', bfs_level g cur mask = Ret (nxt, mask') /\ length mask' = n /\ NoDup nxt /\
    (forall a, a ∈ nxt <-> mk mask a = true /\ exists v, v ∈ cur /\ a ∈ nbrs g v) /\
    (forall w, mk mask' w = mk mask w && negb (bool_decide (w ∈ nxt))).
Proof.
  intros Hc Hm. unfold bfs_level.
  match goal with |- context [foldM ?F _ _] => set (body := F) end.
  destruct (foldM_list_inv (fun pre (st : list nat * list bool) =>
     length st.2 = n /\ NoDup st.1 /\
     (forall a, a ∈ st.1 <-> mk mask a = true /\ exists v, v ∈ pre /\ a ∈ nbrs g v) /\
     (forall w, mk st.2 w = mk mask w && negb (bool_decide (w ∈ st.1)))) body cur ([], mask)) as ([nxt mask'] & E & H1 & H2 & H3 & H4).
  - cbn. split; [exact Hm|]. split; [constructor|]. split.
    + intros a. split; [intros Ha; now apply elem_of_nil in Ha|]. intros (_ & v & Hv & _). now apply elem_of_nil in Hv.
    + intros w. rewrite bool_decide_eq_false_2 by apply not_elem_of_nil. cbn. now rewrite andb_true_r.
  - intros pre v post [nx mk0] Hsplit (H1 & H2 & H3 & H4). cbn [fst snd] in *. unfold body at 1. cbn [fst snd].
    assert (Hv : v ∈ cur) by (rewrite Hsplit; apply elem_of_app; right; left).
    destruct (Hc v Hv) as [Hvn Hvm].
    rewrite set_lookup by lia. cbn [mbind out_bind].
    assert (Hmv : forall w, mk (<[v := false]> mk0) w = mk mk0 w).
    { intros w. rewrite mk_insert by lia. destruct (Nat.eqb_spec w v) as [->|]; [|reflexivity]. rewrite H4, Hvm. reflexivity. }
    rewrite adjacent_masked_ret by (try lia; rewrite insert_length; lia). cbn [mbind out_bind].
    set (fr := List.filter (mk (<[v := false]> mk0)) (nbrs g v)).
    assert (Hfr : forall a, a ∈ fr <-> mk mask a = true /\ a ∉ nx /\ a ∈ nbrs g v).
    { intros a. unfold fr. rewrite elem_of_list_In, filter_In, <- elem_of_list_In, Hmv, H4, andb_true_iff, negb_true_iff, bool_decide_eq_false. tauto. }
    destruct (visit_ret fr nx (<[v := false]> mk0)) as (mask' & E & Hl & Hmk).
    { intros a Ha. apply Hfr in Ha as (_ & _ & Ha). rewrite insert_length, H1. now apply nbrs_lt in Ha. }
    rewrite E. eexists; split; [reflexivity|]. cbn [fst snd]. rewrite insert_length in Hl. split; [lia|]. split; [|split].
    + apply NoDup_app. split; [exact H2|]. split; [intros a Ha Hb; apply Hfr in Hb; tauto|].
      unfold fr. apply NoDup_ListNoDup, List.NoDup_filter, NoDup_ListNoDup. now apply nbrs_nodup.
    + intros a. rewrite elem_of_app, H3, Hfr. split.
      * intros [(Ha & u & Hu & Hau)|(Ha & _ & Hau)]; (split; [exact Ha|]).
        -- exists u. split; [apply elem_of_app; now left|exact Hau].
        -- exists v. split; [apply elem_of_app; right; left|exact Hau].
      * intros (Ha & u & Hu & Hau). destruct (decide (a ∈ nx)) as [Hin|Hnin]; [left; now apply H3|].
        apply elem_of_app in Hu as [Hu|Hu]; [left; eauto|]. apply elem_of_list_singleton in Hu as ->. right. auto.
    + intros w. rewrite Hmk, Hmv, H4. rewrite <- andb_assoc. f_equal.
      destruct (decide (w ∈ nx)) as [Hin|Hnin].
      * rewrite (bool_decide_eq_true_2 _ Hin), (bool_decide_eq_true_2 (w ∈ nx ++ fr)) by (apply elem_of_app; now left). reflexivity.
      * rewrite (bool_decide_eq_false_2 _ Hnin). cbn. f_equal. apply bool_decide_ext. rewrite elem_of_app. tauto.
  - exists nxt, mask'. rewrite E. auto.
Qed.

(** ** distances *)
Lemma walk_lt k u v : u < n -> walk g k u v -> v < n.
Proof. intros Hu. induction 1 as [|k u v w _ _ Hw]; [exact Hu|]. now apply nbrs_lt in Hw. Qed.

Lemma dist_fun u v d d' : dist g u v d -> dist g u v d' -> d = d'.
Proof.
  intros [H1 H2] [H3 H4]. destruct (lt_eq_lt_dec d d') as [[H|H]|H]; [|exact H|].
  - now destruct (H4 d H).
  - now destruct (H2 d' H).
Qed.

Lemma dist_pred u w k : dist g u w (S k) -> exists v, dist g u v k /\ w ∈ nbrs g v.
Proof.
  intros [H1 H2]. inversion H1 as [|k' u' v w' Hv Hw]; subst. exists v. split; [|exact Hw].
  split; [exact Hv|]. intros j Hj Hwalk. apply (H2 (S j)); [lia|]. econstructor; eassumption.
Qed.

(** the search has visited exactly the vertices at distance at most [k]; [cur] are those
    at distance [k] *)
Definition level (root k : nat) (cur : list nat) (mask : list bool) : Prop :=
  length mask = n /\ NoDup cur /\ (forall v, v ∈ cur <-> dist g root v k) /\
  (forall v, v < n -> mk mask v = true <-> forall j, j <= k -> ~ walk g j root v).

Lemma level_0 root mask : root < n -> set (replicate n true) root false = Ret mask -> level root 0 [root] mask.
Proof.
  intros Hr E. rewrite set_lookup in E by now rewrite replicate_length. injection E as <-. split.
  - now rewrite insert_length, replicate_length.
  - split; [apply NoDup_singleton|]. split.
    + intros v. rewrite elem_of_list_singleton. split.
      * intros ->. split; [constructor|]. intros k Hk; lia.
      * intros [H _]. now inversion H.
    + intros v Hv. rewrite mk_insert by now rewrite replicate_length. destruct (Nat.eqb_spec v root) as [->|Hne].
      * split; [discriminate|]. intros H. destruct (H 0 ltac:(lia)). constructor.
      * split.
        -- intros _ j Hj Hw. replace j with 0 in Hw by lia. inversion Hw; congruence.
        -- intros _. unfold mk. apply nth_lookup_Some. now apply lookup_replicate_2.
Qed.


Lemma level_S root k cur mask : root < n -> level root k cur mask ->
  exists nxt mask', bfs_level g cur mask = Ret (nxt, mask') /\ level root (S k) nxt mask'.
Proof.
  intros Hr (H1 & H2 & H3 & H4).
  assert (Hc : forall v, v ∈ cur -> v < n /\ mk mask v = false).
  { intros v Hv. apply H3 in Hv as [Hw _]. pose proof (walk_lt _ _ _ Hr Hw) as Hn. split; [exact Hn|].
    destruct (mk mask v) eqn:E; [|reflexivity]. pose proof (proj1 (H4 v Hn) E) as E'; clear E; rename E' into E. now destruct (E k (le_n k)). }
  destruct (bfs_level_ret cur mask Hc H1) as (nxt & mask' & E & Hl & Hnd & Hin & Hmk).
  exists nxt, mask'. split; [exact E|].
  assert (Hn : forall a, a ∈ nxt <-> dist g root a (S k)).
  { intros a. rewrite Hin. split.
    - intros (Ha & v & Hv & Hav). destruct (nbrs_lt v a Hav) as [_ Han]. pose proof (proj1 (H4 a Han) Ha) as Ha'; clear Ha; rename Ha' into Ha.
      apply H3 in Hv as [Hw _]. split; [econstructor; eassumption|]. intros j Hj. apply Ha. lia.
    - intros Hd. destruct (dist_pred _ _ _ Hd) as (v & Hv & Hav). split.
      + destruct (nbrs_lt v a Hav) as [_ Han]. apply (proj2 (H4 a Han)). intros j Hj. apply Hd. lia.
      + exists v. split; [now apply H3|exact Hav]. }
  split; [exact Hl|]. split; [exact Hnd|]. split; [exact Hn|].
  intros v Hv. rewrite Hmk, andb_true_iff, (H4 v Hv), negb_true_iff, bool_decide_eq_false. split.
  - intros [Ha Hb] j Hj Hw. destruct (decide (j = S k)) as [->|Hne]; [|apply (Ha j); [lia|exact Hw]].
    apply Hb, Hn. split; [exact Hw|]. intros i Hi. apply Ha. lia.
  - intros Ha. split; [intros j Hj; apply Ha; lia|]. intros Hb. apply Hn in Hb as [Hw _]. now apply (Ha (S k)).
Qed.

(** number of unvisited vertices *)
Definition todo (mask : list bool) : nat := length (List.filter (fun b : bool => b) mask).

Lemma todo_lt (mask mask' : list bool) : length mask = length mask' ->
  (forall w, mk mask' w = true -> mk mask w = true) ->
  (exists w, mk mask w = true /\ mk mask' w = false) -> todo mask' < todo mask.
Proof.
  assert (Hle : forall m m' : list bool, length m = length m' -> (forall w, mk m' w = true -> mk m w = true) -> todo m' <= todo m).
  { induction m as [|b m IH]; intros [|b' m'] Hl H; try discriminate; [reflexivity|]. unfold todo in *; cbn.
    specialize (IH m' ltac:(cbn in Hl; lia) (fun w => H (S w))). specialize (H 0). cbn in H.
    destruct b, b'; cbn in *; try lia. }
  revert mask'. induction mask as [|b m IH]; intros [|b' m'] Hl H (w & Hw1 & Hw2); try discriminate.
  - now destruct w.
  - cbn in Hl. pose proof (H 0) as H0. cbn in H0.
    pose proof (Hle m m' ltac:(lia) (fun w => H (S w))) as Hx.
    destruct w as [|w].
    + cbn in Hw1, Hw2. subst. unfold todo in *; cbn. lia.
    + pose proof (IH m' ltac:(lia) (fun w => H (S w)) (ex_intro _ w (conj Hw1 Hw2))) as Hlt.
      unfold todo in *; cbn. destruct b, b'; cbn; try lia.
Qed.

Lemma bfs_loop_ret root : root < n -> forall fuel k cur mask, level root k cur mask -> (exists v, v ∈ cur) ->
  todo mask < fuel ->
  exists last d, bfs_loop g fuel cur mask k = Ret (last, d) /\ k <= d /\ d <= k + todo mask /\ (exists v, v ∈ last) /\ NoDup last /\
    (forall v, v ∈ last <-> dist g root v d) /\
    (forall v e, dist g root v e -> e <= d).
Proof.
  intros Hr. induction fuel as [|fuel IH]; intros k cur mask HL Hne Hf; [lia|]. cbn [bfs_loop].
  destruct (level_S root k cur mask Hr HL) as (nxt & mask' & E & HL').
  rewrite E. cbn [mbind out_bind fst snd]. destruct nxt as [|a nxt].
  - exists cur, k. split; [reflexivity|]. split; [lia|]. split; [lia|]. destruct HL as (H1 & H2 & H3 & H4).
    split; [exact Hne|]. split; [exact H2|]. split; [exact H3|].
    destruct HL' as (_ & _ & H3' & _).
    intros v e Hd. destruct (decide (e <= k)) as [|Hgt]; [assumption|exfalso].
    assert (Hcut : forall e v, k < e -> dist g root v e -> False).
    { clear v e Hd Hgt. induction e as [|e IHe]; intros v He Hd; [lia|].
      destruct (decide (e = k)) as [->|Hne'].
      - apply H3' in Hd. now apply elem_of_nil in Hd.
      - destruct (dist_pred _ _ _ Hd) as (u & Hu & _). apply (IHe u); [lia|exact Hu]. }
    apply (Hcut e v); [lia|exact Hd].
  - assert (Htd : todo mask' < todo mask).
    { pose proof HL as (H1 & H2 & H3 & H4). pose proof HL' as (H1' & H2' & H3' & H4').
      apply todo_lt; [congruence| |].
      - intros w Hw. assert (Hwn : w < n).
        { destruct (decide (w < n)) as [|Hge]; [assumption|]. unfold mk in Hw. rewrite nth_overflow in Hw by lia. discriminate. }
        apply (proj2 (H4 w Hwn)). intros j Hj. apply (proj1 (H4' w Hwn) Hw). lia.
      - exists a. assert (Ha : dist g root a (S k)) by (apply H3'; left).
        assert (Han : a < n) by (destruct Ha as [Ha _]; exact (walk_lt _ _ _ Hr Ha)). split.
        + apply (proj2 (H4 a Han)). intros j Hj. apply Ha. lia.
        + destruct (mk mask' a) eqn:Em; [|reflexivity]. pose proof (proj1 (H4' a Han) Em) as Em'; clear Em; rename Em' into Em.
          destruct Ha as [Ha _]. now destruct (Em (S k) (le_n _)). }
    replace (k + 1) with (S k) by lia.
    destruct (IH (S k) (a :: nxt) mask' HL') as (last & d & El & Hd1 & Hd2 & Hrest); [exists a; left|lia|].
    exists last, d. split; [exact El|]. split; [lia|]. split; [lia|exact Hrest].
Qed.

Lemma todo_le mask : todo mask <= length mask.
Proof. unfold todo. induction mask as [|[] m IH]; cbn; lia. Qed.

Lemma min_by_degree_ret l : (forall v, v ∈ l -> v < n) -> (exists v, v ∈ l) ->
  exists v, min_by_degree g l = Ret (Some v) /\ v ∈ l /\ forall u, u ∈ l -> length (nbrs g v) <= length (nbrs g u).
Proof.
  intros Hl (v0 & Hv0). unfold min_by_degree.
  match goal with |- context [foldM ?F _ _] => set (body := F) end.
  destruct (foldM_list_inv (fun pre (st : option nat) =>
     match st with
     | None => pre = []
     | Some v => v ∈ pre /\ forall u, u ∈ pre -> length (nbrs g v) <= length (nbrs g u)
     end) body l None) as (st & E & H); [reflexivity| |].
  - intros pre x post st Hsplit H.
    assert (Hx : x < n) by (apply Hl; rewrite Hsplit; apply elem_of_app; right; left).
    unfold body at 1. destruct st as [b|].
    + destruct H as [Hb Hmin]. assert (Hbn : b < n) by (apply Hl; rewrite Hsplit; apply elem_of_app; now left).
      rewrite !degree_ret by assumption. cbn [mbind out_bind]. eexists; split; [reflexivity|].
      destruct (Nat.ltb_spec (length (nbrs g x)) (length (nbrs g b))) as [Hlt|Hge].
      * split; [apply elem_of_app; right; left|]. intros u Hu. apply elem_of_app in Hu as [Hu|Hu].
        -- specialize (Hmin u Hu). lia.
        -- apply elem_of_list_singleton in Hu as ->. lia.
      * split; [apply elem_of_app; now left|]. intros u Hu. apply elem_of_app in Hu as [Hu|Hu]; [auto|].
        apply elem_of_list_singleton in Hu as ->. lia.
    + subst pre. rewrite degree_ret by assumption. cbn [mbind out_bind]. eexists; split; [reflexivity|].
      split; [apply elem_of_app; right; left|]. intros u Hu. cbn in Hu. apply elem_of_list_singleton in Hu as ->. lia.
  - destruct st as [v|].
    + exists v. rewrite E. tauto.
    + subst l. now apply elem_of_nil in Hv0.
Qed.

(** the farthest vertex search *)
Lemma far_node_ret root : root < n -> exists v d, far_node g root = Ret (v, d) /\ d < n /\
  dist g root v d /\ (forall u e, dist g root u e -> e <= d) /\
  (forall u, dist g root u d -> length (nbrs g v) <= length (nbrs g u)).
Proof.
  intros Hr. unfold far_node. rewrite (proj2 (Nat.ltb_lt root n)) by exact Hr. cbn [assert_ mbind out_bind].
  destruct (set (replicate n true) root false) as [mask| | |] eqn:Es;
    [|rewrite set_lookup in Es by (rewrite replicate_length; exact Hr); discriminate..].
  cbn [mbind out_bind]. pose proof (level_0 root mask Hr Es) as HL.
  assert (Htd : todo mask < n).
  { pose proof HL as (H1 & _ & _ & H4). pose proof (todo_le (replicate n true)) as Hle. rewrite replicate_length in Hle.
    eapply Nat.lt_le_trans; [|exact Hle]. apply todo_lt.
    - now rewrite H1, replicate_length.
    - intros w Hw. unfold mk. apply nth_lookup_Some. apply lookup_replicate_2.
      destruct (decide (w < n)) as [|Hge]; [assumption|]. unfold mk in Hw. rewrite nth_overflow in Hw by lia. discriminate.
    - exists root. split; [unfold mk; apply nth_lookup_Some; now apply lookup_replicate_2|].
      destruct (mk mask root) eqn:Em; [|reflexivity]. pose proof (proj1 (H4 root Hr) Em) as Em'; clear Em; rename Em' into Em. destruct (Em 0 ltac:(lia)). constructor. }
  destruct (bfs_loop_ret root Hr (S n) 0 [root] mask HL) as (last & d & El & _ & Hd & Hne & _ & Hin & Hmax); [exists root; left|lia|].
  rewrite El. cbn [mbind out_bind fst snd].
  destruct (min_by_degree_ret last) as (v & Ev & Hv & Hmin); [|exact Hne|].
  - intros u Hu. apply Hin in Hu as [Hu _]. exact (walk_lt _ _ _ Hr Hu).
  - rewrite Ev. cbn [unwrap mbind out_bind]. exists v, d. split; [reflexivity|]. split; [lia|].
    split; [now apply Hin|]. split; [exact Hmax|]. intros u Hu. apply Hmin. now apply Hin.
Qed.

Lemma periph_loop_ret : forall fuel x longest, x < n -> n < fuel + longest -> longest <= n ->
  exists v, periph_loop g fuel x longest = Ret v /\ v < n.
Proof.
  induction fuel as [|fuel IH]; intros x longest Hx Hf Hlg; [lia|]. cbn [periph_loop].
  destruct (far_node_ret x Hx) as (v & d & E & Hd & [Hv _] & _). rewrite E. cbn [mbind out_bind fst snd].
  pose proof (walk_lt _ _ _ Hx Hv) as Hvn.
  destruct (Nat.ltb_spec longest d) as [Hlt|Hge]; [apply IH; lia|]. eauto.
Qed.

Lemma pseudo_peripheral_ret : 0 < n -> exists v, pseudo_peripheral g = Ret v /\ v < n.
Proof. intros H. apply periph_loop_ret; lia. Qed.
End graph.
