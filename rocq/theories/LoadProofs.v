(** The load vector: whose share each coefficient is. *)
From Verif Require Export ElemLoad ElemMore ElemTop AssemProofs SupportMat.
Local Open Scope nat_scope.

(** *** spec *)
Section spec.
Context {A : arith}.
(** [n] is a node of an element with the edge [nm] *)
Definition touches (a : elas A) (nm : nat * nat) (n : nat) : Prop :=
  exists e, e ∈ ea_elems a /\ nm.1 ∈ e_id_list e /\ nm.2 ∈ e_id_list e /\ nm.1 <> nm.2 /\ n ∈ e_id_list e.
Definition edge_length (a : elas A) (nm : nat * nat) : A :=
  match ea_nodes a !! nm.1, ea_nodes a !! nm.2 with
  | Some p, Some q => ssqrt (sadd (sadd (ssq (ssub (p_x p) (p_x q))) (ssq (ssub (p_y p) (p_y q)))) (ssq (ssub (p_z p) (p_z q))))
  | _, _ => s0
  end.
(** half of the force on the edge goes to each of its ends *)
Definition share (a : elas A) (ef : (nat * nat) * point A) (n d : nat) : A :=
  if (n =? ef.1.1) || (n =? ef.1.2) then sdiv (smul (comp ef.2 d) (edge_length a ef.1)) (sadd s1 s1) else s0.
Definition conc_at (a : elas A) (n d : nat) : A := match ea_conc a !! n with Some f => comp f d | None => s0 end.
(** forces are plane vectors at nodes, elements have three different nodes *)
Definition proper (a : elas A) : Prop :=
  (forall n f, ea_conc a !! n = Some f -> n < node_count a /\ p_n f = 2) /\
  (forall nm f, ea_line a !! nm = Some f -> p_n f = 2) /\
  (forall e, e ∈ ea_elems a -> NoDup (e_id_list e)).
(** no node carries two loads *)
Definition alone (a : elas A) : Prop := forall n,
  (is_Some (ea_conc a !! n) -> forall nm, is_Some (ea_line a !! nm) -> ~ touches a nm n) /\
  (forall nm nm', is_Some (ea_line a !! nm) -> is_Some (ea_line a !! nm') -> touches a nm n -> touches a nm' n -> nm = nm').
Definition on_element (a : elas A) (nm : nat * nat) : Prop := touches a nm nm.1.
End spec.

Section load.
Context {A : arith} (FL : field_laws A).
Add Field Afield77 : (fl_field A FL).
Local Open Scope arith_scope.
Context (two : (1 + 1 : A) <> 0) (Q1 : ssqrt 1 <> 0 :> A) (Q2 : ssqrt (1 + 1) <> 0 :> A).

Lemma sets_fold (g : nat -> nat -> A) (l : list ((nat * nat) * A)) : forall res,
  (forall n d v, ((n, d), v) ∈ l -> v = g n d /\ (d < 2 /\ n * 2 + d < length res)%nat) ->
  exists res', foldM (fun iv res => set res (to_dof iv.1) iv.2) l res = Ret res' /\ length res' = length res /\
    forall n d, (d < 2)%nat -> ((n, d) ∈ l.*1 -> res' !! (n * 2 + d)%nat = Some (g n d)) /\ ((n, d) ∉ l.*1 -> res' !! (n * 2 + d)%nat = res !! (n * 2 + d)%nat).
Proof.
  induction l as [|[[m e] v] l IH]; intros res Hl; cbn [foldM].
  { exists res. split; [reflexivity|]. split; [reflexivity|]. intros n d _. split; [|reflexivity]. intros H. cbn in H. now apply elem_of_nil in H. }
  destruct (Hl m e v ltac:(left)) as (Ev & He & Hb).
  assert (Es : set res (to_dof ((m, e), v).1) ((m, e), v).2 = Ret (<[(m * 2 + e)%nat := v]> res)) by (apply set_ret; exact Hb).
  rewrite Es. cbn [mbind out_bind].
  destruct (IH (<[(m * 2 + e)%nat := v]> res)) as (r' & E' & L' & V').
  { intros n d w Hin. rewrite insert_length. apply Hl. now right. }
  exists r'. split; [exact E'|]. rewrite insert_length in L'. split; [exact L'|]. intros n d Hd. destruct (V' n d Hd) as [V1 V2]. cbn [fmap list_fmap fst].
  destruct (decide ((n, d) ∈ l.*1)) as [Hin|Hni].
  - split; [intros _; exact (V1 Hin)|]. intros H. exfalso. apply H. now right.
  - rewrite (V2 Hni). destruct (decide ((n, d) = (m, e))) as [[= -> ->]|Hne].
    + split; [intros _; rewrite list_lookup_insert by exact Hb; now rewrite Ev|]. intros H. exfalso. apply H. left.
    + split; [intros H; apply elem_of_cons in H as [H|H]; [congruence|contradiction]|]. intros _. apply list_lookup_insert_ne.
      intros E. apply Hne. f_equal; lia.
Qed.

Lemma e_node_of (a : elas A) (e : element A) n p : el_of a e -> e_node e n = Some p -> ea_nodes a !! n = Some p.
Proof.
  intros (_ & _ & _ & H1 & H2 & H3). unfold e_node. destruct (e_ids e) as [[x y] z], (e_pts e) as [[p1 p2] p3]. cbn [fst snd] in *.
  destruct (Nat.eqb_spec n x) as [->|_]; [congruence|]. destruct (Nat.eqb_spec n y) as [->|_]; [congruence|].
  destruct (Nat.eqb_spec n z) as [->|_]; congruence.
Qed.
Lemma el_nodes_lt (a : elas A) (e : element A) n : el_of a e -> n ∈ e_id_list e -> (n < node_count a)%nat.
Proof.
  intros (_ & _ & _ & H1 & H2 & H3). unfold e_id_list, node_count. destruct (e_ids e) as [[x y] z]. cbn [fst snd] in *.
  rewrite !elem_of_cons, elem_of_nil. intros [->|[->|[->|[]]]]; eapply lookup_lt_Some; eassumption.
Qed.
Lemma e_dof_nodes (e : element A) n d : (d < 2)%nat -> (n, d) ∈ map (e_dof e) (seq 0 6) <-> n ∈ e_id_list e.
Proof.
  intros Hd. split.
  - intros H. apply elem_of_list_fmap in H as (i & Ei & Hi). apply elem_of_seq in Hi.
    pose proof (f_equal fst Ei : n = nth (i / 2) (e_id_list e) 0%nat) as En. rewrite En. apply elem_of_list_In, nth_In.
    change (length (e_id_list e)) with 3%nat. apply Nat.div_lt_upper_bound; lia.
  - intros Hn. apply elem_of_list_In, in_map_iff. unfold e_id_list in Hn. rewrite elem_of_list_In in Hn. cbn [In] in Hn.
    unfold e_dof, e_id_list. destruct Hn as [<-|[<-|[<-|[]]]].
    + exists d. split; [destruct d as [|[|d]]; [reflexivity|reflexivity|lia]|apply in_seq; lia].
    + exists (2 + d)%nat. split; [destruct d as [|[|d]]; [reflexivity|reflexivity|lia]|apply in_seq; lia].
    + exists (4 + d)%nat. split; [destruct d as [|[|d]]; [reflexivity|reflexivity|lia]|apply in_seq; lia].
Qed.

(** one loaded edge *)
Lemma line_ret (a : elas A) (els : list (element A)) nm f : p_n f = 2%nat ->
  (forall e, e ∈ els -> el_of a e /\ NoDup (e_id_list e)) -> forall res, length res = (node_count a * 2)%nat ->
  exists res', line_step els (nm, f) res = Ret res' /\ length res' = length res /\
    forall n d, (d < 2)%nat ->
      ((exists e, e ∈ els /\ nm.1 ∈ e_id_list e /\ nm.2 ∈ e_id_list e /\ nm.1 <> nm.2 /\ n ∈ e_id_list e) -> res' !! (n * 2 + d)%nat = Some (share a (nm, f) n d)) /\
      (~ (exists e, e ∈ els /\ nm.1 ∈ e_id_list e /\ nm.2 ∈ e_id_list e /\ nm.1 <> nm.2 /\ n ∈ e_id_list e) -> res' !! (n * 2 + d)%nat = res !! (n * 2 + d)%nat).
Proof.
  intros Hf. induction els as [|e els IH]; intros Hels res Hres.
  { exists res. split; [reflexivity|]. split; [reflexivity|]. intros n d _. split; [|reflexivity]. intros (e & He & _). now apply elem_of_nil in He. }
  unfold line_step. cbn [foldM fst snd]. destruct (Hels e ltac:(left)) as [Ho Hn].
  destruct (nodes_connect e nm.1 nm.2) eqn:Ec.
  - apply (connect_iff e nm.1 nm.2 Hn) in Ec as (Ha & Hb & Hab).
    destruct (int_f_l_ret FL two e nm.1 nm.2 f (proj1 Ho) Hn Hf Ha Hb Hab Q1 Q2) as (pa & pb & l & Ea & Eb & El & Em & Hv).
    replace (int_f_l e nm f) with (int_f_l e (nm.1, nm.2) f) by now rewrite <- surjective_pairing. rewrite El. cbn [mbind out_bind unwrap].
    assert (Hmem : forall n d v, ((n, d), v) ∈ l -> n ∈ e_id_list e /\ (d < 2)%nat).
    { intros n d v Hin. assert (H : (n, d) ∈ map (e_dof e) (seq 0 6)) by (rewrite <- Em; apply elem_of_list_fmap; exists ((n, d), v); auto).
      assert (Hd : (d < 2)%nat).
      { apply elem_of_list_fmap in H as (i & Ei & _). pose proof (f_equal snd Ei : d = i mod 2)%nat as ->. apply Nat.mod_upper_bound. lia. }
      split; [|exact Hd]. now apply (e_dof_nodes e n d Hd). }
    destruct (sets_fold (share a (nm, f)) l res) as (r1 & E1 & L1 & V1).
    { intros n d v Hin. destruct (Hmem n d v Hin) as [Hne Hd]. split.
      - rewrite (Hv n d v Hin). unfold share, edge_length. cbn [fst snd]. rewrite (e_node_of a e _ _ Ho Ea), (e_node_of a e _ _ Ho Eb).
        destruct ((n =? nm.1) || (n =? nm.2))%nat; [|reflexivity]. destruct d as [|[|d]]; [reflexivity|reflexivity|lia].
      - split; [exact Hd|]. rewrite Hres. pose proof (el_nodes_lt a e n Ho Hne). lia. }
    rewrite E1. cbn [mbind out_bind].
    destruct (IH (fun x Hx => Hels x (elem_of_list_further _ _ _ Hx)) r1 ltac:(congruence)) as (r2 & E2 & L2 & V2).
    unfold line_step in E2. cbn [fst snd] in E2. exists r2. split; [exact E2|]. split; [congruence|]. intros n d Hd. destruct (V2 n d Hd) as [W1 W2]. destruct (V1 n d Hd) as [X1 X2].
    assert (Hdec : (exists e, e ∈ els /\ nm.1 ∈ e_id_list e /\ nm.2 ∈ e_id_list e /\ nm.1 <> nm.2 /\ n ∈ e_id_list e) \/
      ~ (exists e, e ∈ els /\ nm.1 ∈ e_id_list e /\ nm.2 ∈ e_id_list e /\ nm.1 <> nm.2 /\ n ∈ e_id_list e)).
    { destruct (decide (List.Exists (fun e => nm.1 ∈ e_id_list e /\ nm.2 ∈ e_id_list e /\ nm.1 <> nm.2 /\ n ∈ e_id_list e) els)) as [H|H]; rewrite Exists_exists in H; auto. }
    split.
    + intros (e' & He' & H). destruct Hdec as [Hy|Hno]; [exact (W1 Hy)|]. rewrite (W2 Hno). apply X1.
      apply elem_of_cons in He' as [->|He']; [|exfalso; apply Hno; eauto].
      change (l.*1) with (map fst l). rewrite Em. apply (e_dof_nodes e n d Hd). tauto.
    + intros Hno. rewrite W2; [apply X2|].
      * change (l.*1) with (map fst l). rewrite Em. intros H. apply (e_dof_nodes e n d Hd) in H. apply Hno. exists e. split; [left|auto].
      * intros (e' & He' & H). apply Hno. exists e'. split; [now right|exact H].
  - assert (Hnc : ~ (nm.1 ∈ e_id_list e /\ nm.2 ∈ e_id_list e /\ nm.1 <> nm.2)) by (intros H; apply (connect_iff e nm.1 nm.2 Hn) in H; congruence).
    cbn [mbind out_bind]. destruct (IH (fun x Hx => Hels x (elem_of_list_further _ _ _ Hx)) res Hres) as (r2 & E2 & L2 & V2).
    unfold line_step in E2. cbn [fst snd] in E2. exists r2. split; [exact E2|]. split; [exact L2|]. intros n d Hd. destruct (V2 n d Hd) as [W1 W2]. split.
    + intros (e' & He' & H). apply elem_of_cons in He' as [->|He']; [tauto|]. apply W1. eauto.
    + intros Hno. apply W2. intros (e' & He' & H). apply Hno. exists e'. split; [now right|exact H].
Qed.

(** all loaded edges, in their order *)
Lemma lines_ret (a : elas A) ol : ea_ok a -> (forall e, e ∈ ea_elems a -> NoDup (e_id_list e)) -> (forall nm f, (nm, f) ∈ ol -> p_n f = 2%nat) ->
  forall res, length res = (node_count a * 2)%nat ->
  exists r, foldM (line_step (ea_elems a)) ol res = Ret r /\ length r = length res /\
    forall n d, (d < 2)%nat ->
      ((forall nm f, (nm, f) ∈ ol -> ~ touches a nm n) -> r !! (n * 2 + d)%nat = res !! (n * 2 + d)%nat) /\
      (forall l1 nm f l2, ol = l1 ++ (nm, f) :: l2 -> touches a nm n -> (forall nm' f', (nm', f') ∈ l2 -> ~ touches a nm' n) ->
         r !! (n * 2 + d)%nat = Some (share a (nm, f) n d)).
Proof.
  intros Hok Hnd. induction ol as [|[nm f] ol IH]; intros Hf res Hres; cbn [foldM].
  { exists res. split; [reflexivity|]. split; [reflexivity|]. intros n d Hd. split; [reflexivity|]. intros [|? ?] ? ? ? H; discriminate. }
  destruct (line_ret a (ea_elems a) nm f (Hf _ _ ltac:(left)) (fun e He => conj (proj2 Hok e He) (Hnd e He)) res Hres) as (r1 & E1 & L1 & V1).
  rewrite E1. cbn [mbind out_bind]. destruct (IH (fun x y Hx => Hf x y (elem_of_list_further _ _ _ Hx)) r1 ltac:(congruence)) as (r & E & L & V).
  exists r. split; [exact E|]. split; [congruence|]. intros n d Hd. destruct (V n d Hd) as [W1 W2]. destruct (V1 n d Hd) as [X1 X2]. split.
  - intros Hno. rewrite W1 by (intros x y Hx; apply (Hno x y); now right). apply X2. exact (Hno nm f ltac:(left)).
  - intros [|x l1] nm' f' l2 Heq Ht Hl2.
    + injection Heq as -> -> ->. rewrite W1 by exact Hl2. exact (X1 Ht).
    + injection Heq as <- ->. eapply W2; eauto.
Qed.

Lemma load_exactly (a : elas A) oc ol : ea_ok a -> proper a -> oc ≡ₚ map_to_list (ea_conc a) -> ol ≡ₚ map_to_list (ea_line a) ->
  exists r, calc_load a oc ol = Ret r /\ length r = (node_count a * 2)%nat /\
    forall n d, (n < node_count a)%nat -> (d < 2)%nat ->
      ((forall nm, is_Some (ea_line a !! nm) -> ~ touches a nm n) -> vel r (n * 2 + d) = conc_at a n d) /\
      (forall l1 nm f l2, ol = l1 ++ (nm, f) :: l2 -> touches a nm n -> (forall nm' f', (nm', f') ∈ l2 -> ~ touches a nm' n) ->
         vel r (n * 2 + d) = share a (nm, f) n d).
Proof.
  intros Hok (P1 & P2 & P3) Hc Hl. unfold calc_load.
  destruct (conc_fold oc (replicate (node_count a * 2) s0)) as (res & E & L & V1 & V2).
  - rewrite Hc. apply NoDup_fst_map_to_list.
  - intros n f Hin. rewrite Hc in Hin. apply elem_of_map_to_list in Hin. destruct (P1 n f Hin). rewrite replicate_length. lia.
  - rewrite E. cbn [mbind out_bind]. rewrite replicate_length in L.
    destruct (lines_ret a ol Hok P3) with (res := res) as (r & Er & Lr & V); [|exact L|].
    { intros nm f Hin. rewrite Hl in Hin. apply elem_of_map_to_list in Hin. eauto. }
    exists r. split; [exact Er|]. split; [congruence|]. intros n d Hn Hd. destruct (V n d Hd) as [W1 W2]. split.
    + intros Hno. apply vel_lookup. rewrite W1.
      2:{ intros nm f Hin. rewrite Hl in Hin. apply elem_of_map_to_list in Hin. apply Hno. eauto. }
      unfold conc_at. destruct (ea_conc a !! n) as [f|] eqn:Ef.
      * apply V1; [|exact Hd]. rewrite Hc. now apply elem_of_map_to_list.
      * rewrite V2 by (try exact Hd; rewrite Hc; intros Hin; apply elem_of_list_fmap in Hin as ([m g] & -> & Hin);
          apply elem_of_map_to_list in Hin; cbn in Ef; congruence).
        apply lookup_replicate. split; [reflexivity|lia].
    + intros l1 nm f l2 Heq Ht Hl2. apply vel_lookup. eapply W2; eauto.
Qed.

Lemma alone_sum (a : elas A) oc ol : ea_ok a -> proper a -> alone a -> (forall nm, is_Some (ea_line a !! nm) -> on_element a nm) ->
  oc ≡ₚ map_to_list (ea_conc a) -> ol ≡ₚ map_to_list (ea_line a) ->
  exists r, calc_load a oc ol = Ret r /\ length r = (node_count a * 2)%nat /\
    forall n d, (n < node_count a)%nat -> (d < 2)%nat -> vel r (n * 2 + d) = conc_at a n d + ssum (map (fun ef => share a ef n d) ol).
Proof.
  intros Hok Hp Hal Hon Hc Hl. destruct (load_exactly a oc ol Hok Hp Hc Hl) as (r & E & L & V). exists r. split; [exact E|]. split; [exact L|].
  intros n d Hn Hd. destruct (V n d Hn Hd) as [V1 V2]. destruct (Hal n) as [H1 H2].
  assert (Hin : forall nm f, (nm, f) ∈ ol -> is_Some (ea_line a !! nm)) by (intros nm f H; rewrite Hl in H; apply elem_of_map_to_list in H; eauto).
  assert (Hno : forall nm f, is_Some (ea_line a !! nm) -> ~ touches a nm n -> share a (nm, f) n d = 0).
  { intros nm f Hs Ht. unfold share. cbn [fst snd]. destruct ((n =? nm.1) || (n =? nm.2))%nat eqn:En; [|reflexivity]. exfalso. apply Ht.
    destruct (Hon nm Hs) as (e & He & I1 & I2 & I3 & _). exists e. repeat (split; [assumption|]).
    apply orb_true_iff in En as [En|En]; apply Nat.eqb_eq in En as ->; assumption. }
  assert (Hd' : forall nm, {touches a nm n} + {~ touches a nm n}).
  { intros nm. unfold touches. destruct (decide (List.Exists (fun e => nm.1 ∈ e_id_list e /\ nm.2 ∈ e_id_list e /\ nm.1 <> nm.2 /\ n ∈ e_id_list e) (ea_elems a))) as [H|H];
      rewrite Exists_exists in H; auto. }
  assert (Hx : (exists l1 nm f l2, ol = l1 ++ (nm, f) :: l2 /\ touches a nm n) \/ (forall nm f, (nm, f) ∈ ol -> ~ touches a nm n)).
  { clear - Hd'. induction ol as [|[nm f] ol IH]; [right; intros ? ? H; now apply elem_of_nil in H|].
    destruct (Hd' nm) as [Ht|Ht]; [left; exists [], nm, f, ol; auto|]. destruct IH as [(l1 & nm' & f' & l2 & -> & Ht')|IH].
    - left. exists ((nm, f) :: l1), nm', f', l2. auto.
    - right. intros x y H. apply elem_of_cons in H as [[= -> ->]|H]; eauto. }
  destruct Hx as [(l1 & nm & f & l2 & Heq & Ht)|Hx].
  - assert (Hk : NoDup (map fst ol)) by (change (map fst ol) with (ol.*1); rewrite Hl; apply NoDup_fst_map_to_list).
    assert (Hoth : forall nm' f', (nm', f') ∈ l1 \/ (nm', f') ∈ l2 -> ~ touches a nm' n).
    { intros nm' f' Hi Ht'. assert (nm' = nm) as ->.
      { apply H2; [eapply Hin|eapply Hin|exact Ht'|exact Ht]; rewrite Heq; [apply elem_of_app; destruct Hi as [Hi|Hi]; [left; exact Hi|right; right; exact Hi]|apply elem_of_app; right; left]. }
      rewrite Heq, map_app in Hk. cbn [map fst] in Hk. apply NoDup_app in Hk as (_ & K1 & K2). apply NoDup_cons in K2 as [K2 _].
      destruct Hi as [Hi|Hi].
      - apply (K1 nm); [apply elem_of_list_fmap; exists (nm, f'); auto|left].
      - apply K2. apply elem_of_list_fmap. exists (nm, f'). auto. }
    rewrite (V2 l1 nm f l2 Heq Ht) by (intros; eapply Hoth; eauto).
    assert (Hc0 : conc_at a n d = 0).
    { unfold conc_at. destruct (ea_conc a !! n) eqn:Ef; [|reflexivity]. exfalso. apply (H1 ltac:(eauto) nm); [|exact Ht]. eapply Hin. rewrite Heq. apply elem_of_app. right. left. }
    rewrite Hc0, Heq, map_app, (ssum_app FL). cbn [map]. rewrite (ssum_cons FL). rewrite !(ssum_0 FL); [ring|..]; intros [nm' f'] Hi; (apply Hno; [eapply Hin; rewrite Heq; apply elem_of_app|eapply Hoth; eauto]); [right; right; exact Hi|left; exact Hi].
  - rewrite V1.
    + rewrite (ssum_0 FL); [ring|]. intros [nm f] Hi. apply Hno; [eapply Hin; exact Hi|exact (Hx nm f Hi)].
    + intros nm [f Hf] Ht. apply (Hx nm f); [|exact Ht]. rewrite Hl. now apply elem_of_map_to_list.
Qed.

Lemma bigsum_ssum {B} N (g : nat -> B -> A) (l : list B) : bigsum N (fun n => ssum (map (g n) l)) = ssum (map (fun x => bigsum N (fun n => g n x)) l).
Proof.
  induction l as [|x l IH]; cbn [map].
  - apply (bigsum_0 FL). reflexivity.
  - rewrite (ssum_cons FL), <- IH, <- (bigsum_add FL). apply bigsum_ext. intros i _. apply (ssum_cons FL).
Qed.
Lemma bigsum_at N k (v : A) : (k < N)%nat -> bigsum N (fun n => if (n =? k)%nat then v else 0) = v.
Proof.
  intros Hk. rewrite (bigsum_single FL N k _ Hk); [now rewrite Nat.eqb_refl|]. intros i _ Hi. now destruct (Nat.eqb_spec i k).
Qed.
(** the whole load *)
Lemma total_load (a : elas A) oc ol d : ea_ok a -> proper a -> alone a -> (forall nm, is_Some (ea_line a !! nm) -> on_element a nm) ->
  oc ≡ₚ map_to_list (ea_conc a) -> ol ≡ₚ map_to_list (ea_line a) -> (d < 2)%nat ->
  exists r, calc_load a oc ol = Ret r /\ bigsum (node_count a) (fun n => vel r (n * 2 + d)) =
    ssum (map (fun nf => comp nf.2 d) oc) + ssum (map (fun ef => comp ef.2 d * edge_length a ef.1) ol).
Proof.
  intros Hok Hp Hal Hon Hc Hl Hd. destruct (alone_sum a oc ol Hok Hp Hal Hon Hc Hl) as (r & E & _ & V). exists r. split; [exact E|].
  rewrite (bigsum_ext _ (fun n => conc_at a n d + ssum (map (fun ef => share a ef n d) ol))) by (intros n Hn; now apply V).
  rewrite (bigsum_add FL), bigsum_ssum. f_equal.
  - assert (Hat : forall n, conc_at a n d = ssum (map (fun nf => if (n =? nf.1)%nat then comp nf.2 d else 0) oc)).
    { intros n. unfold conc_at. assert (Hk : NoDup (map fst oc)) by (change (map fst oc) with (oc.*1); rewrite Hc; apply NoDup_fst_map_to_list).
      assert (Hm : forall f, ea_conc a !! n = Some f <-> (n, f) ∈ oc) by (intros f; now rewrite Hc, elem_of_map_to_list).
      destruct (ea_conc a !! n) as [f|] eqn:Ef.
      - pose proof (proj1 (Hm f) eq_refl) as Hin. apply elem_of_list_split in Hin as (l1 & l2 & ->). rewrite map_app in Hk. cbn [map fst] in Hk.
        apply NoDup_app in Hk as (_ & K1 & K2). apply NoDup_cons in K2 as [K2 _].
        rewrite map_app, (ssum_app FL). cbn [map fst snd]. rewrite (ssum_cons FL), Nat.eqb_refl, !(ssum_0 FL); [ring|..].
        + intros [m g] Hi. cbn [fst snd]. destruct (Nat.eqb_spec n m) as [<-|_]; [|reflexivity]. exfalso. apply K2, elem_of_list_fmap. exists (n, g). auto.
        + intros [m g] Hi. cbn [fst snd]. destruct (Nat.eqb_spec n m) as [<-|_]; [|reflexivity]. exfalso. apply (K1 n); [apply elem_of_list_fmap; exists (n, g); auto|left].
      - symmetry. apply (ssum_0 FL). intros [m g] Hi. cbn [fst snd]. destruct (Nat.eqb_spec n m) as [<-|_]; [|reflexivity]. apply Hm in Hi. discriminate. }
    rewrite (bigsum_ext _ (fun n => ssum (map (fun nf => if (n =? nf.1)%nat then comp nf.2 d else 0) oc))) by (intros; apply Hat). rewrite bigsum_ssum.
    f_equal. apply map_ext_in. intros [m g] Hi. cbn [fst snd]. apply bigsum_at. apply elem_of_list_In in Hi. rewrite Hc in Hi. apply elem_of_map_to_list in Hi.
    exact (proj1 (proj1 Hp m g Hi)).
  - f_equal. apply map_ext_in. intros [nm f] Hi. cbn [fst snd]. apply elem_of_list_In in Hi. rewrite Hl in Hi. apply elem_of_map_to_list in Hi.
    destruct (Hon nm ltac:(eauto)) as (e & He & I1 & I2 & I3 & _). pose proof (proj2 Hok e He) as Ho.
    set (v := comp f d * edge_length a nm).
    rewrite (bigsum_ext _ (fun n => (if (n =? nm.1)%nat then v / (1 + 1) else 0) + (if (n =? nm.2)%nat then v / (1 + 1) else 0))).
    + rewrite (bigsum_add FL), !bigsum_at by (eapply el_nodes_lt; eassumption). field. exact two.
    + intros n Hn. unfold share. cbn [fst snd]. fold v. destruct (Nat.eqb_spec n nm.1) as [E1|H1], (Nat.eqb_spec n nm.2) as [E2|H2]; cbn [orb]; try congruence; ring.
Qed.
End load.
