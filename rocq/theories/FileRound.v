(** The mesh format: the whole file. *)
From Coq Require Import Ascii String.
From Verif Require Export FileProofs.

Lemma foldM_lines {Z} (f : Z -> text -> out text) (t : Z -> text) (l : list Z) acc :
  (forall z res, z ∈ l -> f z res = Ret (res ++ nlt (t z))) -> foldM f l acc = Ret (acc ++ concat (map nlt (map t l))).
Proof.
  revert acc. induction l as [|z l IH]; intros acc H; cbn [foldM map concat].
  - rewrite app_nil_r. reflexivity.
  - rewrite (H z acc (elem_of_list_here _ _)). cbn [mbind out_bind].
    rewrite IH by (intros z' res Hz; apply H, elem_of_list_further, Hz). rewrite <- app_assoc. reflexivity.
Qed.
Lemma fold_lines {Z} (t : Z -> text) (l : list Z) acc :
  fold_left (fun res z => res ++ nlt (t z)) l acc = acc ++ concat (map nlt (map t l)).
Proof.
  revert acc. induction l as [|z l IH]; intros acc; cbn [fold_left map concat]; [rewrite app_nil_r; reflexivity|].
  rewrite IH, <- app_assoc. reflexivity.
Qed.

Section round.
Context {A : arith} (nf : numfmt A) (fin : A -> Prop) (ok : numfmt_ok nf fin).
Definition not_free (nc : nat * constr A) : bool := match nc.2 with Free => false | _ => true end.
Definition con_list (cs : list (constr A)) : list (nat * constr A) := List.filter not_free (zip (seq 0 (length cs)) cs).
Definition id_text (d : nat * nat * nat) : text := show_nat d.1.1 ++ (txt "/" ++ show_nat d.1.2) ++ (txt "/" ++ show_nat d.2).
Definition numbered {Z} (t : Z -> text) (l : list Z) : list text :=
  map (fun iz : nat * Z => show_nat iz.1 ++ txt " " ++ t iz.2) (zip (seq 0 (length l)) l).
Definition counted (n : nat) : text := txt "count " ++ show_nat n.
Definition header_lines (a : elas A) : list text :=
  [txt "$Header"; txt "version 1"; txt "material " ++ list_ascii_of_string (m_name (ea_mat a)); txt "condition " ++ show_condition nf (ea_cond a); txt "$EndHeader"].
Definition node_lines (a : elas A) := counted (length (ea_nodes a)) :: numbered (fix2 nf 6) (ea_nodes a).
Definition elem_lines (a : elas A) := counted (length (map e_ids (ea_elems a))) :: numbered id_text (map e_ids (ea_elems a)).
Definition con_text (nc : nat * constr A) : text := show_nat nc.1 ++ txt " " ++ show_constraint nf nc.2.
Definition con_lines (a : elas A) := counted (length (con_list (ea_cons a))) :: map con_text (con_list (ea_cons a)).
Definition force_text (np : nat * point A) : text := show_nat np.1 ++ txt " " ++ fix2 nf 3 np.2.
Definition force_lines (oc : list (nat * point A)) := counted (length oc) :: map force_text oc.
Definition dist_text (nmp : nat * nat * point A) : text := show_nat nmp.1.1 ++ txt " " ++ show_nat nmp.1.2 ++ txt " " ++ fix2 nf 3 nmp.2.
Definition dist_lines (ol : list (nat * nat * point A)) := counted (length ol) :: map dist_text ol.
Definition sect (name : text) (ls : list text) : list text := (txt "$" ++ name) :: ls ++ [txt "$End" ++ name].
(** the lines that are written, but for the empty ones *)
Definition all_lines oc ol (a : elas A) : list text :=
  header_lines a ++ sect (txt "Nodes") (node_lines a) ++ sect (txt "Elements") (elem_lines a) ++
  sect (txt "Constraints") (con_lines a) ++ sect (txt "Forces") (force_lines oc) ++ sect (txt "DistForces") (dist_lines ol).
Definition some_lines oc ol (a : elas A) : list text :=
  tail (header_lines a) ++ [] :: sect (txt "Nodes") (node_lines a) ++ [] :: sect (txt "Elements") (elem_lines a) ++
  [] :: sect (txt "Constraints") (con_lines a) ++ [] :: sect (txt "Forces") (force_lines oc) ++ [] :: sect (txt "DistForces") (dist_lines ol).

Lemma write_ret oc ol (a : elas A) :
  Forall (fin_pt fin) (ea_nodes a) -> Forall (fun nf => fin_pt fin nf.2) oc -> Forall (fun nf => fin_pt fin nf.2) ol ->
  elas_to_bmsh nf oc ol a = Ret (txt "$Header" ++ concat (map nlt (some_lines oc ol a))).
Proof.
  intros Hn Hoc Hol. unfold elas_to_bmsh.
  rewrite (foldM_lines _ (fun ip : nat * point A => show_nat ip.1 ++ txt " " ++ fix2 nf 6 ip.2)).
  2:{ intros [i q] res Hz. cbn [fst snd]. apply elem_of_zip_r in Hz. rewrite Forall_forall in Hn.
      rewrite (coord_text_fin nf fin) by (apply Hn, Hz). reflexivity. }
  cbn [mbind out_bind]. rewrite !fold_lines.
  rewrite (foldM_lines _ force_text).
  2:{ intros [i q] res Hz. cbn [fst snd]. rewrite Forall_forall in Hoc.
      rewrite (coord_text_fin nf fin) by (apply (Hoc _ Hz)). reflexivity. }
  cbn [mbind out_bind].
  rewrite (foldM_lines _ dist_text).
  2:{ intros [[i j] q] res Hz. cbn [fst snd]. rewrite Forall_forall in Hol.
      rewrite (coord_text_fin nf fin) by (apply (Hol _ Hz)). reflexivity. }
  cbn [mbind out_bind]. f_equal. unfold some_lines, sect, node_lines, elem_lines, con_lines, force_lines, dist_lines, numbered, header_lines.
  cbn [tail app]. repeat (progress (rewrite ?map_app, ?concat_app; cbn [map concat app])).
  rewrite ?app_nil_r, <- !app_assoc. reflexivity.
Qed.

(** a line that survives the preprocessing *)
Definition good (l : text) : Prop := no_nl l /\ line_kept l = true.
Lemma nn_app l l' : no_nl l -> no_nl l' -> no_nl (l ++ l').
Proof. intros H H'. apply Forall_app. tauto. Qed.
Lemma nn_show n : no_nl (show_nat n).
Proof. destruct (show_numeral n) as (_ & D & _). apply digits_no_nl, D. Qed.
Lemma kept_show n l : line_kept (show_nat n ++ l) = true.
Proof.
  destruct (show_numeral n) as (N & D & _). destruct D as [|c d Hc D]; [contradiction|]. cbn [app line_kept].
  apply negb_true_iff, Ascii.eqb_neq. intros ->. discriminate.
Qed.
Lemma nn_txt s : forallb (fun c => negb (Ascii.eqb c nl)) (txt s) = true -> no_nl (txt s).
Proof.
  intros H. apply Forall_forall. intros c Hc ->. rewrite forallb_forall in H.
  apply elem_of_list_In in Hc. specialize (H _ Hc). rewrite Ascii.eqb_refl in H. discriminate.
Qed.
Lemma nn_fix2 k q : 0 < k -> fin_pt fin q -> no_nl (fix2 nf k q).
Proof.
  intros Hk (_ & Hx & Hy). unfold fix2. repeat apply nn_app; try (apply nn_txt; reflexivity).
  - apply lit_no_nl, (no_fix ok k _ Hk Hx).
  - apply lit_no_nl, (no_fix ok k _ Hk Hy).
Qed.
Lemma good_counted n : good (counted n).
Proof. split; [|reflexivity]. apply nn_app; [apply nn_txt; reflexivity|apply nn_show]. Qed.
Lemma good_line n t : no_nl t -> good (show_nat n ++ txt " " ++ t).
Proof. intros H. split; [|apply kept_show]. repeat apply nn_app; [apply nn_show|apply nn_txt; reflexivity|exact H]. Qed.
Lemma good_numbered {Z} (t : Z -> text) l : (forall z, z ∈ l -> no_nl (t z)) -> Forall good (numbered t l).
Proof.
  intros H. apply Forall_forall. intros x Hx. apply elem_of_list_fmap in Hx as ([i z] & -> & Hz).
  apply good_line, H. eapply elem_of_zip_r, Hz.
Qed.
Lemma good_sect name ls : no_nl name -> Forall good ls -> Forall good (sect name ls).
Proof.
  intros Hn H. unfold sect. constructor; [|apply Forall_app; split; [exact H|constructor; [|constructor]]].
  - split; [|reflexivity]. apply nn_app; [apply nn_txt; reflexivity|exact Hn].
  - split; [|reflexivity]. apply nn_app; [apply nn_txt; reflexivity|exact Hn].
Qed.
Lemma con_list_in cs n c : (n, c) ∈ con_list cs -> cs !! n = Some c /\ c <> Free.
Proof.
  unfold con_list. intros H. apply elem_of_list_In, filter_In in H as [H Hf]. apply elem_of_list_In in H.
  apply elem_of_lookup_zip_with in H as (i & x & y & E & H1 & H2). injection E as -> ->.
  apply lookup_seq in H1 as [-> _]. split; [exact H2|]. intros ->. discriminate.
Qed.

Lemma clean_written oc ol (a : elas A) :
  material_from_str (m_name (ea_mat a)) = Some (ea_mat a) -> fin_cond fin (ea_cond a) ->
  Forall (fin_pt fin) (ea_nodes a) -> Forall (fin_con fin) (ea_cons a) ->
  Forall (fun nf => fin_pt fin nf.2) oc -> Forall (fun nf => fin_pt fin nf.2) ol ->
  clean (txt "$Header" ++ concat (map nlt (some_lines oc ol a))) = unl (all_lines oc ol a).
Proof.
  intros Hm Hc Hn Hk Hoc Hol. rewrite Forall_forall in Hn. rewrite Forall_forall in Hk. rewrite Forall_forall in Hoc. rewrite Forall_forall in Hol.
  assert (G0 : Forall good (header_lines a)).
  { assert (G : forall l, no_nl l -> line_kept l = true -> good l) by (intros l; split; assumption).
    unfold header_lines. repeat (apply Forall_cons; split); try apply Forall_nil_2; apply G;
      try reflexivity; try (apply nn_txt; reflexivity).
    - apply nn_app; [apply nn_txt; reflexivity|]. unfold material_from_str in Hm.
      destruct (String.eqb_spec (m_name (ea_mat a)) "AL6061") as [E|E]; [rewrite E; apply (nn_txt "AL6061"); reflexivity|].
      destruct (String.eqb_spec (m_name (ea_mat a)) "TEST") as [E'|E']; [rewrite E'; apply (nn_txt "TEST"); reflexivity|discriminate].
    - apply nn_app; [apply nn_txt; reflexivity|]. destruct (ea_cond a) as [t|t|]; cbn [show_condition fin_cond] in *.
      + rewrite (pad3_fix nf fin ok) by (lia || exact Hc). apply nn_app; [apply nn_txt; reflexivity|apply lit_no_nl, (no_fix ok 5 t ltac:(lia) Hc)].
      + rewrite (pad3_fix nf fin ok) by (lia || exact Hc). apply nn_app; [apply nn_txt; reflexivity|apply lit_no_nl, (no_fix ok 5 t ltac:(lia) Hc)].
      + apply nn_txt. reflexivity. }
  assert (G1 : Forall good (sect (txt "Nodes") (node_lines a))).
  { apply good_sect; [apply nn_txt; reflexivity|]. constructor; [apply good_counted|]. apply good_numbered.
    intros z Hz. apply nn_fix2; [lia|apply Hn, Hz]. }
  assert (G2 : Forall good (sect (txt "Elements") (elem_lines a))).
  { apply good_sect; [apply nn_txt; reflexivity|]. constructor; [apply good_counted|]. apply good_numbered.
    intros z Hz. unfold id_text. repeat apply nn_app; try apply nn_show; apply nn_txt; reflexivity. }
  assert (G3 : Forall good (sect (txt "Constraints") (con_lines a))).
  { apply good_sect; [apply nn_txt; reflexivity|]. constructor; [apply good_counted|]. apply Forall_forall.
    intros z Hz. apply elem_of_list_fmap in Hz as ([n c] & -> & Hz). apply con_list_in in Hz as [Hz Hf].
    apply good_line. apply elem_of_list_lookup_2, Hk in Hz. destruct (con_read nf fin ok c Hz Hf) as [_ H].
    eapply Forall_impl; [exact H|]. intros x Hx. exact (proj1 Hx). }
  assert (G4 : Forall good (sect (txt "Forces") (force_lines oc))).
  { apply good_sect; [apply nn_txt; reflexivity|]. constructor; [apply good_counted|]. apply Forall_forall.
    intros z Hz. apply elem_of_list_fmap in Hz as ([n q] & -> & Hz). apply good_line, nn_fix2; [lia|apply (Hoc _ Hz)]. }
  assert (G5 : Forall good (sect (txt "DistForces") (dist_lines ol))).
  { apply good_sect; [apply nn_txt; reflexivity|]. constructor; [apply good_counted|]. apply Forall_forall.
    intros z Hz. apply elem_of_list_fmap in Hz as ([[n m] q] & -> & Hz). apply good_line. cbn [fst snd].
    apply nn_app; [apply nn_show|]. apply nn_app; [apply nn_txt; reflexivity|]. apply nn_fix2; [lia|apply (Hol _ Hz)]. }
  assert (F : forall ls, Forall good ls -> List.filter line_kept ls = ls /\ Forall no_nl ls).
  { intros ls H. induction H as [|l ls [H1 H2] H [IH1 IH2]]; [split; [reflexivity|constructor]|]. cbn [List.filter]. rewrite H2, IH1. split; [reflexivity|constructor; assumption]. }
  destruct (F _ G0) as [F0 N0], (F _ G1) as [F1 N1], (F _ G2) as [F2 N2], (F _ G3) as [F3 N3], (F _ G4) as [F4 N4], (F _ G5) as [F5 N5].
  rewrite clean_unl, split_nl_lines; [|apply nn_txt; reflexivity|].
  - f_equal. unfold some_lines, all_lines. apply Forall_cons in G0 as [_ G0]. destruct (F _ G0) as [Ft _].
    change (header_lines a ++ ?x) with (txt "$Header" :: tail (header_lines a) ++ x).
    change (List.filter line_kept (tail (header_lines a)) = tail (header_lines a)) in Ft.
    remember (tail (header_lines a)) as tl.
    change (List.filter line_kept (txt "$Header" :: ?x)) with (txt "$Header" :: List.filter line_kept x). f_equal.
    rewrite List.filter_app, Ft. f_equal. change (List.filter line_kept ([] :: ?x)) with (List.filter line_kept x).
    rewrite List.filter_app, F1. f_equal. change (List.filter line_kept ([] :: ?x)) with (List.filter line_kept x).
    rewrite List.filter_app, F2. f_equal. change (List.filter line_kept ([] :: ?x)) with (List.filter line_kept x).
    rewrite List.filter_app, F3. f_equal. change (List.filter line_kept ([] :: ?x)) with (List.filter line_kept x).
    rewrite List.filter_app, F4. f_equal. exact F5.
  - unfold some_lines.
    apply Forall_cons in N0 as [_ N0]. assert (E : no_nl []) by constructor.
    repeat first [exact N0|exact N1|exact N2|exact N3|exact N4|exact N5|exact E|apply Forall_app; split|apply Forall_cons; split].
Qed.
End round.
