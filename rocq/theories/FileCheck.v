(** The mesh format: which files are accepted and which are refused. *)
From Coq Require Import Ascii String.
From Verif Require Export FileTop.

(** the lines that count: neither empty nor comments *)
Definition file_lines (file : text) : list text := List.filter line_kept (split_nl file).
(** a section whose count is the number of its lines, and one whose lines are also numbered from zero *)
Definition right_count (ls : list text) : Prop :=
  exists d ls', ls = (txt "count " ++ d) :: ls' /\ numeral d (length ls').
Definition right_numbers (ls : list text) : Prop :=
  exists d ls', ls = (txt "count " ++ d) :: ls' /\ numeral d (length ls') /\
    forall k l, ls' !! k = Some l -> exists e c, l = e ++ txt " " ++ c /\ numeral e k.
Definition consistent (file : text) (nodes elems : nat) : Prop :=
  exists h ns es cs fs ds rest,
    file_lines file = sect (txt "Header") h ++ sect (txt "Nodes") ns ++ sect (txt "Elements") es ++
      sect (txt "Constraints") cs ++ sect (txt "Forces") fs ++ sect (txt "DistForces") ds ++ rest /\
    length h = 3 /\ right_numbers ns /\ right_numbers es /\ right_count cs /\ right_count fs /\ right_count ds /\
    length ns = S nodes /\ length es = S elems.

Section check.
Context {A : arith} (nf : numfmt A).
Lemma named_inv {X} (p : parser X) name : no_nl name -> eats p line_text -> eats_lines (named_value name p) (fun ls _ => length ls = 1).
Proof.
  intros Hn Hp i r x E. unfold named_value, delimited, terminated, p_bind in E.
  apply bind_ret_inv in E as (o & E1 & E). destruct o as [i1 u1| |]; try discriminate.
  apply bind_ret_inv in E1 as (o & E0 & E1). destruct o as [i0 u0| |]; try discriminate.
  apply bind_ret_inv in E1 as (o & E01 & E1). destruct o as [i01 u01| |]; try discriminate. injection E1 as -> ->.
  apply bind_ret_inv in E as (o & E2 & E). destruct o as [i2 y| |]; try discriminate.
  apply bind_ret_inv in E as (o & E3 & E). destruct o as [i3 u3| |]; try discriminate.
  injection E as -> ->.
  destruct (eat_tag _ _ _ _ E0) as (? & -> & ->). destruct (eat_tag _ _ _ _ E01) as (? & -> & ->).
  destruct (Hp _ _ _ E2) as (c & -> & Nc). destruct (eat_nl _ _ _ E3) as (? & -> & ->).
  exists [name ++ txt " " ++ c]. rewrite unl_cons. change (unl []) with (@nil ascii). split; [|split; [|reflexivity]].
  - rewrite <- !app_assoc. reflexivity.
  - constructor; [|constructor]. apply nn_app; [exact Hn|]. apply nn_app; [apply nn_txt; reflexivity|exact Nc].
Qed.
Lemma eat_u8 : eats u8 line_text.
Proof. eapply eat_weak; [apply eat_uint|]. intros c x (_ & D & _). apply digits_no_nl, D. Qed.
Lemma eat_alnum : eats alphanumeric1 line_text.
Proof.
  intros i r x E. unfold alphanumeric1 in E. destruct (span is_alnum i) as [a r'] eqn:Es. apply span_inv in Es as (-> & Ha & _).
  destruct a as [|c a]; [discriminate|]. injection E as <- <-. eexists. split; [reflexivity|].
  eapply Forall_impl; [exact Ha|]. intros c' Hc ->. discriminate.
Qed.
Lemma eat_cond : eats (condition_parser nf) line_text.
Proof.
  unfold condition_parser. repeat apply eat_alt; apply eat_line_map.
  - apply eat_line_bind; [apply eat_txt; reflexivity|]. intros _. apply eat_double.
  - apply eat_line_bind; [apply eat_txt; reflexivity|]. intros _. apply eat_double.
  - apply eat_txt. reflexivity.
Qed.
Lemma header_inv : eats_lines (header_parser nf) (fun ls _ => exists h, ls = sect (txt "Header") h /\ length h = 3).
Proof.
  unfold header_parser. intros i r x E.
  apply (section_inv _ (txt "Header") (fun ls _ => length ls = 3)) in E as (ls & -> & N & h & -> & Hl).
  - eexists. split; [reflexivity|]. split; [exact N|]. exists h. tauto.
  - apply nn_txt. reflexivity.
  - clear. intros i r x E. unfold p_map, p_bind in E. apply bind_ret_inv in E as (o & E1 & E). destruct o as [i1 v| |]; try discriminate.
    apply bind_ret_inv in E as (m & Em & E). injection E as <- <-.
    apply bind_ret_inv in E1 as (o & E0 & E1). destruct o as [i2 v2| |]; try discriminate.
    apply bind_ret_inv in E1 as (o & E2 & E1). destruct o as [i3 v3| |]; try discriminate.
    apply bind_ret_inv in E1 as (o & E3 & E1). destruct o as [i4 v4| |]; try discriminate. injection E1 as <- <-.
    destruct (named_inv u8 (txt "version") (nn_txt "version" eq_refl) eat_u8 _ _ _ E0) as (l1 & -> & N1 & L1).
    destruct (named_inv alphanumeric1 (txt "material") (nn_txt "material" eq_refl) eat_alnum _ _ _ E2) as (l2 & -> & N2 & L2).
    destruct (named_inv (condition_parser nf) (txt "condition") (nn_txt "condition" eq_refl) eat_cond _ _ _ E3) as (l3 & -> & N3 & L3).
    exists (l1 ++ l2 ++ l3). rewrite !unl_app, <- !app_assoc. split; [reflexivity|].
    split; [repeat (apply Forall_app; split); assumption|]. rewrite !app_length. lia.
Qed.
Lemma unl_prefix L : forall ls r, Forall no_nl L -> Forall no_nl ls -> unl L = unl ls ++ r ->
  exists L', L = ls ++ L' /\ r = unl L' /\ Forall no_nl L'.
Proof.
  intros ls. revert L. induction ls as [|l ls IH]; intros L r HL Hls E.
  - exists L. cbn in E. auto.
  - rewrite unl_cons, <- app_assoc in E. cbn [app] in E. apply Forall_cons in Hls as [Hl Hls].
    destruct (unl_line _ _ _ HL Hl E) as (L' & -> & E'). apply Forall_cons in HL as [_ HL].
    symmetry in E'. destruct (IH _ _ HL Hls E') as (L'' & -> & -> & H). exists L''. auto.
Qed.
Lemma file_lines_nl file : Forall no_nl (file_lines file).
Proof.
  unfold file_lines. destruct (split_nl_spec file) as [H _]. apply Forall_forall. intros l Hl.
  apply elem_of_list_In, filter_In in Hl as [Hl _]. rewrite Forall_forall in H. apply H, elem_of_list_In, Hl.
Qed.
Lemma nodes_inv : eats_lines (nodes_parser nf) (fun ls xs => exists ls', ls = sect (txt "Nodes") ls' /\ numbered_lines ls' xs).
Proof. apply section_inv; [apply nn_txt; reflexivity|]. apply monotonic_list_inv, eat_coords. Qed.
Lemma elements_inv : eats_lines elements_parser (fun ls xs => exists ls', ls = sect (txt "Elements") ls' /\ numbered_lines ls' xs).
Proof. apply section_inv; [apply nn_txt; reflexivity|]. apply monotonic_list_inv, eat_ids. Qed.
Lemma constraints_inv : eats_lines (constraints_parser nf) (fun ls xs => exists ls', ls = sect (txt "Constraints") ls' /\ counted_lines ls' xs).
Proof. apply section_inv; [apply nn_txt; reflexivity|]. apply free_list_inv, eat_con. Qed.
Lemma forces_inv : eats_lines (forces_parser nf) (fun ls xs => exists ls', ls = sect (txt "Forces") ls' /\ counted_lines ls' xs).
Proof. apply section_inv; [apply nn_txt; reflexivity|]. apply free_list_inv, eat_force. Qed.
Lemma dist_inv : eats_lines (dist_parser nf) (fun ls xs => exists ls', ls = sect (txt "DistForces") ls' /\ counted_lines ls' xs).
Proof. apply section_inv; [apply nn_txt; reflexivity|]. apply free_list_inv, eat_dist. Qed.
Lemma numbered_right {X} ls (xs : list X) : numbered_lines ls xs -> right_numbers ls /\ length ls = S (length xs).
Proof.
  intros (d & ls' & -> & H1 & H2 & H3). split; [exists d, ls'; tauto|]. cbn [length]. lia.
Qed.
Lemma counted_right {X} ls (xs : list X) : counted_lines ls xs -> right_count ls.
Proof. intros (d & ls' & -> & H1 & _). exists d, ls'. tauto. Qed.

Lemma parsed_consistent file (x : parsed) : parse_bmsh nf file = Ret (Some x) ->
  consistent file (length (pa_nodes x)) (length (pa_elems x)).
Proof.
  unfold parse_bmsh. rewrite clean_unl. intros E.
  apply bind_ret_inv in E as (o & E0 & E). destruct o as [i0 hd| |]; try discriminate. destruct (negb _); [discriminate|].
  apply bind_ret_inv in E as (o & E1 & E). destruct o as [i1 ns| |]; try discriminate.
  apply bind_ret_inv in E as (o & E2 & E). destruct o as [i2 es| |]; try discriminate.
  apply bind_ret_inv in E as (o & E3 & E). destruct o as [i3 cs| |]; try discriminate.
  apply bind_ret_inv in E as (o & E4 & E). destruct o as [i4 fs| |]; try discriminate.
  apply bind_ret_inv in E as (o & E5 & E). destruct o as [i5 ds| |]; try discriminate.
  injection E as <-. cbn [pa_nodes pa_elems].
  destruct (header_inv _ _ _ E0) as (l0 & H0 & N0 & h & -> & Hh).
  destruct (nodes_inv _ _ _ E1) as (l1 & -> & N1 & s1 & -> & H1).
  destruct (elements_inv _ _ _ E2) as (l2 & -> & N2 & s2 & -> & H2).
  destruct (constraints_inv _ _ _ E3) as (l3 & -> & N3 & s3 & -> & H3).
  destruct (forces_inv _ _ _ E4) as (l4 & -> & N4 & s4 & -> & H4).
  destruct (dist_inv _ _ _ E5) as (l5 & -> & N5 & s5 & -> & H5).
  destruct (unl_prefix (file_lines file) (sect (txt "Header") h ++ sect (txt "Nodes") s1 ++ sect (txt "Elements") s2 ++
      sect (txt "Constraints") s3 ++ sect (txt "Forces") s4 ++ sect (txt "DistForces") s5) i5) as (rest & E & _).
  - apply file_lines_nl.
  - repeat (apply Forall_app; split); assumption.
  - unfold file_lines. rewrite H0, !unl_app, <- !app_assoc. reflexivity.
  - exists h, s1, s2, s3, s4, s5, rest. rewrite E, <- !app_assoc. split; [reflexivity|].
    destruct (numbered_right _ _ H1), (numbered_right _ _ H2).
    eauto 12 using counted_right.
Qed.
(** the assembly adds one node per node line and one element per element line *)
Lemma build_sizes (x : parsed) (a : elas A) : build_elas x = Ret a ->
  length (ea_nodes a) = length (pa_nodes x) /\ length (ea_elems a) = length (pa_elems x).
Proof.
  unfold build_elas, add_nodes. cbn [ea_nodes ea_cond ea_mat ea_elems ea_cons ea_conc ea_line ea_new length app]. intros E.
  apply bind_ret_inv in E as (a1 & E1 & E). apply bind_ret_inv in E as (a2 & E2 & E). apply bind_ret_inv in E as (a3 & E3 & E4).
  assert (K : forall Z (f : Z -> elas A -> out (elas A)) k l s s',
    (forall z s s', f z s = Ret s' -> length (ea_nodes s') = length (ea_nodes s) /\ length (ea_elems s') = length (ea_elems s) + k) ->
    foldM f l s = Ret s' -> length (ea_nodes s') = length (ea_nodes s) /\ length (ea_elems s') = length (ea_elems s) + k * length l).
  { intros Z f k l. induction l as [|z l IH]; intros s s' H E; cbn [foldM] in E.
    - injection E as <-. cbn [length]. lia.
    - apply bind_ret_inv in E as (s1 & Es & E). apply H in Es. apply IH in E; [|exact H]. cbn [length]. lia. }
  apply (K _ _ 1) in E1.
  - cbn [ea_nodes ea_elems length] in E1.
    apply (K _ _ 0) in E2; [apply (K _ _ 0) in E3; [apply (K _ _ 0) in E4; [lia|]|]|].
    + intros z s s' E. apply bind_ret_inv in E as (n & _ & E). apply bind_ret_inv in E as (m & _ & E). injection E as <-. cbn. lia.
    + intros z s s' E. apply bind_ret_inv in E as (n & _ & E). injection E as <-. cbn. lia.
    + intros z s s' E. apply bind_ret_inv in E as (n & _ & E). unfold add_constraint in E.
      apply bind_ret_inv in E as (old & _ & E). apply bind_ret_inv in E as (cs & _ & E). injection E as <-. cbn. lia.
  - intros z s s' E. apply bind_ret_inv in E as (n & _ & E). apply bind_ret_inv in E as (d & _ & E). unfold add_element in E.
    apply bind_ret_inv in E as (e & _ & E). apply bind_ret_inv in E as (j & _ & E). destruct (sltb j s0); [discriminate|].
    injection E as <-. cbn. rewrite app_length. cbn. lia.
Qed.
Lemma accepted_consistent file (a : elas A) : bmsh_to_elas nf file = Ret (Ok a) ->
  consistent file (length (ea_nodes a)) (length (ea_elems a)).
Proof.
  unfold bmsh_to_elas. intros E. apply bind_ret_inv in E as (p & Ep & E). destruct p as [x|]; [|discriminate].
  apply bind_ret_inv in E as (a' & Ea & E). injection E as ->. destruct (build_sizes x a Ea) as [-> ->].
  apply parsed_consistent, Ep.
Qed.
End check.

(** *** reading always ends: with a value, an error or a panic *)
Definition tame {X} (m : out X) : Prop := m = Panic \/ exists x, m = Ret x.
Lemma tame_ret {X} (x : X) : tame (Ret x).
Proof. right. exists x. reflexivity. Qed.
Lemma tame_bind {X Y} (m : out X) (f : X -> out Y) : tame m -> (forall x, m = Ret x -> tame (f x)) -> tame (m ≫= f).
Proof. intros [->|(x & ->)] H; [left; reflexivity|]. apply (H x eq_refl). Qed.
Definition tame_p {X} (p : parser X) : Prop := forall i, tame (p i).
Lemma tame_pbind {X Y} (p : parser X) (f : X -> parser Y) : tame_p p -> (forall x, tame_p (f x)) -> tame_p (p_bind p f).
Proof. intros Hp Hf i. apply tame_bind; [apply Hp|]. intros [r x| |] _; [apply Hf|apply tame_ret|apply tame_ret]. Qed.
Lemma tame_pmap {X Y} (p : parser X) (f : X -> out Y) : tame_p p -> (forall x, tame (f x)) -> tame_p (p_map p f).
Proof.
  intros Hp Hf i. apply tame_bind; [apply Hp|]. intros [r x| |] _; [|apply tame_ret|apply tame_ret].
  apply tame_bind; [apply Hf|]. intros y _. apply tame_ret.
Qed.
Lemma tame_soften {X} (p : parser X) : tame_p p -> tame_p (soften p).
Proof. intros Hp i. apply tame_bind; [apply Hp|]. intros x _. apply tame_ret. Qed.
Lemma tame_alt {X} (p q : parser X) : tame_p p -> tame_p q -> tame_p (p_alt p q).
Proof. intros Hp Hq i. apply tame_bind; [apply Hp|]. intros [r x| |] _; [apply tame_ret|apply Hq|apply tame_ret]. Qed.
Lemma tame_tag s : tame_p (tag s).
Proof. intros i. apply tame_ret. Qed.
Lemma tame_pret {X} (x : X) : tame_p (p_ret x).
Proof. intros i. apply tame_ret. Qed.
Lemma tame_expect {X} (o : option X) : tame (expect o).
Proof. destruct o; [apply tame_ret|left; reflexivity]. Qed.
(** the fuel of a separated list suffices *)
Lemma tame_sep {X} s (p : parser X) (P : text -> X -> Prop) : s <> [] -> eats p P -> tame_p p ->
  tame_p (separated_list0 (tag s) p) /\ tame_p (separated_list1 (tag s) p).
Proof.
  intros Hs He Hp.
  assert (L : forall fuel res i, length i < fuel -> tame (sep_loop fuel (tag s) p res i)).
  { induction fuel as [|fuel IH]; intros res i Hf; [lia|]. cbn [sep_loop]. rewrite tag_eq. cbn [mbind out_bind].
    destruct (strip s i) as [i1|] eqn:Es; [|apply tame_ret]. apply strip_inv in Es as ->.
    apply tame_bind; [apply Hp|]. intros [i2 x| |] E; try apply tame_ret. apply IH.
    destruct (He _ _ _ E) as (c & -> & _). rewrite !app_length in Hf. destruct s; [contradiction|]. cbn [length] in Hf. lia. }
  split; intros i; (apply tame_bind; [apply Hp|]); intros [i1 x| |] _; try apply tame_ret; apply L; lia.
Qed.
Section ends.
Context {A : arith} (nf : numfmt A).
Lemma tame_u64 : tame_p u64.
Proof. apply tame_pmap; [intros i; apply tame_ret|]. intros x. apply tame_ret. Qed.
Lemma tame_double : tame_p (double nf).
Proof. intros i. apply tame_ret. Qed.
Lemma tame_coords : tame_p (coords nf).
Proof.
  apply tame_pmap.
  - apply (tame_sep (txt "/") _ line_text); [discriminate|apply eat_double|apply tame_double].
  - intros [|x [|y [|z [|w l]]]]; try apply tame_ret; left; reflexivity.
Qed.
Lemma tame_count : tame_p count_line.
Proof. repeat (apply tame_pbind; [try apply tame_tag; try apply tame_u64|intros ?]); apply tame_pret. Qed.
Lemma tame_free {X} (p : parser X) : tame_p p -> tame_p (free_list p).
Proof.
  intros Hp. apply tame_pbind; [apply tame_count|]. intros n. generalize (@nil X). induction n as [|n IH]; intros res; cbn [free_loop]; [apply tame_pret|].
  apply tame_pbind; [apply tame_soften, Hp|]. intros y. apply tame_pbind; [apply tame_soften, tame_tag|]. intros ?. apply IH.
Qed.
Lemma tame_mono {X} (p : parser X) : tame_p p -> tame_p (monotonic_list p).
Proof.
  intros Hp. apply tame_pbind; [apply tame_count|]. intros n. generalize (@nil X), 0. induction n as [|n IH]; intros res i0; cbn [mono_loop]; [apply tame_pret|].
  apply tame_pbind; [apply tame_u64|]. intros num. destruct (num =? i0); [|intros i; apply tame_ret].
  apply tame_pbind; [apply tame_soften, tame_tag|]. intros ?.
  apply tame_pbind; [apply tame_soften, Hp|]. intros y. apply tame_pbind; [apply tame_soften, tame_tag|]. intros ?. apply IH.
Qed.
Lemma tame_delim {X Y Z} (p : parser X) (q : parser Y) (r : parser Z) : tame_p p -> tame_p q -> tame_p r -> tame_p (delimited p q r).
Proof. intros. repeat (apply tame_pbind; [assumption|intros ?]). apply tame_pret. Qed.
Lemma tame_section {X} name (p : parser X) : tame_p p -> tame_p (section_parse name p).
Proof. intros H. apply tame_delim; [apply tame_delim; apply tame_tag|exact H|apply tame_delim; apply tame_tag]. Qed.
Lemma tame_named {X} name (p : parser X) : tame_p p -> tame_p (named_value name p).
Proof.
  intros H. apply tame_delim; [|exact H|apply tame_tag]. apply tame_pbind; [apply tame_tag|]. intros ?.
  apply tame_pbind; [apply tame_tag|]. intros ?. apply tame_pret.
Qed.
Lemma tame_cond : tame_p (condition_parser nf).
Proof.
  repeat apply tame_alt; (apply tame_pmap; [|intros ?; apply tame_ret]);
    try (apply tame_pbind; [apply tame_tag|intros ?; apply tame_double]). apply tame_tag.
Qed.
Lemma tame_alnum : tame_p alphanumeric1.
Proof. intros i. unfold alphanumeric1. destruct (span _ _). apply tame_ret. Qed.
Lemma tame_nle : tame_p not_line_ending.
Proof. intros i. unfold not_line_ending. destruct (span _ _). apply tame_ret. Qed.
Lemma tame_header : tame_p (header_parser nf).
Proof.
  apply tame_section, tame_pmap.
  - apply tame_pbind; [apply tame_named; intros i; apply tame_ret|]. intros v.
    apply tame_pbind; [apply tame_named, tame_alnum|]. intros m.
    apply tame_pbind; [apply tame_named, tame_cond|]. intros c. apply tame_pret.
  - intros x. apply tame_bind; [apply tame_expect|]. intros m _. apply tame_ret.
Qed.
Lemma tame_con : tame_p (constraint_line nf).
Proof.
  apply tame_pbind; [apply tame_u64|]. intros n. apply tame_pbind; [apply tame_tag|]. intros ?.
  apply tame_pbind; [apply tame_pmap; [apply tame_nle|intros s; apply tame_expect]|]. intros c. apply tame_pret.
Qed.
Lemma tame_force : tame_p (force_line nf).
Proof.
  apply tame_pbind; [apply tame_u64|]. intros n. apply tame_pbind; [apply tame_tag|]. intros ?.
  apply tame_pbind; [apply tame_coords|]. intros c. apply tame_pret.
Qed.
Lemma tame_dist : tame_p (dist_line nf).
Proof.
  assert (T : tame_p (terminated u64 space)).
  { apply tame_pbind; [apply tame_u64|]. intros n. apply tame_pbind; [apply tame_tag|]. intros ?. apply tame_pret. }
  apply tame_pbind; [exact T|]. intros n. apply tame_pbind; [exact T|]. intros m.
  apply tame_pbind; [apply tame_coords|]. intros c. apply tame_pret.
Qed.
Lemma tame_ids : tame_p (separated_list0 slash u64).
Proof. apply (tame_sep (txt "/") _ numeral); [discriminate|apply eat_u64|apply tame_u64]. Qed.
Lemma tame_parse file : tame (parse_bmsh nf file).
Proof.
  unfold parse_bmsh. apply tame_bind; [apply tame_header|]. intros [i hd| |] _; try apply tame_ret. destruct (negb _); [apply tame_ret|].
  apply tame_bind; [apply tame_section, tame_mono, tame_coords|]. intros [i1 ns| |] _; try apply tame_ret.
  apply tame_bind; [apply tame_section, tame_mono, tame_ids|]. intros [i2 es| |] _; try apply tame_ret.
  apply tame_bind; [apply tame_section, tame_free, tame_con|]. intros [i3 cs| |] _; try apply tame_ret.
  apply tame_bind; [apply tame_section, tame_free, tame_force|]. intros [i4 fs| |] _; try apply tame_ret.
  apply tame_bind; [apply tame_section, tame_free, tame_dist|]. intros [i5 ds| |] _; apply tame_ret.
Qed.
Lemma inconsistent_refused file : (forall n m, ~ consistent file n m) ->
  bmsh_to_elas nf file = Ret (Err tt) \/ bmsh_to_elas nf file = Panic.
Proof.
  intros H. unfold bmsh_to_elas. destruct (tame_parse file) as [->|(o & E)]; [right; reflexivity|]. rewrite E. left.
  destruct o as [x|]; [|reflexivity]. contradiction (H _ _ (parsed_consistent nf file x E)).
Qed.
End ends.
