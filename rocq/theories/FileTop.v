(** The mesh format: the round trip, and what an accepted file looks like. *)
From Coq Require Import Ascii String.
From Verif Require Export FileBuild.

Section top.
Context {A : arith} (nf : numfmt A) (fin : A -> Prop) (ok : numfmt_ok nf fin).
Lemma build_back oc ol (a : elas A) : ea_ok a -> writable fin a ->
  oc ≡ₚ map_to_list (ea_conc a) -> ol ≡ₚ map_to_list (ea_line a) ->
  (forall e, e ∈ ea_elems a -> sound (rd_elem nf e)) ->
  build_elas (parsed_of nf oc ol a) = Ret (read_back nf a).
Proof.
  intros Hok [Hm Hc Hn Hk Hf Hl (S1 & S2 & S3 & S4)] Poc Pol Hs. unfold build_elas, parsed_of.
  cbn [pa_mat pa_cond pa_nodes pa_elems pa_cons pa_forces pa_dist]. unfold add_nodes.
  cbn [ea_nodes ea_cond ea_mat ea_elems ea_cons ea_conc ea_line ea_new length app]. rewrite map_length.
  rewrite (fold_elems nf (ea_nodes a) (ea_cond a) (ea_mat a)); [|reflexivity..|].
  2:{ intros e He. destruct (proj2 Hok e He) as (_ & H1 & H2 & H3 & H4 & H5). split; [apply Hs, He|]. tauto. }
  cbn [mbind out_bind ea_nodes ea_cond ea_mat ea_elems ea_cons ea_conc ea_line app].
  unfold con_list. rewrite (fold_cons nf (ea_cons a) []); [|cbn [ea_cons map app]; rewrite (proj1 Hok); reflexivity|cbn [length plus]; symmetry; apply Hok].
  cbn [mbind out_bind ea_nodes ea_cond ea_mat ea_elems ea_cons ea_conc ea_line app].
  rewrite (fold_forces nf oc).
  2:{ intros k q H. rewrite Poc in H. apply elem_of_map_to_list in H. apply (Hf k q H). }
  cbn [mbind out_bind ea_nodes ea_cond ea_mat ea_elems ea_cons ea_conc ea_line app].
  rewrite (fold_dists nf ol).
  2:{ intros k k' q H. rewrite Pol in H. apply elem_of_map_to_list in H. destruct (Hl (k, k') q H) as (H1 & H2 & _). tauto. }
  cbn [ea_nodes ea_cond ea_mat ea_elems ea_cons ea_conc ea_line app].
  rewrite !fold_insert.
  - rewrite !map_union_empty. unfold read_back.
    rewrite (list_to_map_proper ol (map_to_list (ea_line a))), list_to_map_to_list;
      [|rewrite Pol; apply NoDup_fst_map_to_list|exact Pol].
    rewrite (list_to_map_proper oc (map_to_list (ea_conc a))), list_to_map_to_list;
      [|rewrite Poc; apply NoDup_fst_map_to_list|exact Poc].
    reflexivity.
  - first [rewrite Poc|rewrite Pol]; apply NoDup_fst_map_to_list.
  - first [rewrite Poc|rewrite Pol]; apply NoDup_fst_map_to_list.
Qed.
Lemma round_trip oc ol (a : elas A) : ea_ok a -> writable fin a ->
  oc ≡ₚ map_to_list (ea_conc a) -> ol ≡ₚ map_to_list (ea_line a) ->
  (forall e, e ∈ ea_elems a -> sound (rd_elem nf e)) ->
  exists t, elas_to_bmsh nf oc ol a = Ret t /\ bmsh_to_elas nf t = Ret (Ok (read_back nf a)).
Proof.
  intros Hok Hw Poc Pol Hs. destruct (parse_written nf fin ok oc ol a Hok Hw Poc Pol) as (t & Et & Ep).
  exists t. split; [exact Et|]. unfold bmsh_to_elas. rewrite Ep. cbn [mbind out_bind].
  rewrite (build_back oc ol a) by assumption. reflexivity.
Qed.
End top.

(** *** what the parsers consume *)
Section eaten.
Context {A : arith} (nf : numfmt A).
Lemma eat_name {X} (p : parser X) P : eats p P -> eats p (fun c x => P c x).
Proof. exact (fun H => H). Qed.
Lemma recog_eat i r s : recognize_float i = POk r s -> i = s ++ r /\ no_nl s.
Proof.
  unfold recognize_float. destruct (opt_sign i) as [sg i1] eqn:E1.
  assert (H1 : i = sg ++ i1 /\ no_nl sg).
  { unfold opt_sign in E1. destruct i as [|c i']; [injection E1 as <- <-; split; [reflexivity|constructor]|].
    destruct (is_sign c) eqn:Es; injection E1 as <- <-; (split; [reflexivity|]); [|constructor].
    constructor; [|constructor]. intros ->. discriminate. }
  clear E1. destruct H1 as [-> N1]. destruct (float_mant i1) as [[m i2]|] eqn:E2; [|discriminate].
  assert (H2 : i1 = m ++ i2 /\ no_nl m).
  { unfold float_mant in E2. destruct (span is_digit i1) as [d r'] eqn:Ed. apply span_inv in Ed as (-> & Dd & Hd).
    pose proof (digits_no_nl _ Dd) as Nd. destruct d as [|c d].
    - destruct r' as [|c r']; [discriminate|]. destruct (Ascii.eqb c ".") eqn:Ec; [|discriminate].
      apply Ascii.eqb_eq in Ec as ->. destruct (span is_digit r') as [f r''] eqn:Ef. apply span_inv in Ef as (-> & Df & _).
      destruct f as [|c f]; [discriminate|]. injection E2 as <- <-. split; [reflexivity|]. constructor; [discriminate|apply digits_no_nl, Df].
    - destruct r' as [|c' r']; [injection E2 as <- <-; split; [reflexivity|exact Nd]|].
      destruct (Ascii.eqb c' ".") eqn:Ec; [|injection E2 as <- <-; split; [reflexivity|exact Nd]].
      apply Ascii.eqb_eq in Ec as ->. destruct (span is_digit r') as [f r''] eqn:Ef. apply span_inv in Ef as (-> & Df & _).
      injection E2 as <- <-. split; [cbn; rewrite <- app_assoc; reflexivity|].
      change (c :: d ++ "."%char :: f) with ((c :: d) ++ "."%char :: f).
      apply nn_app; [exact Nd|]. constructor; [discriminate|apply digits_no_nl, Df]. }
  clear E2. destruct H2 as [-> N2]. destruct i2 as [|c i3].
  - intros [= <- <-]. rewrite !app_nil_r. split; [reflexivity|apply nn_app; assumption].
  - destruct (Ascii.eqb (lower c) "e") eqn:Ec.
    + destruct (opt_sign i3) as [s' i4] eqn:E4.
      assert (H4 : i3 = s' ++ i4 /\ no_nl s').
      { unfold opt_sign in E4. destruct i3 as [|c' i']; [injection E4 as <- <-; split; [reflexivity|constructor]|].
        destruct (is_sign c') eqn:Es; injection E4 as <- <-; (split; [reflexivity|]); [|constructor].
        constructor; [|constructor]. intros ->. discriminate. }
      destruct H4 as [-> N4]. destruct (span is_digit i4) as [d i5] eqn:Ed. apply span_inv in Ed as (-> & Dd & _).
      destruct d as [|c' d]; [discriminate|]. intros [= <- <-]. split.
      * rewrite <- !app_assoc. cbn. rewrite <- !app_assoc. reflexivity.
      * repeat apply nn_app; [exact N1|exact N2|]. constructor; [intros ->; discriminate|].
        apply nn_app; [exact N4|]. change (no_nl (c' :: d)). apply digits_no_nl, Dd.
    + intros [= <- <-]. rewrite <- app_assoc. split; [reflexivity|apply nn_app; assumption].
Qed.
Lemma strip_nc_inv p i r : no_nl p -> strip_no_case p i = Some r -> i = take (length p) i ++ r /\ no_nl (take (length p) i).
Proof.
  intros Hp. revert i. induction Hp as [|c p Hc Hp IH]; intros i; cbn [strip_no_case length take].
  - destruct i; intros [= <-]; split; try reflexivity; constructor.
  - destruct i as [|b i]; [discriminate|]. destruct (Ascii.eqb c (lower b)) eqn:Eb; [|discriminate].
    intros E. destruct (IH _ E) as [H1 H2]. cbn [take]. split; [cbn; f_equal; exact H1|]. constructor; [|exact H2].
    intros ->. apply Ascii.eqb_eq in Eb. apply Hc. rewrite Eb. reflexivity.
Qed.
Lemma float_text_eat i r s : float_text i = POk r s -> i = s ++ r /\ no_nl s.
Proof.
  unfold float_text. destruct (recognize_float i) as [r' s'| |] eqn:E; [|shelve|discriminate].
  intros [= -> ->]. apply recog_eat, E.
  Unshelve.
  unfold tag_no_case. destruct (strip_no_case (txt "nan") i) as [r'|] eqn:En.
  - intros [= <- <-]. apply (strip_nc_inv (txt "nan")); [apply nn_txt; reflexivity|exact En].
  - destruct (strip_no_case (txt "inf") i) as [r'|] eqn:Ei; [|discriminate].
    intros [= <- <-]. apply (strip_nc_inv (txt "inf")); [apply nn_txt; reflexivity|exact Ei].
Qed.
Definition line_text {X} (c : text) (_ : X) : Prop := no_nl c.
Lemma eat_double : eats (double nf) line_text.
Proof.
  intros i r x E. unfold double in E. destruct (float_text i) as [r' s| |] eqn:Ef; try discriminate.
  destruct (nf_read nf s) as [y|]; [|discriminate]. injection E as -> ->. apply float_text_eat in Ef as [-> N].
  exists s. split; [reflexivity|exact N].
Qed.
Lemma eat_sep {X} (sep : parser unit) (p : parser X) : eats sep line_text -> eats p line_text -> eats (separated_list0 sep p) line_text.
Proof.
  intros Hs Hp.
  assert (L : forall fuel res i r l, sep_loop fuel sep p res i = Ret (POk r l) -> exists c, i = c ++ r /\ no_nl c).
  { induction fuel as [|fuel IH]; intros res i r l E; [discriminate|]. cbn [sep_loop] in E.
    apply bind_ret_inv in E as (o & Eo & E). destruct o as [i1 u| |]; try discriminate.
    - apply bind_ret_inv in E as (o & Ep & E). destruct o as [i2 x| |]; try discriminate.
      + destruct (Hs _ _ _ Eo) as (c1 & -> & N1). destruct (Hp _ _ _ Ep) as (c2 & -> & N2).
        destruct (IH _ _ _ _ E) as (c3 & -> & N3). exists (c1 ++ c2 ++ c3). rewrite <- !app_assoc. split; [reflexivity|].
        repeat apply nn_app; assumption.
      + injection E as <- <-. exists []. split; [reflexivity|constructor].
    - injection E as <- <-. exists []. split; [reflexivity|constructor]. }
  intros i r l E. unfold separated_list0 in E. apply bind_ret_inv in E as (o & Ep & E).
  destruct o as [i1 x| |]; try discriminate.
  - destruct (Hp _ _ _ Ep) as (c1 & -> & N1). destruct (L _ _ _ _ _ E) as (c2 & -> & N2).
    exists (c1 ++ c2). rewrite <- app_assoc. split; [reflexivity|apply nn_app; assumption].
  - injection E as <- <-. exists []. split; [reflexivity|constructor].
Qed.
Lemma eat_txt s : forallb (fun c => negb (Ascii.eqb c nl)) (txt s) = true -> eats (tag (txt s)) line_text.
Proof. intros H. eapply eat_weak; [apply eat_tag|]. intros c x ->. apply nn_txt, H. Qed.
Lemma eat_line_bind {X Y} (p : parser X) (f : X -> parser Y) : eats p line_text -> (forall x, eats (f x) line_text) -> eats (p_bind p f) line_text.
Proof.
  intros Hp Hf. eapply eat_weak; [eapply eat_bind; [exact Hp|intros x; exact (Hf x)]|].
  intros c y (c1 & c2 & x & -> & H1 & H2). apply nn_app; assumption.
Qed.
Lemma eat_line_map {X Y} (p : parser X) (f : X -> out Y) : eats p line_text -> eats (p_map p f) line_text.
Proof. intros Hp. eapply eat_weak; [apply eat_map, Hp|]. intros c y (x & H & _). exact H. Qed.
Lemma eat_line_ret {X} (x : X) : eats (p_ret x) line_text.
Proof. eapply eat_weak; [apply eat_ret|]. intros c y [-> _]. constructor. Qed.
Lemma eat_u64_line : eats u64 line_text.
Proof. eapply eat_weak; [apply eat_u64|]. intros c x (_ & D & _). apply digits_no_nl, D. Qed.
Lemma eat_nle : eats not_line_ending line_text.
Proof.
  intros i r x E. unfold not_line_ending in E. destruct (span _ i) as [a r'] eqn:Es. apply span_inv in Es as (-> & Ha & Hr).
  assert (N : no_nl a).
  { eapply Forall_impl; [exact Ha|]. intros c Hc ->. discriminate. }
  exists a. destruct r' as [|c r'].
  - injection E as <- <-. split; [reflexivity|exact N].
  - destruct (Ascii.eqb c cr); [destruct r' as [|c' r']; [discriminate|destruct (Ascii.eqb c' nl); [|discriminate]]|];
      injection E as <- <-; (split; [reflexivity|exact N]).
Qed.
Lemma eat_coords : eats (coords nf) line_text.
Proof. apply eat_line_map, eat_sep; [apply eat_txt; reflexivity|apply eat_double]. Qed.
Lemma eat_space : eats space line_text.
Proof. apply eat_txt. reflexivity. Qed.
Lemma eat_con : eats (constraint_line nf) line_text.
Proof.
  apply eat_line_bind; [apply eat_u64_line|]. intros n. apply eat_line_bind; [apply eat_space|]. intros _.
  apply eat_line_bind; [apply eat_line_map, eat_nle|]. intros c. apply eat_line_ret.
Qed.
Lemma eat_force : eats (force_line nf) line_text.
Proof.
  apply eat_line_bind; [apply eat_u64_line|]. intros n. apply eat_line_bind; [apply eat_space|]. intros _.
  apply eat_line_bind; [apply eat_coords|]. intros c. apply eat_line_ret.
Qed.
Lemma eat_term {X} (p : parser X) : eats p line_text -> eats (terminated p space) line_text.
Proof. intros Hp. apply eat_line_bind; [exact Hp|]. intros x. apply eat_line_bind; [apply eat_space|]. intros _. apply eat_line_ret. Qed.
Lemma eat_dist : eats (dist_line nf) line_text.
Proof.
  apply eat_line_bind; [apply eat_term, eat_u64_line|]. intros n. apply eat_line_bind; [apply eat_term, eat_u64_line|]. intros m.
  apply eat_line_bind; [apply eat_coords|]. intros c. apply eat_line_ret.
Qed.
Lemma eat_ids : eats (separated_list0 slash u64) line_text.
Proof. apply eat_sep; [apply eat_txt; reflexivity|apply eat_u64_line]. Qed.
End eaten.

(** *** whole lines *)
Section whole.
Context {X : Type}.
(** a parser that eats whole lines: the lines, and what was read from them *)
Definition eats_lines (p : parser X) (P : list text -> X -> Prop) : Prop :=
  forall i r x, p i = Ret (POk r x) -> exists ls, i = unl ls ++ r /\ Forall no_nl ls /\ P ls x.
End whole.
Lemma eat_nl : eats newline (fun c _ => c = [nl]).
Proof. apply eat_tag. Qed.
Lemma count_lines_inv : eats_lines count_line (fun ls n => exists d, ls = [txt "count " ++ d] /\ numeral d n).
Proof.
  intros i r n E.
  destruct (eat_bind _ _ _ _ (eat_tag (txt "count ")) (fun _ =>
     eat_bind _ _ _ _ eat_u64 (fun n => eat_bind _ _ _ _ eat_nl (fun _ => eat_ret n))) i r n E)
    as (c & -> & c1 & c2 & [] & -> & -> & c3 & c4 & m & -> & Hm & c5 & c6 & [] & -> & -> & -> & ->).
  exists [txt "count " ++ c3]. rewrite unl_cons. change (unl []) with (@nil ascii). split; [|split].
  - rewrite <- !app_assoc. reflexivity.
  - constructor; [|constructor]. apply nn_app; [apply nn_txt; reflexivity|]. destruct Hm as (_ & D & _). apply digits_no_nl, D.
  - exists c3. tauto.
Qed.
Lemma free_loop_inv {X} (p : parser X) : eats p line_text -> forall n res,
  eats_lines (free_loop p n res) (fun ls xs => length ls = n /\ length xs = length res + n).
Proof.
  intros Hp n. induction n as [|n IH]; intros res i r xs E; cbn [free_loop] in E.
  - injection E as <- <-. exists []. split; [reflexivity|]. split; [constructor|]. split; [reflexivity|lia].
  - unfold p_bind in E. apply bind_ret_inv in E as (o & E1 & E). destruct o as [i1 x| |]; try discriminate.
    apply bind_ret_inv in E as (o & E2 & E). destruct o as [i2 u| |]; try discriminate.
    destruct (eat_soften _ _ Hp _ _ _ E1) as (c1 & -> & N1). destruct (eat_soften _ _ eat_nl _ _ _ E2) as (c2 & -> & ->).
    destruct (IH _ _ _ _ E) as (ls & -> & Nls & Hl & Hx). exists (c1 :: ls). rewrite unl_cons. split; [|split].
    + rewrite <- !app_assoc. reflexivity.
    + constructor; assumption.
    + cbn [length]. rewrite app_length in Hx. cbn [length] in Hx. lia.
Qed.
Lemma mono_loop_inv {X} (p : parser X) : eats p line_text -> forall n i0 res,
  eats_lines (mono_loop p n i0 res) (fun ls xs => length ls = n /\ length xs = length res + n /\
    forall k l, ls !! k = Some l -> exists d c, l = d ++ txt " " ++ c /\ numeral d (i0 + k)).
Proof.
  intros Hp n. induction n as [|n IH]; intros i0 res i r xs E; cbn [mono_loop] in E.
  - injection E as <- <-. exists []. split; [reflexivity|]. split; [constructor|]. split; [reflexivity|]. split; [lia|]. intros k l H. discriminate.
  - unfold p_bind at 1 in E. apply bind_ret_inv in E as (o & E0 & E). destruct o as [i1 num| |]; try discriminate.
    destruct (Nat.eqb_spec num i0) as [->|]; [|discriminate].
    unfold p_bind in E. apply bind_ret_inv in E as (o & Es & E). destruct o as [i2 u| |]; try discriminate.
    apply bind_ret_inv in E as (o & E1 & E). destruct o as [i3 x| |]; try discriminate.
    apply bind_ret_inv in E as (o & E2 & E). destruct o as [i4 u'| |]; try discriminate.
    destruct (eat_u64 _ _ _ E0) as (d & -> & Hd). destruct (eat_soften _ _ (eat_tag (txt " ")) _ _ _ Es) as (? & -> & ->).
    destruct (eat_soften _ _ Hp _ _ _ E1) as (c1 & -> & N1). destruct (eat_soften _ _ eat_nl _ _ _ E2) as (? & -> & ->).
    destruct (IH _ _ _ _ _ E) as (ls & -> & Nls & Hl & Hx & Hk).
    exists ((d ++ txt " " ++ c1) :: ls). rewrite unl_cons. split; [|split; [|split; [|split]]].
    + rewrite <- !app_assoc. reflexivity.
    + constructor; [|exact Nls]. apply nn_app; [apply digits_no_nl, Hd|]. apply nn_app; [apply nn_txt; reflexivity|exact N1].
    + cbn [length]. lia.
    + rewrite app_length in Hx. cbn [length] in Hx. lia.
    + intros [|k] l Hkl.
      * injection Hkl as <-. exists d, c1. rewrite Nat.add_0_r. tauto.
      * destruct (Hk k l Hkl) as (d' & c' & -> & H'). exists d', c'. split; [reflexivity|]. rewrite Nat.add_succ_r. exact H'.
Qed.
Definition counted_lines {X} (ls : list text) (xs : list X) : Prop :=
  exists d ls', ls = (txt "count " ++ d) :: ls' /\ numeral d (length ls') /\ length xs = length ls'.
Definition numbered_lines {X} (ls : list text) (xs : list X) : Prop :=
  exists d ls', ls = (txt "count " ++ d) :: ls' /\ numeral d (length ls') /\ length xs = length ls' /\
    forall k l, ls' !! k = Some l -> exists e c, l = e ++ txt " " ++ c /\ numeral e k.
Lemma free_list_inv {X} (p : parser X) : eats p line_text -> eats_lines (free_list p) counted_lines.
Proof.
  intros Hp i r xs E. unfold free_list, p_bind in E. apply bind_ret_inv in E as (o & E1 & E). destruct o as [i1 n| |]; try discriminate.
  destruct (count_lines_inv _ _ _ E1) as (ls1 & -> & N1 & d & -> & Hd).
  destruct (free_loop_inv p Hp n [] _ _ _ E) as (ls & -> & N2 & Hl & Hx). cbn [length plus] in Hx.
  exists ([txt "count " ++ d] ++ ls). rewrite unl_app, <- app_assoc. split; [reflexivity|]. split; [apply Forall_app; tauto|].
  exists d, ls. rewrite Hl. tauto.
Qed.
Lemma monotonic_list_inv {X} (p : parser X) : eats p line_text -> eats_lines (monotonic_list p) numbered_lines.
Proof.
  intros Hp i r xs E. unfold monotonic_list, p_bind in E. apply bind_ret_inv in E as (o & E1 & E). destruct o as [i1 n| |]; try discriminate.
  destruct (count_lines_inv _ _ _ E1) as (ls1 & -> & N1 & d & -> & Hd).
  destruct (mono_loop_inv p Hp n 0 [] _ _ _ E) as (ls & -> & N2 & Hl & Hx & Hk). cbn [length plus] in Hx.
  exists ([txt "count " ++ d] ++ ls). rewrite unl_app, <- app_assoc. split; [reflexivity|]. split; [apply Forall_app; tauto|].
  exists d, ls. rewrite Hl. tauto.
Qed.
Lemma section_inv {X} (p : parser X) name P : no_nl name -> eats_lines p P ->
  eats_lines (section_parse name p) (fun ls x => exists ls', ls = sect name ls' /\ P ls' x).
Proof.
  intros Hn Hp i r x E. unfold section_parse, delimited, p_bind in E.
  apply bind_ret_inv in E as (o & E1 & E). destruct o as [i1 u1| |]; try discriminate.
  apply bind_ret_inv in E as (o & E2 & E). destruct o as [i2 y| |]; try discriminate.
  apply bind_ret_inv in E as (o & E3 & E). destruct o as [i3 u3| |]; try discriminate.
  injection E as -> ->.
  assert (D : forall s i r u, (r0 ← tag (txt s) i; match r0 with POk i' _ => r1 ← tag name i'; match r1 with
     POk i' y => r2 ← newline i'; match r2 with POk i' _ => p_ret y i' | PErr => Ret PErr | PFail => Ret PFail end
     | PErr => Ret PErr | PFail => Ret PFail end | PErr => Ret PErr | PFail => Ret PFail end) = Ret (POk r u) -> i = txt s ++ name ++ nl :: r).
  { clear. intros s i r u E. apply bind_ret_inv in E as (o & E1 & E). destruct o as [i1 u1| |]; try discriminate.
    apply bind_ret_inv in E as (o & E2 & E). destruct o as [i2 u2| |]; try discriminate.
    apply bind_ret_inv in E as (o & E3 & E). destruct o as [i3 u3| |]; try discriminate. injection E as -> ->.
    destruct (eat_tag _ _ _ _ E1) as (? & -> & ->). destruct (eat_tag _ _ _ _ E2) as (? & -> & ->).
    destruct (eat_tag _ _ _ _ E3) as (? & -> & ->). reflexivity. }
  apply D in E1, E3. destruct (Hp _ _ _ E2) as (ls & -> & Nls & HP). subst i i2.
  exists (sect name ls). unfold sect. rewrite unl_cons, unl_app, unl_cons. change (unl []) with (@nil ascii). split; [|split].
  - rewrite <- !app_assoc. cbn [app]. rewrite <- !app_assoc. reflexivity.
  - constructor; [apply nn_app; [apply nn_txt; reflexivity|exact Hn]|]. apply Forall_app. split; [exact Nls|].
    constructor; [|constructor]. apply nn_app; [apply nn_txt; reflexivity|exact Hn].
  - exists ls. tauto.
Qed.
