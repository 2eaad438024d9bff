(** The boundary format: nothing but well-formed files is accepted. *)
From Coq Require Import Ascii String.
From Verif Require Export FileBnd FileTop.

Section exact.
Context {A : arith} (nf : numfmt A).
Lemma eat_num : eats (double nf) (num_is nf).
Proof.
  intros i r x E. unfold double in E. destruct (float_text i) as [r' s| |] eqn:Ef; try discriminate.
  destruct (nf_read nf s) as [y|] eqn:Es; [|discriminate]. injection E as -> ->. apply float_number in Ef as [-> Hs].
  exists s. split; [reflexivity|]. split; assumption.
Qed.
Lemma eat_word : eats alphanumeric1 (fun c x => c = x /\ word x).
Proof.
  intros i r x E. unfold alphanumeric1 in E. destruct (span is_alnum i) as [a r'] eqn:Es. apply span_inv in Es as (-> & Ha & _).
  destruct a as [|c a]; [discriminate|]. injection E as -> <-. exists (c :: a). split; [reflexivity|]. split; [reflexivity|]. split; [discriminate|now apply word_alnum].
Qed.
Lemma eat_rest : eats not_line_ending (fun c x => c = x /\ Forall (fun c => c <> nl /\ c <> cr) x).
Proof.
  intros i r x E. unfold not_line_ending in E. destruct (span _ i) as [a r'] eqn:Es. apply span_inv in Es as (-> & Ha & _).
  assert (N : Forall (fun c => c <> nl /\ c <> cr) a) by (eapply Forall_impl; [exact Ha|]; intros c Hc; split; intros ->; discriminate).
  exists a. destruct r' as [|c r']; [injection E as <- <-; auto|].
  destruct (Ascii.eqb c cr); [destruct r' as [|c' r']; [discriminate|destruct (Ascii.eqb c' nl); [|discriminate]]|]; injection E as <- <-; auto.
Qed.
Lemma eat_pre {X} (p : parser X) P : eats p P -> eats (preceded space p) (fun c x => exists d, c = txt " " ++ d /\ P d x).
Proof.
  intros Hp. unfold preceded. eapply eat_weak; [eapply eat_bind; [apply eat_tag|intros u; exact Hp]|].
  intros c x (c1 & c2 & _ & -> & -> & H). eauto.
Qed.
Lemma eat_head {X} s (p : parser X) P : eats p P -> eats (preceded (tag s) p) (fun c x => exists d, c = s ++ d /\ P d x).
Proof.
  intros Hp. unfold preceded. eapply eat_weak; [eapply eat_bind; [apply eat_tag|intros u; exact Hp]|].
  intros c x (c1 & c2 & _ & -> & -> & H). eauto.
Qed.
Lemma eat_vertex : eats (vertex_parser nf) (vertex_text nf).
Proof.
  unfold vertex_parser. apply eat_alt.
  - eapply eat_weak; [eapply eat_bind; [exact eat_num|intros x; eapply eat_bind; [apply eat_pre, eat_num|
      intros y; eapply eat_bind; [apply eat_pre, eat_word|intros l; apply eat_ret]]]|].
    intros c v (sx & c' & x & -> & Hx & c2 & c3 & y & -> & (sy & -> & Hy) & c4 & c5 & l & -> & (d & -> & -> & Hl) & -> & ->).
    exists sx, sy. split; [exact Hx|]. split; [exact Hy|]. cbn [fst snd]. split; [exact Hl|]. rewrite app_nil_r, <- !app_assoc. reflexivity.
  - eapply eat_weak; [eapply eat_bind; [exact eat_num|intros x; eapply eat_bind; [apply eat_tag|
      intros u; eapply eat_bind; [exact eat_num|intros y; apply eat_ret]]]|].
    intros c v (sx & c' & x & -> & Hx & c2 & c3 & [] & -> & -> & sy & c5 & y & -> & Hy & -> & ->).
    exists sx, sy. split; [exact Hx|]. split; [exact Hy|]. cbn [fst snd]. rewrite app_nil_r. reflexivity.
Qed.
Lemma lines_more ts c ts' : ts <> [] -> lines (ts ++ c :: ts') = lines ts ++ nl :: lines (c :: ts').
Proof.
  destruct ts as [|t ts]; [contradiction|]. intros _. cbn [app lines]. rewrite map_app, concat_app, <- app_assoc. reflexivity.
Qed.
Lemma sep_loop_inv {X} (p : parser X) P : eats p P -> forall fuel res i r xs,
  sep_loop fuel newline p res i = Ret (POk r xs) ->
  exists ts ys, xs = res ++ ys /\ Forall2 P ts ys /\ i = concat (map (fun l => nl :: l) ts) ++ r.
Proof.
  intros Hp fuel. induction fuel as [|fuel IH]; intros res i r xs E; [discriminate|]. cbn [sep_loop] in E.
  apply bind_ret_inv in E as (o & Eo & E). destruct o as [i1 u| |]; try discriminate.
  - apply bind_ret_inv in E as (o & Ep & E). destruct o as [i2 x| |]; try discriminate.
    + destruct (eat_tag _ _ _ _ Eo) as (? & -> & ->). destruct (Hp _ _ _ Ep) as (c & -> & Hc).
      destruct (IH _ _ _ _ E) as (ts & ys & -> & H & ->). exists (c :: ts), (x :: ys). rewrite <- app_assoc. split; [reflexivity|].
      split; [constructor; assumption|]. cbn [map concat]. rewrite <- !app_assoc. reflexivity.
    + injection E as <- <-. exists [], []. rewrite app_nil_r. split; [reflexivity|]. split; [constructor|reflexivity].
  - injection E as <- <-. exists [], []. rewrite app_nil_r. split; [reflexivity|]. split; [constructor|reflexivity].
Qed.
Lemma eat_sep1 {X} (p : parser X) P : eats p P ->
  eats (separated_list1 newline p) (fun c xs => exists ts, ts <> [] /\ Forall2 P ts xs /\ c = lines ts).
Proof.
  intros Hp i r xs E. unfold separated_list1 in E. apply bind_ret_inv in E as (o & Ep & E). destruct o as [i1 x| |]; try discriminate.
  destruct (Hp _ _ _ Ep) as (c & -> & Hc). destruct (sep_loop_inv p P Hp _ _ _ _ _ E) as (ts & ys & -> & H & ->).
  exists (lines (c :: ts)). cbn [lines]. rewrite <- app_assoc. split; [reflexivity|]. exists (c :: ts). split; [discriminate|].
  split; [constructor; assumption|reflexivity].
Qed.
Lemma eat_sep0 {X} (p : parser X) P : eats p P ->
  eats (separated_list0 newline p) (fun c xs => exists ts, Forall2 P ts xs /\ c = lines ts).
Proof.
  intros Hp i r xs E. unfold separated_list0 in E. apply bind_ret_inv in E as (o & Ep & E). destruct o as [i1 x| |]; try discriminate.
  - destruct (Hp _ _ _ Ep) as (c & -> & Hc). destruct (sep_loop_inv p P Hp _ _ _ _ _ E) as (ts & ys & -> & H & ->).
    exists (lines (c :: ts)). cbn [lines]. rewrite <- app_assoc. split; [reflexivity|]. exists (c :: ts).
    split; [constructor; assumption|reflexivity].
  - injection E as <- <-. exists []. split; [reflexivity|]. exists []. split; [constructor|reflexivity].
Qed.
Lemma eat_polygon : eats (polygon_item nf) (item_text nf).
Proof.
  unfold polygon_item, delimited. eapply eat_weak; [eapply eat_bind; [apply eat_tag|intros u0; eapply eat_bind;
    [apply eat_map, eat_sep1, eat_vertex|intros y; eapply eat_bind; [apply eat_tag|intros u; apply eat_ret]]]|].
  intros c it (c1 & c2 & [] & -> & -> & c3 & c4 & it' & -> & (vs & (ts & Nt & Hv & ->) & Ei) & c5 & c6 & [] & -> & -> & -> & ->).
  injection Ei as <-. cbn [item_text]. exists ts. split; [exact Nt|]. split; [exact Hv|].
  cbn [app]. rewrite lines_cons by (destruct ts; discriminate). rewrite lines_snoc by exact Nt. rewrite app_nil_r, <- app_assoc. reflexivity.
Qed.
Lemma eat_item : eats (item_parser nf) (item_text nf).
Proof.
  unfold item_parser. apply eat_alt; [exact eat_polygon|]. apply eat_alt; [|apply eat_alt; [|apply eat_alt]].
  - unfold condition_item. apply eat_alt; [|apply eat_alt].
    + eapply eat_weak; [apply eat_map, eat_head, eat_num|]. intros c it (x & (d & -> & Hd) & [= <-]). exists d. auto.
    + eapply eat_weak; [apply eat_map, eat_head, eat_num|]. intros c it (x & (d & -> & Hd) & [= <-]). exists d. auto.
    + eapply eat_weak; [apply eat_map, eat_tag|]. intros c it (x & -> & [= <-]). reflexivity.
  - unfold material_item. eapply eat_weak; [apply eat_map, eat_head, eat_word|]. intros c it (n & (d & -> & -> & Hn) & E).
    destruct (material_from_str (string_of_list_ascii n)) as [m|] eqn:Em; [|discriminate]. injection E as <-. exists n. auto.
  - unfold force_item. eapply eat_weak; [apply eat_head; eapply eat_bind; [apply eat_word|intros a; eapply eat_bind; [apply eat_pre, eat_word|
      intros b; eapply eat_bind; [apply eat_pre, eat_num|intros x; eapply eat_bind; [apply eat_pre, eat_num|intros y; apply eat_ret]]]]|].
    intros c it (d & -> & c1 & c2 & a & -> & (-> & Ha) & c3 & c4 & b & -> & (d1 & -> & -> & Hb) & c5 & c6 & x & -> & (sx & -> & Hx) &
      c7 & c8 & y & -> & (sy & -> & Hy) & -> & ->).
    split; [exact Ha|]. split; [exact Hb|]. exists sx, sy. split; [exact Hx|]. split; [exact Hy|]. rewrite app_nil_r, <- !app_assoc. reflexivity.
  - unfold constraint_item. eapply eat_weak; [apply eat_map, eat_head; eapply eat_bind; [apply eat_word|intros a; eapply eat_bind; [apply eat_pre, eat_word|
      intros b; eapply eat_bind; [apply eat_pre, eat_rest|intros s; apply eat_ret]]]|].
    intros c it (abc & (d & -> & c1 & c2 & a & -> & (-> & Ha) & c3 & c4 & b & -> & (d1 & -> & -> & Hb) & c5 & c6 & s & -> & (d2 & -> & -> & Hs) & -> & ->) & E).
    cbn [fst snd] in E. destruct (constraint_from_str nf s) as [k|] eqn:Ek; [|discriminate]. injection E as <-.
    split; [exact Ha|]. split; [exact Hb|]. exists s. split; [exact Ek|]. split; [exact Hs|]. rewrite app_nil_r, <- !app_assoc. reflexivity.
Qed.
Lemma parse_exact file its : parse_bbnd nf file = Ret (Some its) <-> exists ts, Forall2 (item_text nf) ts its /\ file = lines ts.
Proof.
  split.
  - unfold parse_bbnd. intros E. apply bind_ret_inv in E as (o & Eo & E). destruct o as [[|c r] l| |]; try discriminate. injection E as ->.
    destruct (eat_sep0 _ _ eat_item _ _ _ Eo) as (c & -> & ts & Ht & ->). exists ts. split; [exact Ht|apply app_nil_r].
  - intros (ts & Ht & ->). apply (parse_items nf ts its Ht).
Qed.
Lemma first_all_inv (g : geo A) its : forall b m tbl b' m',
  foldM (fun it (st : bound A * gmap text vertex) =>
      match it with
      | IPolygon vs => r ← store_polygon g st.1 (map fst vs); Ret (r.1, label_all (zip (map snd vs) r.2) st.2)
      | _ => Ret st
      end) its (b, m) = Ret (b', m') ->
  exists tbl', foldM (fun (vs : list (@pvertex A)) (st : bound A * list (option text * vertex)) =>
      r ← store_polygon g st.1 (map fst vs); Ret (r.1, st.2 ++ zip (map snd vs) r.2))
      (omap (fun it => match it with IPolygon vs => Some vs | _ => None end) its) (b, tbl) = Ret (b', tbl').
Proof.
  induction its as [|it its IH]; intros b m tbl b' m' E.
  - cbn in E. injection E as <- <-. exists tbl. reflexivity.
  - cbn [foldM] in E. destruct it as [vs|c|mt|l1 l2 x y|l1 l2 c]; try (cbn [mbind out_bind] in E; exact (IH b m tbl b' m' E)).
    cbn [omap list_omap foldM fst snd] in E |- *.
    destruct (store_polygon g b (map fst vs)) as [[b1 ids]| | |] eqn:Es; try discriminate. cbn [mbind out_bind fst snd] in E |- *.
    eapply IH. exact E.
Qed.
Lemma accepted_exact (g : geo A) file b : bbnd_to_bounds nf g file = Ret (Ok b) ->
  exists ts its b0 tbl, file = lines ts /\ Forall2 (item_text nf) ts its /\ store_all g its = Ret (b0, tbl) /\ known tbl its /\ settled tbl its b0 b.
Proof.
  intros E. assert (Ep : exists its b0 m, parse_bbnd nf file = Ret (Some its) /\ first_pass g its = Ret (b0, m)).
  { unfold bbnd_to_bounds in E. apply bind_ret_inv in E as (o & Eo & E). destruct o as [its|]; [|discriminate].
    apply bind_ret_inv in E as ([b0 m] & Em & E). exists its, b0, m. split; assumption. }
  destruct Ep as (its & b0 & m & Ep & Em). pose proof Ep as Ep'. apply parse_exact in Ep' as (ts & Ht & Ef).
  unfold first_pass in Em. destruct (first_all_inv g its _ _ [] _ _ Em) as (tbl & Es).
  destruct (bbnd_stores g nf file its b0 tbl Ep Es) as [H1 H2]. exists ts, its, b0, tbl. split; [exact Ef|]. split; [exact Ht|]. split; [exact Es|].
  pose proof (first_all g its (b_new []) ∅ [] (fun l => lookup_empty l)) as F. rewrite Es in F. destruct F as (m' & Em' & Hm).
  rewrite Em in Em'. injection Em' as <-.
  destruct (second_settled m tbl its Hm b0) as [S1 S2]. unfold bbnd_to_bounds in E. rewrite Ep in E. cbn [mbind out_bind] in E.
  unfold first_pass in E. rewrite Em in E. cbn [mbind out_bind fst snd] in E.
  destruct (second_pass m its b0) as [b1|] eqn:Eb; [|discriminate]. injection E as <-.
  assert (K : known tbl its).
  { intros it l Hi Hl N. assert (N' : ~ known tbl its) by (intros K; exact (K it l Hi Hl N)). discriminate (S2 N'). }
  split; [exact K|]. destruct (S1 K) as (b' & Eb' & Sb). injection Eb' as <-. exact Sb.
Qed.
Lemma newline_refused (g : geo A) file b : bbnd_to_bounds nf g file = Ret (Ok b) -> bbnd_to_bounds nf g (file ++ [nl]) = Ret (Err tt).
Proof.
  intros E. destruct (accepted_exact g file b E) as (ts & its & _ & _ & -> & H & _). destruct its as [|it its].
  - inversion H; subst. reflexivity.
  - destruct (parse_items nf ts (it :: its) H) as [_ H2]. unfold bbnd_to_bounds. rewrite H2 by discriminate. reflexivity.
Qed.
End exact.
