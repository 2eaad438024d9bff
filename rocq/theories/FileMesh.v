(** The mesh format: exactly which files are read, and what is built from them. *)
From Coq Require Import Ascii String.
From Verif Require Export FileExact.

(** *** spec: the text of a mesh *)
Section mesh_spec.
Context {A : arith} (nf : numfmt A).
Definition index_is (s : text) (n : nat) : Prop := numeral s n /\ (N.of_nat n < 2 ^ 64)%N.
(** one to three numbers with slashes between them *)
Definition vec_is (t : text) (p : point A) : Prop := exists ss xs, Forall2 (num_is nf) ss xs /\ t = slashed ss /\
  match xs with
  | [x] => p = Pt 1 x s0 s0
  | [x; y] => p = Pt 2 x y s0
  | [x; y; z] => p = Pt 3 x y z
  | _ => False
  end.
Definition ids_is (t : text) (ids : list nat) : Prop := exists ss, Forall2 index_is ss ids /\ t = slashed ss.
Definition con_is (t : text) (c : constr A) : Prop :=
  match c with
  | Free => False
  | XFixed => t = txt "x"
  | YFixed => t = txt "y"
  | XYFixed => t = txt "xy"
  | AngleFixed th => exists s, t = txt "angle:" ++ s /\ nf_read nf s = Some th /\ Forall (fun c => c <> nl /\ c <> cr) s
  end.
Definition cond_is (t : text) (c : strain_cond A) : Prop :=
  match c with
  | PlaneStrain x => exists s, num_is nf s x /\ t = txt "planestrain " ++ s
  | PlaneStress x => exists s, num_is nf s x /\ t = txt "planestress " ++ s
  | Axisymmetric => t = txt "axisymmetric"
  end.
Definition header_is (h : list text) (mat : material A) (c : strain_cond A) : Prop := exists d m ct,
  h = [txt "version " ++ d; txt "material " ++ m; txt "condition " ++ ct] /\
  numeral d 1 /\ material_from_str (string_of_list_ascii m) = Some mat /\ cond_is ct c.
(** an index and something after it *)
Definition after_index {X} (P : text -> X -> Prop) (l : text) (nx : nat * X) : Prop := exists e t,
  l = e ++ txt " " ++ t /\ index_is e nx.1 /\ P t nx.2.
(** the number of lines, and the lines *)
Definition counted {X} (P : text -> X -> Prop) (ls : list text) (xs : list X) : Prop := exists d ls',
  ls = (txt "count " ++ d) :: ls' /\ index_is d (length ls') /\ Forall2 P ls' xs.
Definition dist_is (l : text) (nmf : nat * nat * point A) : Prop :=
  after_index (after_index vec_is) l (nmf.1.1, (nmf.1.2, nmf.2)).
Definition mesh_says (file : text) (x : @parsed A) : Prop := exists h ns es cs fs ds rest,
  file_lines file = sect (txt "Header") h ++ sect (txt "Nodes") ns ++ sect (txt "Elements") es ++
    sect (txt "Constraints") cs ++ sect (txt "Forces") fs ++ sect (txt "DistForces") ds ++ rest /\
  header_is h (pa_mat x) (pa_cond x) /\
  counted (after_index vec_is) ns (zip (seq 0 (length (pa_nodes x))) (pa_nodes x)) /\
  counted (after_index ids_is) es (zip (seq 0 (length (pa_elems x))) (pa_elems x)) /\
  counted (after_index con_is) cs (pa_cons x) /\
  counted (after_index vec_is) fs (pa_forces x) /\
  counted dist_is ds (pa_dist x).
(** what is built: every index is that of a node, every triangle is sound, the supports of a node
    are combined in order, and the last force at a node or side counts *)
Definition of_key {K V} `{EqDecision K} (k : K) (l : list (K * V)) : list V :=
  omap (fun kv : K * V => if decide (kv.1 = k) then Some kv.2 else None) l.
Record built_from (x : @parsed A) (a : elas A) : Prop := {
  bf_mat : ea_mat a = pa_mat x;
  bf_cond : ea_cond a = pa_cond x;
  bf_nodes : ea_nodes a = pa_nodes x;
  bf_elems : Forall2 (fun ids e => exists i j k p q r, ids = [i; j; k] /\ pa_nodes x !! i = Some p /\ pa_nodes x !! j = Some q /\
    pa_nodes x !! k = Some r /\ e = El (i, j, k) (p, q, r) (pa_mat x) (pa_cond x) /\ sound e) (pa_elems x) (ea_elems a);
  bf_cons_at : forall n c, (n, c) ∈ pa_cons x -> n < length (pa_nodes x);
  bf_cons_len : length (ea_cons a) = length (pa_nodes x);
  bf_cons : forall n c, ea_cons a !! n = Some c -> c = fold_left Assem.combine (of_key n (pa_cons x)) Free;
  bf_force_at : forall n f, (n, f) ∈ pa_forces x -> n < length (pa_nodes x);
  bf_force : forall n, ea_conc a !! n = last (of_key n (pa_forces x));
  bf_dist_at : forall n m f, (n, m, f) ∈ pa_dist x -> n < length (pa_nodes x) /\ m < length (pa_nodes x);
  bf_dist : forall nm, ea_line a !! nm = last (of_key nm (pa_dist x)) }.
End mesh_spec.

(** *** what is eaten *)
Lemma uint_bound top first v i r n : uint_loop top first v i = POk r n -> (first = false -> (v < top)%N) -> (n < top)%N.
Proof.
  revert first v. induction i as [|c i IH]; intros first v; cbn [uint_loop].
  - destruct first; [discriminate|]. intros [= <- <-] H. apply H. reflexivity.
  - destruct (is_digit c).
    + destruct (_ <? top)%N eqn:E; [|discriminate]. intros H _. apply N.ltb_lt in E. eapply IH; [exact H|]. intros _. exact E.
    + destruct first; [discriminate|]. intros [= <- <-] H. apply H. reflexivity.
Qed.
Lemma eat_both {X} (p : parser X) P Q : eats p P -> eats p Q -> eats p (fun c x => P c x /\ Q c x).
Proof.
  intros HP HQ i r x E. destruct (HP _ _ _ E) as (c & -> & H1). destruct (HQ _ _ _ E) as (c' & Ec & H2).
  apply app_inv_tail in Ec as <-. exists c. tauto.
Qed.
Lemma eat_index : eats u64 index_is.
Proof.
  apply eat_both; [exact eat_u64|]. intros i r x E. destruct (eat_u64 _ _ _ E) as (c & -> & Hc). exists c. split; [reflexivity|].
  unfold u64, p_map, uint in E. cbn [mbind out_bind] in E. destruct (uint_loop _ _ _ _) as [r' n| |] eqn:Eu; try discriminate.
  injection E as -> <-. rewrite N2Nat.id. eapply uint_bound; [exact Eu|discriminate].
Qed.
Lemma index_acc (R : text -> Prop) e n : (forall r, R r -> stop r) -> index_is e n -> accepts R u64 e n.
Proof. intros HR [H1 H2]. eapply acc_weak; [exact HR|]. apply acc_u64; assumption. Qed.
Lemma index_no_nl e n : index_is e n -> no_nl e.
Proof. intros [(_ & D & _) _]. apply digits_no_nl, D. Qed.

Section slashes.
Context {X : Type} (p : parser X) (P : text -> X -> Prop).
Lemma slash_loop_inv : eats p P -> forall fuel res i r xs, sep_loop fuel slash p res i = Ret (POk r xs) ->
  exists ts ys, xs = res ++ ys /\ Forall2 P ts ys /\ i = concat (map (fun l => txt "/" ++ l) ts) ++ r.
Proof.
  intros Hp fuel. induction fuel as [|fuel IH]; intros res i r xs E; [discriminate|]. cbn [sep_loop] in E.
  apply bind_ret_inv in E as (o & Eo & E). destruct o as [i1 u| |]; try discriminate.
  - apply bind_ret_inv in E as (o & Ep & E). destruct o as [i2 x| |]; try discriminate.
    + destruct (eat_tag _ _ _ _ Eo) as (? & -> & ->). destruct (Hp _ _ _ Ep) as (c & -> & Hc).
      destruct (IH _ _ _ _ E) as (ts & ys & -> & H & ->). exists (c :: ts), (x :: ys). rewrite <- app_assoc. split; [reflexivity|].
      split; [constructor; assumption|]. cbn [map concat]. rewrite <- !app_assoc. reflexivity.
    + injection E as <- <-. exists [], []. rewrite app_nil_r. split; [reflexivity|]. split; [constructor|reflexivity].
  - injection E as <- <-. exists [], []. rewrite app_nil_r. split; [reflexivity|]. split; [constructor|reflexivity].
Qed.
Lemma eat_slashed : eats p P -> eats (separated_list0 slash p) (fun c xs => exists ss, Forall2 P ss xs /\ c = slashed ss).
Proof.
  intros Hp i r xs E. unfold separated_list0 in E. apply bind_ret_inv in E as (o & Ep & E). destruct o as [i1 x| |]; try discriminate.
  - destruct (Hp _ _ _ Ep) as (c & -> & Hc). destruct (slash_loop_inv Hp _ _ _ _ _ E) as (ts & ys & -> & H & ->).
    exists (slashed (c :: ts)). cbn [slashed]. rewrite <- app_assoc. split; [reflexivity|]. exists (c :: ts).
    split; [constructor; assumption|reflexivity].
  - injection E as <- <-. exists []. split; [reflexivity|]. exists []. split; [constructor|reflexivity].
Qed.
Lemma slashed_acc ss xs : (forall r, nl_next r -> p r = Ret PErr) -> (forall s x, P s x -> accepts stop p s x) -> Forall2 P ss xs ->
  accepts nl_next (separated_list0 slash p) (slashed ss) xs.
Proof.
  intros Hn Hp H. destruct H as [|s x ss xs Hs H].
  - intros r Hr. cbn [slashed app]. unfold separated_list0. rewrite Hn by exact Hr. reflexivity.
  - assert (E : exists l : list (text * X), ss = map fst l /\ xs = map snd l /\ Forall (fun z => P z.1 z.2) l).
    { clear Hs. induction H as [|s' x' ss xs Hs H (l & -> & -> & Hl)]; [exists []; repeat split; constructor|].
      exists ((s', x') :: l). repeat split. constructor; assumption. }
    destruct E as (l & -> & -> & Hl). apply (sep_acc p ((s, x) :: l)); [discriminate|].
    intros z Hz. apply elem_of_cons in Hz as [->|Hz]; [apply Hp, Hs|]. rewrite Forall_forall in Hl. apply Hp, Hl, Hz.
Qed.
End slashes.

(** *** lists of lines with their contents *)
Section lists.
Context {X : Type} (p : parser X) (P : text -> X -> Prop).
Lemma count_index : eats_lines count_line (fun ls n => exists d, ls = [txt "count " ++ d] /\ index_is d n).
Proof.
  intros i r n E. destruct (count_lines_inv _ _ _ E) as (ls & -> & N & d & -> & Hd). exists [txt "count " ++ d]. split; [reflexivity|]. split; [exact N|].
  exists d. split; [reflexivity|]. split; [exact Hd|].
  destruct (eat_bind _ _ _ _ (eat_tag (txt "count ")) (fun _ =>
     eat_bind _ _ _ _ eat_index (fun n => eat_bind _ _ _ _ eat_nl (fun _ => eat_ret n))) _ _ n E)
    as (c & _ & c1 & c2 & [] & _ & _ & c3 & c4 & m & _ & [_ Hm] & c5 & c6 & [] & _ & _ & _ & ->). exact Hm.
Qed.
Lemma free_loop_is : eats p P -> eats p line_text -> forall n res,
  eats_lines (free_loop p n res) (fun ls xs => length ls = n /\ exists ys, xs = res ++ ys /\ Forall2 P ls ys).
Proof.
  intros HP Hp n. induction n as [|n IH]; intros res i r xs E; cbn [free_loop] in E.
  - injection E as <- <-. exists []. split; [reflexivity|]. split; [constructor|]. split; [reflexivity|]. exists []. rewrite app_nil_r. split; [reflexivity|constructor].
  - unfold p_bind in E. apply bind_ret_inv in E as (o & E1 & E). destruct o as [i1 x| |]; try discriminate.
    apply bind_ret_inv in E as (o & E2 & E). destruct o as [i2 u| |]; try discriminate.
    destruct (eat_soften _ _ (eat_both _ _ _ HP Hp) _ _ _ E1) as (c1 & -> & H1 & N1). destruct (eat_soften _ _ eat_nl _ _ _ E2) as (c2 & -> & ->).
    destruct (IH _ _ _ _ E) as (ls & -> & Nls & Hl & ys & -> & Hy). exists (c1 :: ls). rewrite unl_cons. split; [|split; [|split]].
    + rewrite <- !app_assoc. reflexivity.
    + constructor; assumption.
    + cbn [length]. lia.
    + exists (x :: ys). rewrite <- app_assoc. split; [reflexivity|]. constructor; assumption.
Qed.
Lemma mono_loop_is : eats p P -> eats p line_text -> forall n i0 res,
  eats_lines (mono_loop p n i0 res) (fun ls xs => length ls = n /\ exists ys, xs = res ++ ys /\ length ys = n /\
    Forall2 (after_index P) ls (zip (seq i0 n) ys)).
Proof.
  intros HP Hp n. induction n as [|n IH]; intros i0 res i r xs E; cbn [mono_loop] in E.
  - injection E as <- <-. exists []. split; [reflexivity|]. split; [constructor|]. split; [reflexivity|]. exists []. rewrite app_nil_r. split; [reflexivity|]. split; [reflexivity|constructor].
  - unfold p_bind at 1 in E. apply bind_ret_inv in E as (o & E0 & E). destruct o as [i1 num| |]; try discriminate.
    destruct (Nat.eqb_spec num i0) as [->|]; [|discriminate].
    unfold p_bind in E. apply bind_ret_inv in E as (o & Es & E). destruct o as [i2 u| |]; try discriminate.
    apply bind_ret_inv in E as (o & E1 & E). destruct o as [i3 x| |]; try discriminate.
    apply bind_ret_inv in E as (o & E2 & E). destruct o as [i4 u'| |]; try discriminate.
    destruct (eat_index _ _ _ E0) as (d & -> & Hd). destruct (eat_soften _ _ (eat_tag (txt " ")) _ _ _ Es) as (? & -> & ->).
    destruct (eat_soften _ _ (eat_both _ _ _ HP Hp) _ _ _ E1) as (c1 & -> & H1 & N1). destruct (eat_soften _ _ eat_nl _ _ _ E2) as (? & -> & ->).
    destruct (IH _ _ _ _ _ E) as (ls & -> & Nls & Hl & ys & -> & Ly & Hy).
    exists ((d ++ txt " " ++ c1) :: ls). rewrite unl_cons. split; [|split; [|split]].
    + rewrite <- !app_assoc. reflexivity.
    + constructor; [|exact Nls]. apply nn_app; [eapply index_no_nl, Hd|]. apply nn_app; [apply nn_txt; reflexivity|exact N1].
    + cbn [length]. lia.
    + exists (x :: ys). rewrite <- app_assoc. split; [reflexivity|]. split; [cbn [length]; lia|]. cbn [seq zip zip_with]. constructor; [|exact Hy].
      exists d, c1. auto.
Qed.
Lemma free_list_is : eats p P -> eats p line_text -> eats_lines (free_list p) (counted P).
Proof.
  intros HP Hp i r xs E. unfold free_list, p_bind in E. apply bind_ret_inv in E as (o & E1 & E). destruct o as [i1 n| |]; try discriminate.
  destruct (count_index _ _ _ E1) as (ls1 & -> & N1 & d & -> & Hd).
  destruct (free_loop_is HP Hp n [] _ _ _ E) as (ls & -> & N2 & Hl & ys & -> & Hx).
  exists ([txt "count " ++ d] ++ ls). rewrite unl_app, <- app_assoc. split; [reflexivity|]. split; [apply Forall_app; tauto|].
  exists d, ls. rewrite Hl. auto.
Qed.
Lemma monotonic_list_is : eats p P -> eats p line_text ->
  eats_lines (monotonic_list p) (fun ls xs => counted (after_index P) ls (zip (seq 0 (length xs)) xs)).
Proof.
  intros HP Hp i r xs E. unfold monotonic_list, p_bind in E. apply bind_ret_inv in E as (o & E1 & E). destruct o as [i1 n| |]; try discriminate.
  destruct (count_index _ _ _ E1) as (ls1 & -> & N1 & d & -> & Hd).
  destruct (mono_loop_is HP Hp n 0 [] _ _ _ E) as (ls & -> & N2 & Hl & ys & -> & Ly & Hx).
  exists ([txt "count " ++ d] ++ ls). rewrite unl_app, <- app_assoc. split; [reflexivity|]. split; [apply Forall_app; tauto|].
  exists d, ls. rewrite Hl. cbn [app]. rewrite Ly. auto.
Qed.
(** the other direction *)
Lemma count_acc d n : index_is d n -> accepts anyr count_line (txt "count " ++ d ++ [nl]) n.
Proof.
  intros Hd. unfold count_line, delimited. eapply (acc_bind anyr); [apply acc_tag|].
  eapply (acc_bind anyr); [eapply index_acc; [|exact Hd]|].
  - intros r (r' & -> & _). left. reflexivity.
  - rewrite <- (app_nil_r [nl]). eapply (acc_bind anyr); [apply acc_tag|apply acc_ret].
Qed.
Lemma free_loop_take ls xs : (forall l x, P l x -> accepts nl_next p l x) -> Forall2 P ls xs ->
  forall res, accepts anyr (free_loop p (length ls) res) (unl ls) (res ++ xs).
Proof.
  intros HP H. induction H as [|l x ls xs Hl H IH]; intros res r Hr; cbn [length free_loop].
  - rewrite app_nil_r. reflexivity.
  - rewrite unl_cons, <- app_assoc. cbn [app].
    rewrite (ok_bind _ _ _ _ _ (ok_soften _ _ _ _ (HP _ _ Hl (nl :: unl ls ++ r) ltac:(eexists; reflexivity)))). rewrite nl_soft.
    rewrite (IH (res ++ [x]) r Hr), <- app_assoc. reflexivity.
Qed.
Lemma mono_loop_take xs : (forall l x, P l x -> accepts nl_next p l x) -> forall i0 ls res, Forall2 (after_index P) ls (zip (seq i0 (length xs)) xs) ->
  accepts anyr (mono_loop p (length ls) i0 res) (unl ls) (res ++ xs).
Proof.
  intros HP. induction xs as [|x xs IH]; intros i0 ls res H r Hr; cbn [length seq zip zip_with] in H.
  - apply Forall2_nil_inv_r in H as ->. cbn. rewrite app_nil_r. reflexivity.
  - apply Forall2_cons_inv_r in H as (l & ls' & (e & t & -> & He & Ht) & H & ->). cbn [fst snd] in *. cbn [length mono_loop].
    rewrite unl_cons, <- !app_assoc. cbn [app].
    rewrite (ok_bind _ _ _ _ _ (index_acc stop e i0 (fun _ H => H) He (txt " " ++ t ++ nl :: unl ls' ++ r) (or_intror (or_introl eq_refl)))).
    rewrite Nat.eqb_refl.
    rewrite (ok_bind _ _ _ _ _ (ok_soften _ _ _ _ (acc_tag anyr (txt " ") _ I))).
    rewrite (ok_bind _ _ _ _ _ (ok_soften _ _ _ _ (HP _ _ Ht (nl :: unl ls' ++ r) ltac:(eexists; reflexivity)))). rewrite nl_soft.
    rewrite (IH (S i0) ls' (res ++ [x]) H r Hr), <- app_assoc. reflexivity.
Qed.
Lemma free_list_take ls xs : (forall l x, P l x -> accepts nl_next p l x) -> counted P ls xs -> accepts anyr (free_list p) (unl ls) xs.
Proof.
  intros HP (d & ls' & -> & Hd & H). rewrite unl_cons.
  replace ((txt "count " ++ d) ++ nl :: unl ls') with ((txt "count " ++ d ++ [nl]) ++ unl ls') by (rewrite <- !app_assoc; reflexivity).
  eapply acc_bind; [eapply acc_weak; [|apply count_acc, Hd]; easy|]. apply (free_loop_take _ _ HP H []).
Qed.
Lemma monotonic_list_take ls xs : (forall l x, P l x -> accepts nl_next p l x) -> counted (after_index P) ls (zip (seq 0 (length xs)) xs) ->
  accepts anyr (monotonic_list p) (unl ls) xs.
Proof.
  intros HP (d & ls' & -> & Hd & H). rewrite unl_cons.
  replace ((txt "count " ++ d) ++ nl :: unl ls') with ((txt "count " ++ d ++ [nl]) ++ unl ls') by (rewrite <- !app_assoc; reflexivity).
  eapply acc_bind; [eapply acc_weak; [|apply count_acc, Hd]; easy|]. apply (mono_loop_take _ HP 0 _ [] H).
Qed.
End lists.

Section items.
Context {A : arith} (nf : numfmt A).
Lemma vec_point t (p : point A) : vec_is nf t p <-> exists ss xs, Forall2 (num_is nf) ss xs /\ t = slashed ss /\ point_of xs = Ret p.
Proof.
  unfold vec_is. split; intros (ss & xs & H & E & Hp); exists ss, xs; (split; [exact H|split; [exact E|]]);
    destruct xs as [|x [|y [|z [|? ?]]]]; cbn in *; try contradiction; try discriminate; subst; try reflexivity; injection Hp as <-; reflexivity.
Qed.
Lemma eat_vec : eats (coords nf) (vec_is nf).
Proof.
  unfold coords. eapply eat_weak; [apply eat_map, eat_slashed, eat_num|]. intros c p (xs & (ss & H & ->) & E). apply vec_point. eauto.
Qed.
Lemma take_vec t p : vec_is nf t p -> accepts nl_next (coords nf) t p.
Proof.
  intros H. apply vec_point in H as (ss & xs & H & -> & E). unfold coords. eapply acc_map; [|exact E].
  apply (slashed_acc _ (num_is nf)); [intros r (r' & ->); reflexivity| |exact H].
  intros s x Hs. apply acc_num; [auto|exact Hs].
Qed.
Lemma eat_idlist : eats (separated_list0 slash u64) ids_is.
Proof. exact (eat_slashed _ _ eat_index). Qed.
Lemma take_idlist t ids : ids_is t ids -> accepts nl_next (separated_list0 slash u64) t ids.
Proof.
  intros (ss & H & ->). apply (slashed_acc _ index_is); [intros r (r' & ->); reflexivity| |exact H]. intros s x. apply index_acc. auto.
Qed.
Lemma con_str t (c : constr A) : con_is nf t c <-> constraint_from_str nf t = Some c /\ Forall (fun c => c <> nl /\ c <> cr) t.
Proof.
  assert (F : forall s, forallb (fun c => negb (Ascii.eqb c nl) && negb (Ascii.eqb c cr)) (txt s) = true -> Forall (fun c => c <> nl /\ c <> cr) (txt s)).
  { intros s H. apply Forall_forall. intros c' Hc. apply elem_of_list_In in Hc. rewrite forallb_forall in H. specialize (H _ Hc).
    apply andb_true_iff in H as [H1 H2]. split; intros ->; [discriminate H1|discriminate H2]. }
  unfold constraint_from_str. split.
  - destruct c as [| | | |th]; cbn [con_is]; [intros []|intros ->; split; [reflexivity|apply F; reflexivity]..|].
    intros (s & -> & Hs & Ns). split; [|apply Forall_app; split; [apply F; reflexivity|exact Ns]].
    rewrite !bool_decide_false by discriminate. rewrite strip_app, Hs. reflexivity.
  - case_bool_decide; [intros [[= <-] _]; assumption|]. case_bool_decide; [intros [[= <-] _]; assumption|].
    case_bool_decide; [intros [[= <-] _]; assumption|]. destruct (strip (txt "angle:") t) as [r|] eqn:E; [|intros [Hx _]; discriminate].
    apply strip_inv in E. subst t. intros [Hx N]. destruct (nf_read nf r) as [th|] eqn:Er; [|discriminate]. injection Hx as <-.
    apply Forall_app in N as [_ N]. exists r. auto.
Qed.
Lemma eat_conline : eats (constraint_line nf) (after_index (con_is nf)).
Proof.
  unfold constraint_line. eapply eat_weak; [eapply eat_bind; [exact eat_index|intros n; eapply eat_bind; [apply eat_tag|
     intros u; eapply eat_bind; [apply eat_map, eat_rest|intros c; apply eat_ret]]]|].
  intros c [n k] (e & c1 & n' & -> & He & c2 & c3 & [] & -> & -> & t & c5 & k' & -> & (s & (-> & Hs) & Ek) & -> & [= -> ->]).
  exists e, s. rewrite app_nil_r. split; [reflexivity|]. split; [exact He|]. apply con_str. split; [|exact Hs].
  destruct (constraint_from_str nf s) as [k0|]; [|discriminate]. injection Ek as ->. reflexivity.
Qed.
Lemma take_conline l nc : after_index (con_is nf) l nc -> accepts nl_next (constraint_line nf) l nc.
Proof.
  destruct nc as [n c]. intros (e & t & -> & He & Ht). cbn [fst snd] in *. apply con_str in Ht as [Hc Ht]. unfold constraint_line.
  eapply acc_bind; [eapply index_acc; [|exact He]|].
  { intros r (r' & -> & _). right. left. reflexivity. }
  eapply acc_bind; [apply acc_tag|]. rewrite <- (app_nil_r t).
  eapply acc_bind; [|apply acc_ret]. eapply acc_map; [|rewrite Hc; reflexivity].
  intros r (r' & -> & Hr). apply acc_rest; [exact Ht|]. right. exact Hr.
Qed.
Lemma eat_forceline : eats (force_line nf) (after_index (vec_is nf)).
Proof.
  unfold force_line. eapply eat_weak; [eapply eat_bind; [exact eat_index|intros n; eapply eat_bind; [apply eat_tag|
     intros u; eapply eat_bind; [apply eat_vec|intros c; apply eat_ret]]]|].
  intros c [n k] (e & c1 & n' & -> & He & c2 & c3 & [] & -> & -> & t & c5 & k' & -> & Hk & -> & [= -> ->]).
  exists e, t. rewrite app_nil_r. auto.
Qed.
Lemma take_forceline l nc : after_index (vec_is nf) l nc -> accepts nl_next (force_line nf) l nc.
Proof.
  destruct nc as [n c]. intros (e & t & -> & He & Ht). cbn [fst snd] in *. unfold force_line.
  eapply acc_bind; [eapply index_acc; [|exact He]|].
  { intros r (r' & -> & _). right. left. reflexivity. }
  eapply acc_bind; [apply acc_tag|]. rewrite <- (app_nil_r t).
  eapply acc_bind; [|apply acc_ret]. eapply acc_weak; [|apply take_vec, Ht]. intros r (r' & -> & Hr). exact Hr.
Qed.
Lemma eat_distline : eats (dist_line nf) (dist_is nf).
Proof.
  assert (T : eats (terminated u64 space) (fun c n => exists e, c = e ++ txt " " /\ index_is e n)).
  { unfold terminated. eapply eat_weak; [eapply eat_bind; [exact eat_index|intros n; eapply eat_bind; [apply eat_tag|intros u; apply eat_ret]]|].
    intros c n (e & c1 & n' & -> & He & c2 & c3 & [] & -> & -> & -> & ->). exists e. rewrite app_nil_r. auto. }
  unfold dist_line. eapply eat_weak; [eapply eat_bind; [exact T|intros n; eapply eat_bind; [exact T|
     intros m; eapply eat_bind; [apply eat_vec|intros c; apply eat_ret]]]|].
  intros c [[n m] k] (e0 & c1 & n' & -> & (e & -> & He) & c2 & c3 & m' & -> & (e' & -> & He') & t & c5 & k' & -> & Hk & -> & [= -> -> ->]).
  exists e, (e' ++ txt " " ++ t). rewrite app_nil_r, <- !app_assoc. split; [reflexivity|]. split; [exact He|]. exists e', t. auto.
Qed.
Lemma take_distline l nmf : dist_is nf l nmf -> accepts nl_next (dist_line nf) l nmf.
Proof.
  destruct nmf as [[n m] v]. intros (e & t' & -> & He & e' & t & Et & He' & Ht). cbn [fst snd] in *. subst t'. unfold dist_line.
  assert (T : forall R e n, index_is e n -> accepts R (terminated u64 space) (e ++ txt " ") n).
  { intros R e0 n' He0. unfold terminated. eapply acc_bind; [eapply index_acc; [|exact He0]|].
    - intros r (r' & -> & _). right. left. reflexivity.
    - rewrite <- (app_nil_r (txt " ")). eapply acc_bind; [apply acc_tag|apply acc_ret]. }
  rewrite (app_assoc e), (app_assoc e').
  eapply acc_bind; [apply T, He|]. eapply acc_bind; [apply T, He'|]. rewrite <- (app_nil_r t).
  eapply acc_bind; [|apply acc_ret]. eapply acc_weak; [|apply take_vec, Ht]. intros r (r' & -> & Hr). exact Hr.
Qed.

(** *** the header *)
Lemma eat_condition : eats (condition_parser nf) (cond_is nf).
Proof.
  unfold condition_parser. apply eat_alt; [|apply eat_alt].
  - eapply eat_weak; [apply eat_map, eat_head, eat_num|]. intros c k (x & (d & -> & H) & [= <-]). exists d. auto.
  - eapply eat_weak; [apply eat_map, eat_head, eat_num|]. intros c k (x & (d & -> & H) & [= <-]). exists d. auto.
  - eapply eat_weak; [apply eat_map, eat_tag|]. intros c k (u & -> & [= <-]). reflexivity.
Qed.
Lemma take_condition t c : cond_is nf t c -> accepts nl_next (condition_parser nf) t c.
Proof.
  unfold condition_parser. destruct c as [x|x|]; cbn [cond_is].
  - intros (s & Hs & ->). first [apply acc_alt1; eapply acc_map; [|reflexivity]; eapply acc_bind; [apply acc_tag|]; eapply acc_num; [apply nl_stop|exact Hs]
      |apply acc_alt2; [reflexivity|]; apply acc_alt1; eapply acc_map; [|reflexivity]; eapply acc_bind; [apply acc_tag|]; eapply acc_num; [apply nl_stop|exact Hs]].
  - intros (s & Hs & ->). first [apply acc_alt1; eapply acc_map; [|reflexivity]; eapply acc_bind; [apply acc_tag|]; eapply acc_num; [apply nl_stop|exact Hs]
      |apply acc_alt2; [reflexivity|]; apply acc_alt1; eapply acc_map; [|reflexivity]; eapply acc_bind; [apply acc_tag|]; eapply acc_num; [apply nl_stop|exact Hs]].
  - intros ->. apply acc_alt2; [reflexivity|]. apply acc_alt2; [reflexivity|]. eapply acc_map; [|reflexivity]. apply acc_tag.
Qed.
Lemma named_is {X} (p : parser X) name P : no_nl name -> eats p P -> eats p line_text ->
  eats_lines (named_value name p) (fun ls x => exists c, ls = [name ++ txt " " ++ c] /\ P c x).
Proof.
  intros Hn HP Hp i r x E. unfold named_value, delimited, terminated, p_bind in E.
  apply bind_ret_inv in E as (o & E1 & E). destruct o as [i1 u1| |]; try discriminate.
  apply bind_ret_inv in E1 as (o & E0 & E1). destruct o as [i0 u0| |]; try discriminate.
  apply bind_ret_inv in E1 as (o & E01 & E1). destruct o as [i01 u01| |]; try discriminate. injection E1 as -> ->.
  apply bind_ret_inv in E as (o & E2 & E). destruct o as [i2 y| |]; try discriminate.
  apply bind_ret_inv in E as (o & E3 & E). destruct o as [i3 u3| |]; try discriminate.
  injection E as -> ->.
  destruct (eat_tag _ _ _ _ E0) as (? & -> & ->). destruct (eat_tag _ _ _ _ E01) as (? & -> & ->).
  destruct (eat_both _ _ _ HP Hp _ _ _ E2) as (c & -> & HPc & Nc). destruct (eat_nl _ _ _ E3) as (? & -> & ->).
  exists [name ++ txt " " ++ c]. rewrite unl_cons. change (unl []) with (@nil ascii). split; [|split].
  - rewrite <- !app_assoc. reflexivity.
  - constructor; [|constructor]. apply nn_app; [exact Hn|]. apply nn_app; [apply nn_txt; reflexivity|exact Nc].
  - exists c. auto.
Qed.
Lemma header_lines_is : eats_lines (header_parser nf) (fun ls x => exists h, ls = sect (txt "Header") h /\
  ((x.1.1 = 1)%N -> header_is nf h x.1.2 x.2)).
Proof.
  unfold header_parser. apply section_inv; [apply nn_txt; reflexivity|].
  intros i r x E. unfold p_map, p_bind in E. apply bind_ret_inv in E as (o & E1 & E). destruct o as [i1 v| |]; try discriminate.
  apply bind_ret_inv in E as (m & Em & E). injection E as <- <-.
  apply bind_ret_inv in E1 as (o & E0 & E1). destruct o as [i2 v2| |]; try discriminate.
  apply bind_ret_inv in E1 as (o & E2 & E1). destruct o as [i3 v3| |]; try discriminate.
  apply bind_ret_inv in E1 as (o & E3 & E1). destruct o as [i4 v4| |]; try discriminate. injection E1 as <- <-.
  destruct (named_is u8 (txt "version") _ (nn_txt "version" eq_refl) (eat_uint _) eat_u8 _ _ _ E0) as (l1 & -> & N1 & d & -> & Hd).
  destruct (named_is alphanumeric1 (txt "material") _ (nn_txt "material" eq_refl) eat_word eat_alnum _ _ _ E2) as (l2 & -> & N2 & mt & -> & Hm).
  destruct (named_is (condition_parser nf) (txt "condition") _ (nn_txt "condition" eq_refl) eat_condition (eat_cond nf) _ _ _ E3) as (l3 & -> & N3 & ct & -> & Hc).
  eexists. split; [|split].
  2:{ apply Forall_app. split; [exact N1|]. apply Forall_app. split; [exact N2|exact N3]. }
  { rewrite !unl_app, <- !app_assoc. reflexivity. }
  cbn [fst snd] in *. apply bind_ret_inv in Em as (mat & Em & E). injection E as <-. cbn [fst snd]. intros ->.
  destruct Hd as (Nd & Dd & Vd). destruct Hm as [-> Hm].
  exists d, v3, ct. split; [reflexivity|]. split; [split; [exact Nd|split; [exact Dd|exact Vd]]|]. split; [|exact Hc].
  destruct (material_from_str _) as [m0|]; [|discriminate]. injection Em as ->. reflexivity.
Qed.
Lemma header_take h mat c : header_is nf h mat c -> accepts anyr (header_parser nf) (unl (sect (txt "Header") h)) (1%N, mat, c).
Proof.
  intros (d & m & ct & -> & (Nd & Dd & Vd) & Hm & Hc). unfold header_parser. apply section_acc.
  eapply acc_map with (x := (1%N, m, c)).
  2:{ cbn [fst snd]. rewrite Hm. reflexivity. }
  match goal with |- accepts _ _ (unl [?a; ?b; ?c]) _ => replace (unl [a; b; c]) with (unl [a] ++ unl [b] ++ unl [c]) by (rewrite <- !unl_app; reflexivity) end.
  assert (W : forall X (p : parser X) R c x, accepts anyr p c x -> accepts R p c x)
    by (intros X p R c' x H; eapply acc_weak; [|exact H]; easy).
  eapply acc_bind; [apply W, (named_acc u8 (txt "version") d 1%N)|].
  { intros r (r' & ->). unfold u8, uint. rewrite uint_loop_app; [fold (dval d); rewrite Vd; reflexivity|exact Dd|auto| |reflexivity].
    fold (dval d). rewrite Vd. reflexivity. }
  eapply acc_bind; [apply W, (named_acc alphanumeric1 (txt "material") m m)|].
  { unfold material_from_str in Hm. intros r (r' & ->). rewrite <- (list_ascii_of_string_of_list_ascii m).
    destruct (String.eqb_spec (string_of_list_ascii m) "AL6061") as [E|E]; [rewrite E; reflexivity|].
    destruct (String.eqb_spec (string_of_list_ascii m) "TEST") as [E'|E']; [rewrite E'; reflexivity|discriminate]. }
  rewrite <- (app_nil_r (unl [txt "condition " ++ _])).
  eapply acc_bind; [apply W, (named_acc (condition_parser nf) (txt "condition")), take_condition, Hc|apply acc_ret].
Qed.

(** *** the whole file *)
Lemma mesh_exact file (x : parsed) : parse_bmsh nf file = Ret (Some x) <-> mesh_says nf file x.
Proof.
  split.
  - unfold parse_bmsh. rewrite clean_unl. intros E.
    apply bind_ret_inv in E as (o & E0 & E). destruct o as [i0 hd| |]; try discriminate. destruct (negb _) eqn:Ev; [discriminate|].
    apply negb_false_iff, N.eqb_eq in Ev.
    apply bind_ret_inv in E as (o & E1 & E). destruct o as [i1 ns| |]; try discriminate.
    apply bind_ret_inv in E as (o & E2 & E). destruct o as [i2 es| |]; try discriminate.
    apply bind_ret_inv in E as (o & E3 & E). destruct o as [i3 cs| |]; try discriminate.
    apply bind_ret_inv in E as (o & E4 & E). destruct o as [i4 fs| |]; try discriminate.
    apply bind_ret_inv in E as (o & E5 & E). destruct o as [i5 ds| |]; try discriminate.
    injection E as <-. unfold mesh_says. cbn [pa_nodes pa_elems pa_mat pa_cond pa_cons pa_forces pa_dist].
    destruct (header_lines_is _ _ _ E0) as (l0 & H0 & N0 & h & -> & Hh). specialize (Hh Ev).
    destruct (section_inv _ (txt "Nodes") _ (nn_txt "Nodes" eq_refl) (monotonic_list_is _ _ eat_vec (eat_coords nf)) _ _ _ E1) as (l1 & -> & N1 & s1 & -> & H1).
    destruct (section_inv _ (txt "Elements") _ (nn_txt "Elements" eq_refl) (monotonic_list_is _ _ eat_idlist eat_ids) _ _ _ E2) as (l2 & -> & N2 & s2 & -> & H2).
    destruct (section_inv _ (txt "Constraints") _ (nn_txt "Constraints" eq_refl) (free_list_is _ _ eat_conline (eat_con nf)) _ _ _ E3) as (l3 & -> & N3 & s3 & -> & H3).
    destruct (section_inv _ (txt "Forces") _ (nn_txt "Forces" eq_refl) (free_list_is _ _ eat_forceline (eat_force nf)) _ _ _ E4) as (l4 & -> & N4 & s4 & -> & H4).
    destruct (section_inv _ (txt "DistForces") _ (nn_txt "DistForces" eq_refl) (free_list_is _ _ eat_distline (eat_dist nf)) _ _ _ E5) as (l5 & -> & N5 & s5 & -> & H5).
    destruct (unl_prefix (file_lines file) (sect (txt "Header") h ++ sect (txt "Nodes") s1 ++ sect (txt "Elements") s2 ++
        sect (txt "Constraints") s3 ++ sect (txt "Forces") s4 ++ sect (txt "DistForces") s5) i5) as (rest & E & _).
    + apply file_lines_nl.
    + repeat (apply Forall_app; split); assumption.
    + unfold file_lines. rewrite H0, !unl_app, <- !app_assoc. reflexivity.
    + exists h, s1, s2, s3, s4, s5, rest. rewrite E, <- !app_assoc. split; [reflexivity|]. auto 10.
  - intros (h & ns & es & cs & fs & ds & rest & E & Hh & Hn & He & Hc & Hf & Hd). unfold parse_bmsh. rewrite clean_unl. fold (file_lines file).
    rewrite E, !unl_app, (header_take _ _ _ Hh _ I). cbn [mbind out_bind fst snd]. change (negb (1 =? 1)%N) with false. cbv iota.
    unfold nodes_parser. rewrite (section_acc _ (txt "Nodes") ns _ (monotonic_list_take _ _ _ _ take_vec Hn) _ I). cbn [mbind out_bind].
    unfold elements_parser. rewrite (section_acc _ (txt "Elements") es _ (monotonic_list_take _ _ _ _ take_idlist He) _ I). cbn [mbind out_bind].
    unfold constraints_parser. rewrite (section_acc _ (txt "Constraints") cs _ (free_list_take _ _ _ _ take_conline Hc) _ I). cbn [mbind out_bind].
    unfold forces_parser. rewrite (section_acc _ (txt "Forces") fs _ (free_list_take _ _ _ _ take_forceline Hf) _ I). cbn [mbind out_bind].
    unfold dist_parser. rewrite (section_acc _ (txt "DistForces") ds _ (free_list_take _ _ _ _ take_distline Hd) _ I). cbn [mbind out_bind].
    destruct x. reflexivity.
Qed.
End items.

(** *** the assemblage that is built *)
Section made.
Context {A : arith}.
Definition with_elems (a : elas A) es : elas A := Elas (ea_nodes a) (ea_cond a) (ea_mat a) es (ea_cons a) (ea_conc a) (ea_line a).
Definition elem_from (a : elas A) (ids : list nat) (e : element A) : Prop := exists i j k p q r, ids = [i; j; k] /\
  ea_nodes a !! i = Some p /\ ea_nodes a !! j = Some q /\ ea_nodes a !! k = Some r /\ e = El (i, j, k) (p, q, r) (ea_mat a) (ea_cond a) /\ sound e.
Lemma idx_iff {X} (l : list X) i x : idx l i = Ret x <-> l !! i = Some x.
Proof. unfold idx. destruct (l !! i); split; intros H; try discriminate; now injection H as ->. Qed.
Lemma idx_seq n i j : idx (seq 0 n) i = Ret j <-> i < n /\ j = i.
Proof. rewrite idx_iff, lookup_seq. cbn [plus]. intuition. Qed.
Lemma bind_iff {X Y} (m : out X) (f : X -> out Y) y : mbind f m = Ret y <-> exists x, m = Ret x /\ f x = Ret y.
Proof. split; [apply bind_ret_inv|]. intros (x & -> & H). exact H. Qed.
Lemma one_elem (a b : elas A) n ids : n = length (ea_nodes a) ->
  (nids ← mapM_out (idx (seq 0 n)) ids; d ← code_to_desc nids; add_element a d) = Ret b <->
  exists e, elem_from a ids e /\ b = with_elems a (ea_elems a ++ [e]).
Proof.
  intros ->. split.
  - intros E. apply bind_ret_inv in E as (nids & E1 & E). apply bind_ret_inv in E as ([[i j] k] & E2 & E).
    assert (nids = ids) as ->.
    { clear -E1. revert nids E1. induction ids as [|x ids IH]; intros nids E; cbn [mapM_out] in E; [injection E as <-; reflexivity|].
      apply bind_ret_inv in E as (y & E1 & E). apply bind_ret_inv in E as (ys & E2 & E). injection E as <-.
      apply idx_seq in E1 as [_ ->]. rewrite (IH _ E2). reflexivity. }
    destruct ids as [|? [|? [|? [|? ?]]]]; try discriminate. injection E2 as -> -> ->.
    unfold add_element, build_element, ea_node in E. cbn [fst snd] in E. apply bind_ret_inv in E as (e & Ee & E).
    apply bind_ret_inv in Ee as (p & Ep & Ee). apply bind_ret_inv in Ee as (q & Eq & Ee). apply bind_ret_inv in Ee as (r & Er & Ee). injection Ee as <-.
    apply bind_ret_inv in E as (j0 & Ej & E). destruct (sltb j0 s0) eqn:El0; [discriminate|]. injection E as <-.
    eexists. split; [|reflexivity]. apply idx_iff in Ep, Eq, Er. exists i, j, k, p, q, r. do 5 (split; [first [reflexivity|assumption]|]).
    exists j0. auto.
  - intros (e & (i & j & k & p & q & r & -> & Hp & Hq & Hr & -> & (j0 & Ej & Hj)) & ->).
    rewrite (mapM_out_Ret _ (fun i => i)).
    2:{ apply lookup_lt_Some in Hp, Hq, Hr. intros x Hx. rewrite !elem_of_cons, elem_of_nil in Hx. apply idx_seq.
        destruct Hx as [->|[->|[->|[]]]]; auto. }
    cbn [map mbind out_bind code_to_desc]. unfold add_element, build_element, ea_node. cbn [fst snd].
    rewrite (proj2 (idx_iff _ _ _) Hp). cbn [mbind out_bind]. rewrite (proj2 (idx_iff _ _ _) Hq). cbn [mbind out_bind].
    rewrite (proj2 (idx_iff _ _ _) Hr). cbn [mbind out_bind]. rewrite Ej. cbn [mbind out_bind]. rewrite Hj. reflexivity.
Qed.
Lemma all_elems n l : forall a b : elas A, n = length (ea_nodes a) ->
  foldM (fun ids a => nids ← mapM_out (idx (seq 0 n)) ids; d ← code_to_desc nids; add_element a d) l a = Ret b <->
  exists es, Forall2 (elem_from a) l es /\ b = with_elems a (ea_elems a ++ es).
Proof.
  induction l as [|ids l IH]; intros a b Hn; cbn [foldM].
  - split.
    + intros [= <-]. exists []. split; [constructor|]. rewrite app_nil_r. destruct a. reflexivity.
    + intros (es & H & ->). inversion H. rewrite app_nil_r. destruct a. reflexivity.
  - rewrite bind_iff. split.
    + intros (a1 & E1 & E). apply one_elem in E1 as (e & He & ->); [|exact Hn]. apply IH in E as (es & H & ->); [|exact Hn].
      exists (e :: es). split; [constructor; assumption|]. cbn [with_elems ea_elems ea_nodes ea_cond ea_mat ea_cons ea_conc ea_line]. rewrite <- app_assoc. reflexivity.
    + intros (es & H & ->). apply Forall2_cons_inv_l in H as (e & es' & He & H & ->). eexists. split; [apply one_elem; [exact Hn|]; eauto|].
      apply IH; [exact Hn|]. exists es'. split; [exact H|]. cbn [with_elems ea_elems ea_nodes ea_cond ea_mat ea_cons ea_conc ea_line]. rewrite <- app_assoc. reflexivity.
Qed.
Definition with_cons (a : elas A) cs : elas A := Elas (ea_nodes a) (ea_cond a) (ea_mat a) (ea_elems a) cs (ea_conc a) (ea_line a).
Definition put_con (cs : list (constr A)) (nc : nat * constr A) : list (constr A) := alter (fun o => Assem.combine o nc.2) nc.1 cs.
Lemma all_cons n l : forall a b : elas A, n = length (ea_cons a) ->
  foldM (fun (nc : nat * constr A) a => k ← idx (seq 0 n) nc.1; add_constraint a k nc.2) l a = Ret b <->
  Forall (fun nc => nc.1 < n) l /\ b = with_cons a (fold_left put_con l (ea_cons a)).
Proof.
  assert (O : forall (a b : elas A) nc, n = length (ea_cons a) -> (k ← idx (seq 0 n) nc.1; add_constraint a k nc.2) = Ret b <->
      nc.1 < n /\ b = with_cons a (put_con (ea_cons a) nc)).
  { intros a b [k c] ->. rewrite bind_iff. cbn [fst snd]. unfold put_con. cbn [fst snd]. split.
    - intros (k' & E1 & E). apply idx_seq in E1 as [Hk ->]. split; [exact Hk|]. unfold add_constraint in E.
      apply bind_ret_inv in E as (old & E1 & E). apply bind_ret_inv in E as (cs & E2 & E). injection E as <-. apply idx_iff in E1.
      rewrite set_lookup in E2 by exact Hk. injection E2 as <-. unfold with_cons. f_equal. symmetry. apply list_eq. intros i.
      destruct (decide (i = k)) as [->|Hi].
      + rewrite list_lookup_alter, E1, list_lookup_insert by exact Hk. reflexivity.
      + rewrite list_lookup_alter_ne, list_lookup_insert_ne by auto. reflexivity.
    - intros [Hk ->]. exists k. split; [apply idx_seq; auto|]. unfold add_constraint. destruct (lookup_lt_is_Some_2 _ _ Hk) as (old & E1).
      rewrite (proj2 (idx_iff _ _ _) E1). cbn [mbind out_bind]. rewrite set_lookup by exact Hk. cbn [mbind out_bind]. unfold with_cons. do 2 f_equal.
      apply list_eq. intros i. destruct (decide (i = k)) as [->|Hi].
      + rewrite list_lookup_alter, E1, list_lookup_insert by exact Hk. reflexivity.
      + rewrite list_lookup_alter_ne, list_lookup_insert_ne by auto. reflexivity. }
  induction l as [|nc l IH]; intros a b Hn; cbn [foldM fold_left].
  - split; [intros [= <-]; split; [constructor|destruct a; reflexivity]|intros [_ ->]; destruct a; reflexivity].
  - rewrite bind_iff. split.
    + intros (a1 & E1 & E). apply O in E1 as [Hk ->]; [|exact Hn]. apply IH in E as [H ->]; [|cbn [ea_cons with_cons]; unfold put_con; rewrite alter_length; exact Hn].
      split; [constructor; assumption|reflexivity].
    + intros [H ->]. apply Forall_cons in H as [Hk H]. eexists. split; [apply O; [exact Hn|]; auto|].
      apply IH; [cbn [ea_cons with_cons]; unfold put_con; rewrite alter_length; exact Hn|]. auto.
Qed.
Lemma put_all l : forall cs n c0, cs !! n = Some c0 -> fold_left put_con l cs !! n = Some (fold_left Assem.combine (of_key n l) c0).
Proof.
  induction l as [|[k c] l IH]; intros cs n c0 H; cbn [fold_left]; [exact H|]. unfold of_key. cbn [omap list_omap fst]. unfold put_con at 2. cbn [fst snd].
  destruct (decide (k = n)) as [->|Hk].
  - cbn [fold_left]. apply IH. rewrite list_lookup_alter, H. reflexivity.
  - apply IH. rewrite list_lookup_alter_ne by exact Hk. exact H.
Qed.
Lemma put_len l : forall cs, length (fold_left put_con l cs) = length cs.
Proof. induction l as [|nc l IH]; intros cs; cbn [fold_left]; [reflexivity|]. rewrite IH. unfold put_con. apply alter_length. Qed.
Lemma put_last {K V} `{Countable K} (l : list (K * V)) : forall (m : gmap K V) k,
  fold_left (fun m (kv : K * V) => <[kv.1 := kv.2]> m) l m !! k = match last (of_key k l) with Some v => Some v | None => m !! k end.
Proof.
  induction l as [|[k' v] l IH] using rev_ind; intros m k; [reflexivity|]. rewrite fold_left_app. cbn [fold_left fst snd].
  assert (E : of_key k (l ++ [(k', v)]) = of_key k l ++ (if decide (k' = k) then [v] else [])).
  { unfold of_key. rewrite omap_app. f_equal. cbn. destruct (decide (k' = k)); reflexivity. }
  rewrite E. destruct (decide (k' = k)) as [->|Hk].
  - rewrite lookup_insert, last_snoc. reflexivity.
  - rewrite lookup_insert_ne by exact Hk. rewrite app_nil_r. apply IH.
Qed.
Lemma all_forces n l : forall a b : elas A,
  foldM (fun (kf : nat * point A) a => k ← idx (seq 0 n) kf.1; Ret (add_conc_force a k kf.2)) l a = Ret b <->
  Forall (fun kf => kf.1 < n) l /\
  b = Elas (ea_nodes a) (ea_cond a) (ea_mat a) (ea_elems a) (ea_cons a) (fold_left (fun m kv => <[kv.1 := kv.2]> m) l (ea_conc a)) (ea_line a).
Proof.
  induction l as [|[k f] l IH]; intros a b; cbn [foldM fold_left fst snd].
  - split; [intros [= <-]; split; [constructor|destruct a; reflexivity]|intros [_ ->]; destruct a; reflexivity].
  - rewrite !bind_iff. split.
    + intros (a1 & E1 & E). apply bind_ret_inv in E1 as (k' & Ek & E1). apply idx_seq in Ek as [Hk ->]. injection E1 as <-.
      apply IH in E as [H ->]. split; [constructor; assumption|reflexivity].
    + intros [H ->]. apply Forall_cons in H as [Hk H]. eexists. split; [apply bind_iff; exists k; split; [apply idx_seq; auto|reflexivity]|].
      apply IH. auto.
Qed.
Lemma all_dists n l : forall a b : elas A,
  foldM (fun (kf : nat * nat * point A) a => k ← idx (seq 0 n) kf.1.1; k' ← idx (seq 0 n) kf.1.2; Ret (add_dist_line_force a k k' kf.2)) l a = Ret b <->
  Forall (fun kf => kf.1.1 < n /\ kf.1.2 < n) l /\
  b = Elas (ea_nodes a) (ea_cond a) (ea_mat a) (ea_elems a) (ea_cons a) (ea_conc a) (fold_left (fun m kv => <[kv.1 := kv.2]> m) l (ea_line a)).
Proof.
  induction l as [|[[k k0] f] l IH]; intros a b; cbn [foldM fold_left fst snd].
  - split; [intros [= <-]; split; [constructor|destruct a; reflexivity]|intros [_ ->]; destruct a; reflexivity].
  - rewrite !bind_iff. split.
    + intros (a1 & E1 & E). apply bind_ret_inv in E1 as (k' & Ek & E1). apply idx_seq in Ek as [Hk ->].
      apply bind_ret_inv in E1 as (k' & Ek & E1). apply idx_seq in Ek as [Hk0 ->]. injection E1 as <-.
      apply IH in E as [H ->]. split; [constructor; [split; assumption|assumption]|reflexivity].
    + intros [H ->]. apply Forall_cons in H as [[Hk Hk0] H]. eexists. split; [apply bind_iff; exists k; split; [apply idx_seq; auto|];
        apply bind_iff; exists k0; split; [apply idx_seq; auto|reflexivity]|].
      apply IH. auto.
Qed.
Lemma build_exact (x : @parsed A) (a : elas A) : build_elas x = Ret a <-> built_from x a.
Proof.
  unfold build_elas, add_nodes. cbn [ea_nodes ea_cond ea_mat ea_elems ea_cons ea_conc ea_line ea_new length app]. split.
  - intros E. apply bind_ret_inv in E as (a1 & E1 & E). apply bind_ret_inv in E as (a2 & E2 & E). apply bind_ret_inv in E as (a3 & E3 & E4).
    apply all_elems in E1 as (es & He & ->); [|reflexivity]. unfold with_elems in *; cbn [ea_nodes ea_cond ea_mat ea_elems ea_cons ea_conc ea_line app] in *.
    apply all_cons in E2 as [Hc ->]; [|cbn; rewrite replicate_length; reflexivity]. unfold with_cons in *; cbn [ea_nodes ea_cond ea_mat ea_elems ea_cons ea_conc ea_line app] in *.
    apply all_forces in E3 as [Hf ->]. cbn [ea_nodes ea_cond ea_mat ea_elems ea_cons ea_conc ea_line] in *.
    apply all_dists in E4 as [Hd ->]. cbn [ea_nodes ea_cond ea_mat ea_elems ea_cons ea_conc ea_line] in *.
    unfold with_cons, with_elems in *. cbn [ea_nodes ea_cond ea_mat ea_elems ea_cons ea_conc ea_line app] in *.
    split; cbn [ea_nodes ea_cond ea_mat ea_elems ea_cons ea_conc ea_line]; try reflexivity.
    + exact He.
    + intros n c H. exact (proj1 (Forall_forall _ _) Hc _ H).
    + rewrite put_len, replicate_length. reflexivity.
    + intros n c H. assert (Hn : n < length (pa_nodes x)) by (apply lookup_lt_Some in H; rewrite put_len, replicate_length in H; exact H).
      rewrite (put_all _ _ n Free) in H by (apply lookup_replicate; auto). now injection H as <-.
    + intros n f H. exact (proj1 (Forall_forall _ _) Hf _ H).
    + intros n. rewrite put_last, lookup_empty. destruct (last _); reflexivity.
    + intros n m f H. exact (proj1 (Forall_forall _ _) Hd _ H).
    + intros n. rewrite put_last, lookup_empty. destruct (last _); reflexivity.
  - intros [H1 H2 H3 H4 H5 H6 H7 H8 H9 H10 H11]. apply bind_iff. eexists. split.
    { apply all_elems; [reflexivity|]. exists (ea_elems a). split; [exact H4|reflexivity]. }
    unfold with_elems in *; cbn [ea_nodes ea_cond ea_mat ea_elems ea_cons ea_conc ea_line app]. apply bind_iff. eexists. split.
    { apply all_cons; [cbn; rewrite replicate_length; reflexivity|]. split; [|reflexivity]. apply Forall_forall. intros [n c] H. exact (H5 _ _ H). }
    unfold with_cons in *; cbn [ea_nodes ea_cond ea_mat ea_elems ea_cons ea_conc ea_line app]. apply bind_iff. eexists. split.
    { apply all_forces. split; [|reflexivity]. apply Forall_forall. intros [n c] H. exact (H8 _ _ H). }
    apply all_dists. cbn [ea_nodes ea_cond ea_mat ea_elems ea_cons ea_conc ea_line]. split; [apply Forall_forall; intros [[n m] c] H; exact (H10 _ _ _ H)|].
    destruct a as [ns co ma es cs fo li]. cbn [ea_nodes ea_cond ea_mat ea_elems ea_cons ea_conc ea_line] in *. subst ns co ma. f_equal.
    + apply list_eq. intros n. destruct (decide (n < length (pa_nodes x))) as [Hn|Hn].
      * rewrite (put_all _ _ n Free) by (apply lookup_replicate; auto). destruct (lookup_lt_is_Some_2 cs n) as (c & Hc); [lia|].
        rewrite Hc. f_equal. exact (H7 _ _ Hc).
      * rewrite !lookup_ge_None_2; [reflexivity|rewrite put_len, replicate_length; lia|lia].
    + apply map_eq. intros n. rewrite put_last, lookup_empty, H9. destruct (last _); reflexivity.
    + apply map_eq. intros n. rewrite put_last, lookup_empty, H11. destruct (last _); reflexivity.
Qed.
Lemma file_exact (nf : numfmt A) file (a : elas A) : bmsh_to_elas nf file = Ret (Ok a) <-> exists x, mesh_says nf file x /\ built_from x a.
Proof.
  unfold bmsh_to_elas. rewrite bind_iff. split.
  - intros (o & E1 & E). destruct o as [x|]; [|discriminate]. apply bind_ret_inv in E as (a' & E2 & E). injection E as ->.
    exists x. split; [apply mesh_exact, E1|apply build_exact, E2].
  - intros (x & H1 & H2). exists (Some x). split; [apply mesh_exact, H1|]. apply build_exact in H2. rewrite H2. reflexivity.
Qed.
End made.
