(** The mesh format: what is written is read back. *)
From Coq Require Import Ascii String.
From Verif Require Export FileText AssemProofs.

(** what is asked of the number formats, for the numbers in [fin] *)
Record numfmt_ok {A : arith} (nf : numfmt A) (fin : A -> Prop) := {
  no_fix : forall k x, 0 < k -> fin x ->
    lit (nf_fix nf k x) /\ 3 <= length (nf_fix nf k x) /\ exists y, nf_read nf (nf_fix nf k x) = Some y;
  no_show : forall x, fin x ->
    Forall (fun c => c <> nl /\ c <> cr) (nf_show nf x) /\ exists y, nf_read nf (nf_show nf x) = Some y }.
Global Arguments no_fix {A nf fin} _ k x _ _.
Global Arguments no_show {A nf fin} _ x _.

Section spec.
Context {A : arith} (nf : numfmt A).
(** the number read from the decimals of [x], and from its full print *)
Definition rnd (k : nat) (x : A) : A := default x (nf_read nf (nf_fix nf k x)).
Definition shw (x : A) : A := default x (nf_read nf (nf_show nf x)).
Definition rd_pt (k : nat) (p : point A) : point A := Pt 2 (rnd k (p_x p)) (rnd k (p_y p)) s0.
Definition rd_cond (c : strain_cond A) : strain_cond A :=
  match c with PlaneStrain t => PlaneStrain (rnd 5 t) | PlaneStress t => PlaneStress (rnd 5 t) | Axisymmetric => Axisymmetric end.
Definition rd_con (c : constr A) : constr A := match c with AngleFixed t => AngleFixed (shw t) | c => c end.
Definition rd_elem (e : element A) : element A :=
  let '(p, q, r) := e_pts e in El (e_ids e) (rd_pt 6 p, rd_pt 6 q, rd_pt 6 r) (e_mat e) (rd_cond (e_cond e)).
(** the assemblage with every number rounded as it is written *)
Definition read_back (a : elas A) : elas A :=
  Elas (map (rd_pt 6) (ea_nodes a)) (rd_cond (ea_cond a)) (ea_mat a) (map rd_elem (ea_elems a))
       (map rd_con (ea_cons a)) (rd_pt 3 <$> ea_conc a) (rd_pt 3 <$> ea_line a).
Definition fin_pt (fin : A -> Prop) (p : point A) : Prop := 2 <= p_n p /\ fin (p_x p) /\ fin (p_y p).
(** an assemblage that can be written: known material, points with two finite coordinates, loads
    on existing nodes, fewer things than a usize counts *)
Record writable (fin : A -> Prop) (a : elas A) : Prop := {
  wr_mat : material_from_str (m_name (ea_mat a)) = Some (ea_mat a);
  wr_cond : match ea_cond a with PlaneStrain t | PlaneStress t => fin t | Axisymmetric => True end;
  wr_nodes : Forall (fin_pt fin) (ea_nodes a);
  wr_cons : Forall (fun c => match c with AngleFixed t => fin t | _ => True end) (ea_cons a);
  wr_conc : map_Forall (fun n f => n < length (ea_nodes a) /\ fin_pt fin f) (ea_conc a);
  wr_line : map_Forall (fun nm f => nm.1 < length (ea_nodes a) /\ nm.2 < length (ea_nodes a) /\ fin_pt fin f) (ea_line a);
  wr_small : (N.of_nat (length (ea_nodes a)) < 2 ^ 64 /\ N.of_nat (length (ea_elems a)) < 2 ^ 64 /\
              N.of_nat (size (ea_conc a)) < 2 ^ 64 /\ N.of_nat (size (ea_line a)) < 2 ^ 64)%N }.
(** no rounded element is refused *)
Definition sound (e : element A) : Prop := exists j, jacobian_ratio e = Ret j /\ sltb j s0 = false.
End spec.

(** *** lists of lines *)
Definition nl_next (r : text) : Prop := exists r', r = nl :: r'.
Lemma nl_stop r : nl_next r -> stop r.
Proof. intros (r' & ->). left. reflexivity. Qed.
Lemma acc_count n : (N.of_nat n < 2 ^ 64)%N -> accepts anyr count_line (txt "count " ++ show_nat n ++ [nl]) n.
Proof.
  intros Hn. unfold count_line, delimited. eapply (acc_bind anyr); [apply acc_tag|].
  eapply (acc_bind anyr); [eapply acc_weak; [|apply acc_u64; [apply show_numeral|exact Hn]]|].
  - intros r (r' & -> & _). left. reflexivity.
  - rewrite <- (app_nil_r [nl]). eapply (acc_bind anyr); [apply acc_tag|apply acc_ret].
Qed.
Section lists.
Context {X Z : Type} (p : parser X) (t : Z -> text) (v : Z -> X).
Lemma free_loop_acc (l : list Z) res : (forall z, z ∈ l -> accepts nl_next p (t z) (v z)) ->
  accepts anyr (free_loop p (length l) res) (unl (map t l)) (res ++ map v l).
Proof.
  revert res. induction l as [|z l IH]; intros res H.
  - cbn. rewrite app_nil_r. apply acc_ret.
  - cbn [length free_loop map]. rewrite unl_cons.
    eapply acc_bind.
    { apply acc_soften. eapply acc_weak; [|apply H, elem_of_list_here]. intros r (r' & -> & _). eexists. reflexivity. }
    change (nl :: unl (map t l)) with ([nl] ++ unl (map t l)).
    eapply acc_bind; [apply acc_soften, acc_tag|].
    replace (res ++ v z :: map v l) with ((res ++ [v z]) ++ map v l) by (rewrite <- app_assoc; reflexivity).
    apply IH. intros z' Hz. apply H, elem_of_list_further, Hz.
Qed.
Lemma mono_loop_acc (l : list Z) i res : (forall z, z ∈ l -> accepts nl_next p (t z) (v z)) ->
  (N.of_nat (i + length l) < 2 ^ 64)%N ->
  accepts anyr (mono_loop p (length l) i res)
    (unl (map (fun iz : nat * Z => show_nat iz.1 ++ txt " " ++ t iz.2) (zip (seq i (length l)) l))) (res ++ map v l).
Proof.
  revert i res. induction l as [|z l IH]; intros i res H Hs.
  - cbn. rewrite app_nil_r. apply acc_ret.
  - cbn [length mono_loop map seq zip zip_with]. rewrite unl_cons, <- !app_assoc. cbn [fst snd length] in *.
    eapply acc_bind.
    { eapply acc_weak; [|apply acc_u64; [apply show_numeral|lia]]. intros r (r' & -> & _). right. left. reflexivity. }
    rewrite Nat.eqb_refl.
    eapply acc_bind; [apply acc_soften, acc_tag|].
    eapply acc_bind.
    { apply acc_soften. eapply acc_weak; [|apply H, elem_of_list_here]. intros r (r' & -> & _). eexists. reflexivity. }
    match goal with |- accepts _ _ (nl :: ?u) _ => change (nl :: u) with ([nl] ++ u) end.
    eapply acc_bind; [apply acc_soften, acc_tag|].
    replace (res ++ v z :: map v l) with ((res ++ [v z]) ++ map v l) by (rewrite <- app_assoc; reflexivity).
    apply IH; [|lia]. intros z' Hz. apply H, elem_of_list_further, Hz.
Qed.
Lemma count_lines n ls : txt "count " ++ show_nat n ++ [nl] = unl [txt "count " ++ show_nat n] ->
  (txt "count " ++ show_nat n ++ [nl]) ++ unl ls = unl ((txt "count " ++ show_nat n) :: ls).
Proof. intros _. rewrite unl_cons, <- !app_assoc. reflexivity. Qed.
Lemma free_list_acc (l : list Z) : (forall z, z ∈ l -> accepts nl_next p (t z) (v z)) -> (N.of_nat (length l) < 2 ^ 64)%N ->
  accepts anyr (free_list p) (unl ((txt "count " ++ show_nat (length l)) :: map t l)) (map v l).
Proof.
  intros H Hs. rewrite unl_cons. 
  replace ((txt "count " ++ show_nat (length l)) ++ nl :: unl (map t l))
    with ((txt "count " ++ show_nat (length l) ++ [nl]) ++ unl (map t l)) by (rewrite <- !app_assoc; reflexivity).
  eapply acc_bind; [eapply acc_weak; [|apply acc_count, Hs]; easy|]. apply (free_loop_acc l [] H).
Qed.
Lemma monotonic_list_acc (l : list Z) : (forall z, z ∈ l -> accepts nl_next p (t z) (v z)) -> (N.of_nat (length l) < 2 ^ 64)%N ->
  accepts anyr (monotonic_list p)
    (unl ((txt "count " ++ show_nat (length l)) ::
          map (fun iz : nat * Z => show_nat iz.1 ++ txt " " ++ t iz.2) (zip (seq 0 (length l)) l))) (map v l).
Proof.
  intros H Hs. rewrite unl_cons. 
  match goal with |- accepts _ _ ((_ ++ _) ++ nl :: ?u) _ =>
  replace ((txt "count " ++ show_nat (length l)) ++ nl :: u)
    with ((txt "count " ++ show_nat (length l) ++ [nl]) ++ u) by (rewrite <- !app_assoc; reflexivity) end.
  eapply acc_bind; [eapply acc_weak; [|apply acc_count, Hs]; easy|]. apply (mono_loop_acc l 0 [] H). exact Hs.
Qed.
Lemma section_acc (name : text) (ls : list text) (x : X) : accepts anyr p (unl ls) x ->
  accepts anyr (section_parse name p) (unl ((txt "$" ++ name) :: ls ++ [txt "$End" ++ name])) x.
Proof.
  intros H. unfold section_parse, delimited. rewrite unl_cons, unl_app, unl_cons. change (unl []) with (@nil ascii).
  replace ((txt "$" ++ name) ++ nl :: unl ls ++ (txt "$End" ++ name) ++ [nl])
    with ((txt "$" ++ name ++ [nl] ++ []) ++ (unl ls ++ (txt "$End" ++ name ++ [nl] ++ []) ++ []))
    by (rewrite !app_nil_r, <- !app_assoc; reflexivity).
  eapply acc_bind.
  { eapply acc_bind; [apply acc_tag|]. eapply acc_bind; [apply acc_tag|]. eapply acc_bind; [apply acc_tag|apply acc_ret]. }
  eapply acc_bind; [eapply acc_weak; [|exact H]; easy|].
  eapply acc_bind; [|apply acc_ret].
  eapply acc_bind; [apply acc_tag|]. eapply acc_bind; [apply acc_tag|]. eapply acc_bind; [apply acc_tag|apply acc_ret].
Qed.
Lemma named_acc (name c : text) (x : X) : accepts nl_next p c x ->
  accepts anyr (named_value name p) (unl [name ++ txt " " ++ c]) x.
Proof.
  intros H. unfold named_value, delimited, terminated. rewrite unl_cons. change (unl []) with (@nil ascii).
  replace ((name ++ txt " " ++ c) ++ [nl]) with ((name ++ txt " " ++ []) ++ (c ++ [nl] ++ []))
    by (rewrite !app_nil_r, <- !app_assoc; reflexivity).
  eapply acc_bind.
  { eapply acc_bind; [apply acc_tag|]. eapply acc_bind; [apply acc_tag|apply acc_ret]. }
  eapply acc_bind; [eapply acc_weak; [|exact H]|].
  - intros r (r' & -> & _). eexists. reflexivity.
  - eapply acc_bind; [apply acc_tag|apply acc_ret].
Qed.
End lists.

(** *** items *)
Lemma acc_alnum s r : s <> [] -> Forall (fun c => is_alnum c = true) s ->
  match r with [] => True | c :: _ => is_alnum c = false end -> alphanumeric1 (s ++ r) = Ret (POk r s).
Proof.
  intros Ns Hs Hr. unfold alphanumeric1. rewrite (span_app _ _ _ Hs Hr). destruct s; [contradiction|reflexivity].
Qed.
Lemma acc_rest s r : Forall (fun c => c <> nl /\ c <> cr) s -> r = [] \/ nl_next r -> not_line_ending (s ++ r) = Ret (POk r s).
Proof.
  intros Hs Hr. unfold not_line_ending. rewrite span_app.
  - destruct Hr as [->|(r' & ->)]; [reflexivity|]. reflexivity.
  - eapply Forall_impl; [exact Hs|]. intros c [H1 H2]. apply negb_true_iff, orb_false_iff.
    split; apply Ascii.eqb_neq; assumption.
  - destruct Hr as [->|(r' & ->)]; [exact I|reflexivity].
Qed.

Section items.
Context {A : arith} (nf : numfmt A) (fin : A -> Prop) (ok : numfmt_ok nf fin).
Lemma acc_lit s x : lit s -> nf_read nf s = Some x -> accepts stop (double nf) s x.
Proof. intros Hs Hx r Hr. unfold double. rewrite (lit_float s r Hs Hr), Hx. reflexivity. Qed.
Lemma acc_double k x : 0 < k -> fin x -> accepts stop (double nf) (nf_fix nf k x) (rnd nf k x).
Proof.
  intros Hk Hx. destruct (no_fix ok k x Hk Hx) as (Hl & _ & y & Hy). apply acc_lit; [exact Hl|].
  unfold rnd. rewrite Hy. reflexivity.
Qed.
Lemma tag_eq s i : tag s i = Ret (match strip s i with Some r => POk r tt | None => PErr end).
Proof. reflexivity. Qed.
(** separated lists: the texts [l], read as the values beside them *)
Section seps.
Context {X : Type} (s : text) (p : parser X) (R : text -> Prop).
Hypothesis Hs : s <> [].
Hypothesis HR : forall r, R (s ++ r).
(** the list ends where there is no separator with an item *)
Definition ends_list (r : text) : Prop :=
  R r /\ (strip s r = None \/ exists i, strip s r = Some i /\ p i = Ret PErr).
Lemma sep_loop_acc (l : list (text * X)) res r fuel :
  (forall cx, cx ∈ l -> accepts R p cx.1 cx.2) -> ends_list r -> length l < fuel ->
  sep_loop fuel (tag s) p res (concat (map (fun cx => s ++ cx.1) l) ++ r) = Ret (POk r (res ++ map snd l)).
Proof.
  revert res fuel. induction l as [|[c x] l IH]; intros res fuel H (Hr & He) Hf;
    (destruct fuel as [|fuel]; [cbn in Hf; lia|]); cbn [map concat app fst snd sep_loop]; rewrite tag_eq.
  - rewrite app_nil_r. destruct He as [E|(i & E & Ei)]; rewrite E; cbn [mbind out_bind]; [reflexivity|].
    rewrite Ei. reflexivity.
  - rewrite <- !app_assoc, strip_app. cbn [mbind out_bind].
    rewrite (H (c, x) (elem_of_list_here _ _)).
    + cbn [mbind out_bind fst snd]. rewrite IH; [|intros cx Hcx; apply H, elem_of_list_further, Hcx|split; assumption|cbn in Hf; lia].
      rewrite <- app_assoc. reflexivity.
    + destruct l as [|[c' x'] l]; cbn [map concat app fst]; [exact Hr|]. rewrite <- !app_assoc. apply HR.
Qed.
Definition joined (l : list (text * X)) : text :=
  match l with [] => [] | cx :: l => cx.1 ++ concat (map (fun cx => s ++ cx.1) l) end.
Lemma concat_long (l : list (text * X)) : length l <= length (concat (map (fun cx => s ++ cx.1) l)).
Proof.
  induction l as [|cx l IH]; [cbn; lia|]. cbn [map concat]. rewrite !app_length. cbn [length].
  destruct s; [contradiction|]. cbn [length]. lia.
Qed.
Lemma sep1_acc cx (l : list (text * X)) : (forall cx', cx' ∈ cx :: l -> accepts R p cx'.1 cx'.2) ->
  accepts ends_list (separated_list1 (tag s) p) (joined (cx :: l)) (map snd (cx :: l)).
Proof.
  intros H r Hr. unfold separated_list1, joined. rewrite <- app_assoc.
  rewrite (H cx (elem_of_list_here _ _)).
  - cbn [mbind out_bind]. rewrite sep_loop_acc; [reflexivity| |exact Hr|].
    + intros cx' Hcx. apply H, elem_of_list_further, Hcx.
    + rewrite app_length. pose proof (concat_long l). lia.
  - destruct l as [|cx' l]; cbn [map concat app]; [exact (proj1 Hr)|]. rewrite <- !app_assoc. apply HR.
Qed.
Lemma sep0_acc cx (l : list (text * X)) : (forall cx', cx' ∈ cx :: l -> accepts R p cx'.1 cx'.2) ->
  accepts ends_list (separated_list0 (tag s) p) (joined (cx :: l)) (map snd (cx :: l)).
Proof.
  intros H r Hr. pose proof (sep1_acc cx l H r Hr) as E. unfold separated_list1 in E. unfold separated_list0.
  apply bind_ret_inv in E as (o & Eo & E). rewrite Eo. cbn [mbind out_bind]. destruct o; [exact E|discriminate|discriminate].
Qed.
End seps.
Lemma slash_ends {X} (p : parser X) r : nl_next r -> ends_list (txt "/") p stop r.
Proof. intros (r' & ->). split; [left; reflexivity|left; reflexivity]. Qed.
Lemma sep_two {X} (p : parser X) c d x y : accepts stop p c x -> accepts stop p d y ->
  accepts nl_next (separated_list0 slash p) (c ++ txt "/" ++ d) [x; y].
Proof.
  intros Hc Hd. eapply acc_weak; [apply (slash_ends p)|].
  replace (c ++ txt "/" ++ d) with (joined (txt "/") [(c, x); (d, y)]) by (cbn [joined map concat fst]; rewrite app_nil_r; reflexivity).
  apply (sep0_acc (txt "/") p stop); [discriminate|intros r; right; right; reflexivity|].
  intros cx Hcx. rewrite !elem_of_cons, elem_of_nil in Hcx. destruct Hcx as [->|[->|[]]]; assumption.
Qed.
Lemma sep_three {X} (p : parser X) c d e x y z : accepts stop p c x -> accepts stop p d y -> accepts stop p e z ->
  accepts nl_next (separated_list0 slash p) (c ++ (txt "/" ++ d) ++ (txt "/" ++ e)) [x; y; z].
Proof.
  intros Hc Hd He. eapply acc_weak; [apply (slash_ends p)|].
  replace (c ++ (txt "/" ++ d) ++ (txt "/" ++ e)) with (joined (txt "/") [(c, x); (d, y); (e, z)])
    by (cbn [joined map concat fst]; rewrite app_nil_r; reflexivity).
  apply (sep0_acc (txt "/") p stop); [discriminate|intros r; right; right; reflexivity|].
  intros cx Hcx. rewrite !elem_of_cons, elem_of_nil in Hcx. destruct Hcx as [->|[->|[->|[]]]]; assumption.
Qed.

(** *** the lines of the file *)
Definition fix2 (k : nat) (q : point A) : text := nf_fix nf k (p_x q) ++ txt "/" ++ nf_fix nf k (p_y q).
Lemma coord_text_fin k q : fin_pt fin q -> coord_text nf k q = Ret (fix2 k q).
Proof.
  intros (Hn & _). unfold coord_text, pt_idx. destruct (Nat.leb_spec (p_n q) 0); [lia|].
  destruct (Nat.leb_spec (p_n q) 1); [lia|]. reflexivity.
Qed.
Lemma acc_coords k q : 0 < k -> fin_pt fin q -> accepts nl_next (coords nf) (fix2 k q) (rd_pt nf k q).
Proof.
  intros Hk (_ & Hx & Hy). unfold coords. eapply acc_map; [apply sep_two; apply acc_double; assumption|reflexivity].
Qed.
Lemma acc_ids i j k : (N.of_nat i < 2 ^ 64 -> N.of_nat j < 2 ^ 64 -> N.of_nat k < 2 ^ 64 ->
  accepts nl_next (separated_list0 slash u64) (show_nat i ++ (txt "/" ++ show_nat j) ++ (txt "/" ++ show_nat k)) [i; j; k])%N.
Proof. intros Hi Hj Hk. apply sep_three; apply acc_u64; auto using show_numeral. Qed.

Definition fin_con (c : constr A) : Prop := match c with AngleFixed t => fin t | _ => True end.
Lemma con_read c : fin_con c -> c <> Free ->
  constraint_from_str nf (show_constraint nf c) = Some (rd_con nf c) /\ Forall (fun c => c <> nl /\ c <> cr) (show_constraint nf c).
Proof.
  intros Hc Hf. destruct c as [| | | |t]; try contradiction; try (split; [reflexivity|repeat constructor; discriminate]).
  destruct (no_show ok t Hc) as (Hl & y & Hy). cbn [show_constraint rd_con]. unfold shw. rewrite Hy. split.
  - unfold constraint_from_str. rewrite !bool_decide_eq_false_2 by discriminate. rewrite strip_app, Hy. reflexivity.
  - apply Forall_app. split; [repeat constructor; discriminate|exact Hl].
Qed.
Lemma acc_con n c : (N.of_nat n < 2 ^ 64)%N -> fin_con c -> c <> Free ->
  accepts nl_next (constraint_line nf) (show_nat n ++ txt " " ++ show_constraint nf c) (n, rd_con nf c).
Proof.
  intros Hn Hc Hf. destruct (con_read c Hc Hf) as [E Hl]. unfold constraint_line.
  eapply acc_bind; [eapply acc_weak; [|apply acc_u64; [apply show_numeral|exact Hn]]|].
  { intros r (r' & -> & _). right. left. reflexivity. }
  eapply acc_bind; [apply acc_tag|]. rewrite <- (app_nil_r (show_constraint nf c)).
  eapply acc_bind; [|apply acc_ret]. eapply acc_map; [|rewrite E; reflexivity].
  intros r (r' & -> & Hr). apply acc_rest; [exact Hl|]. right. exact Hr.
Qed.
Lemma acc_force n q : (N.of_nat n < 2 ^ 64)%N -> fin_pt fin q ->
  accepts nl_next (force_line nf) (show_nat n ++ txt " " ++ fix2 3 q) (n, rd_pt nf 3 q).
Proof.
  intros Hn Hq. unfold force_line.
  eapply acc_bind; [eapply acc_weak; [|apply acc_u64; [apply show_numeral|exact Hn]]|].
  { intros r (r' & -> & _). right. left. reflexivity. }
  eapply acc_bind; [apply acc_tag|]. rewrite <- (app_nil_r (fix2 3 q)).
  eapply acc_bind; [|apply acc_ret]. eapply acc_weak; [|apply acc_coords; [lia|exact Hq]].
  intros r (r' & -> & Hr). exact Hr.
Qed.
Lemma acc_dist n m q : (N.of_nat n < 2 ^ 64)%N -> (N.of_nat m < 2 ^ 64)%N -> fin_pt fin q ->
  accepts nl_next (dist_line nf) (show_nat n ++ txt " " ++ show_nat m ++ txt " " ++ fix2 3 q) (n, m, rd_pt nf 3 q).
Proof.
  intros Hn Hm Hq. unfold dist_line.
  assert (T : forall R n, (N.of_nat n < 2 ^ 64)%N -> accepts R (terminated u64 space) (show_nat n ++ txt " ") n).
  { intros R n' Hn'. unfold terminated. eapply acc_bind; [eapply acc_weak; [|apply acc_u64; [apply show_numeral|exact Hn']]|].
    - intros r (r' & -> & _). right. left. reflexivity.
    - rewrite <- (app_nil_r (txt " ")). eapply acc_bind; [apply acc_tag|apply acc_ret]. }
  rewrite (app_assoc (show_nat n)), (app_assoc (show_nat m)).
  eapply acc_bind; [apply T, Hn|]. eapply acc_bind; [apply T, Hm|]. rewrite <- (app_nil_r (fix2 3 q)).
  eapply acc_bind; [|apply acc_ret]. eapply acc_weak; [|apply acc_coords; [lia|exact Hq]].
  intros r (r' & -> & Hr). exact Hr.
Qed.
Definition fin_cond (c : strain_cond A) : Prop := match c with PlaneStrain t | PlaneStress t => fin t | Axisymmetric => True end.
Lemma pad3_fix k t : 0 < k -> fin t -> pad3 (nf_fix nf k t) = nf_fix nf k t.
Proof.
  intros Hk Ht. destruct (no_fix ok k t Hk Ht) as (_ & Hl & _). unfold pad3.
  replace (3 - length (nf_fix nf k t)) with 0 by lia. reflexivity.
Qed.
Lemma acc_cond c : fin_cond c -> accepts nl_next (condition_parser nf) (show_condition nf c) (rd_cond nf c).
Proof.
  intros Hc. unfold condition_parser. destruct c as [t|t|]; cbn [show_condition rd_cond fin_cond] in *.
  - rewrite pad3_fix by (lia || exact Hc). apply acc_alt1. eapply acc_map; [|reflexivity].
    eapply acc_bind; [apply acc_tag|]. eapply acc_weak; [apply nl_stop|apply acc_double; [lia|exact Hc]].
  - rewrite pad3_fix by (lia || exact Hc). apply acc_alt2; [reflexivity|]. apply acc_alt1. eapply acc_map; [|reflexivity].
    eapply acc_bind; [apply acc_tag|]. eapply acc_weak; [apply nl_stop|apply acc_double; [lia|exact Hc]].
  - apply acc_alt2; [reflexivity|]. apply acc_alt2; [reflexivity|]. eapply acc_map; [|reflexivity]. apply acc_tag.
Qed.
Lemma acc_header c (mat : material A) : fin_cond c -> material_from_str (m_name mat) = Some mat ->
  accepts anyr (header_parser nf)
    (unl [txt "$Header"; txt "version 1"; txt "material " ++ list_ascii_of_string (m_name mat);
          txt "condition " ++ show_condition nf c; txt "$EndHeader"]) (1%N, mat, rd_cond nf c).
Proof.
  intros Hc Hm. unfold header_parser.
  apply (section_acc _ (txt "Header") [txt "version 1"; txt "material " ++ list_ascii_of_string (m_name mat); txt "condition " ++ show_condition nf c]).
  eapply acc_map with (x := (1%N, list_ascii_of_string (m_name mat), rd_cond nf c)).
  2:{ cbn [fst snd]. rewrite string_of_list_ascii_of_string, Hm. reflexivity. }
  match goal with |- accepts _ _ (unl [?a; ?b; ?c]) _ => replace (unl [a; b; c]) with (unl [a] ++ unl [b] ++ unl [c]) by (rewrite <- !unl_app; reflexivity) end.
  assert (W : forall X (p : parser X) R c x, accepts anyr p c x -> accepts R p c x)
    by (intros X p R c' x H; eapply acc_weak; [|exact H]; easy).
  eapply acc_bind; [apply W, (named_acc u8 (txt "version") (txt "1") 1%N)|].
  { intros r (r' & ->). reflexivity. }
  eapply acc_bind; [apply W, (named_acc alphanumeric1 (txt "material") (list_ascii_of_string (m_name mat)) (list_ascii_of_string (m_name mat)))|].
  { unfold material_from_str in Hm. intros r (r' & ->).
    destruct (String.eqb_spec (m_name mat) "AL6061") as [E|E]; [rewrite E; reflexivity|].
    destruct (String.eqb_spec (m_name mat) "TEST") as [E'|E']; [rewrite E'; reflexivity|discriminate]. }
  rewrite <- (app_nil_r (unl [txt "condition " ++ _])).
  eapply acc_bind; [apply W, (named_acc (condition_parser nf) (txt "condition")), acc_cond, Hc|apply acc_ret].
Qed.
End items.
