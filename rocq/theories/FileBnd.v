(** The boundary format: what a well-formed file stores. *)
From Coq Require Import Ascii String.
From Verif Require Export FileNum.

(** *** spec: the text of an item *)
Section text_spec.
Context {A : arith} (nf : numfmt A).
Definition num_is (s : text) (x : A) : Prop := number s /\ nf_read nf s = Some x.
Definition letters_digits : text := txt "0123456789ABCDEFGHIJKLMNOPQRSTUVWXYZabcdefghijklmnopqrstuvwxyz".
Definition word (l : text) : Prop := l <> [] /\ Forall (fun c => c ∈ letters_digits) l.
Definition vertex_text (t : text) (v : A * A * option text) : Prop := exists sx sy,
  num_is sx v.1.1 /\ num_is sy v.1.2 /\
  match v.2 with Some l => word l /\ t = sx ++ txt " " ++ sy ++ txt " " ++ l | None => t = sx ++ txt " " ++ sy end.
Definition lines (ls : list text) : text := match ls with [] => [] | l :: ls => l ++ concat (map (fun l => nl :: l) ls) end.
Definition item_text (t : text) (it : @pitem A) : Prop :=
  match it with
  | IPolygon vs => exists ts, ts <> [] /\ Forall2 vertex_text ts vs /\ t = lines ([txt "polygon"] ++ ts ++ [txt "end"])
  | ICondition (PlaneStrain x) => exists s, num_is s x /\ t = txt "condition planestrain " ++ s
  | ICondition (PlaneStress x) => exists s, num_is s x /\ t = txt "condition planestress " ++ s
  | ICondition Axisymmetric => t = txt "condition axisymmetric"
  | IMaterial m => exists n, word n /\ material_from_str (string_of_list_ascii n) = Some m /\ t = txt "material " ++ n
  | IForce a b x y => word a /\ word b /\ exists sx sy, num_is sx x /\ num_is sy y /\
      t = txt "distributed_force " ++ a ++ txt " " ++ b ++ txt " " ++ sx ++ txt " " ++ sy
  | IConstraint a b c => word a /\ word b /\ exists s, constraint_from_str nf s = Some c /\ Forall (fun c => c <> nl /\ c <> cr) s /\
      t = txt "distributed_constraint " ++ a ++ txt " " ++ b ++ txt " " ++ s
  end.
End text_spec.

(** *** spec: what is stored *)
Section store_spec.
Context {A : arith}.
(** all the polygons, and the vertices with their labels, in the order of the file *)
Definition store_all (g : geo A) (its : list (@pitem A)) : out (bound A * list (option text * vertex)) :=
  foldM (fun (vs : list (@pvertex A)) (st : bound A * list (option text * vertex)) =>
    r ← store_polygon g st.1 (map fst vs); Ret (r.1, st.2 ++ zip (map snd vs) r.2))
    (omap (fun it => match it with IPolygon vs => Some vs | _ => None end) its) (b_new [], []).
(** the last one *)
Definition latest {X} (f : @pitem A -> option X) (its : list pitem) (d : option X) : option X :=
  match last (omap f its) with Some x => Some x | None => d end.
Definition find_label (tbl : list (option text * vertex)) (l : text) : option vertex :=
  last (omap (fun lv : option text * vertex => if decide (lv.1 = Some l) then Some lv.2 else None) tbl).
Definition labels_of (it : @pitem A) : list text :=
  match it with IForce a b _ _ | IConstraint a b _ => [a; b] | _ => [] end.
Definition known (tbl : list (option text * vertex)) (its : list (@pitem A)) : Prop :=
  forall it l, it ∈ its -> l ∈ labels_of it -> find_label tbl l <> None.
Definition on_edge (tbl : list (option text * vertex)) (v w : vertex) (a b : text) : Prop :=
  find_label tbl a = Some v /\ find_label tbl b = Some w.
Global Instance on_edge_dec tbl v w a b : Decision (on_edge tbl v w a b).
Proof. unfold on_edge. solve_decision. Defined.
Record settled (tbl : list (option text * vertex)) (its : list (@pitem A)) (b0 b : bound A) : Prop := {
  se_same : b_pts b = b_pts b0 /\ b_verts b = b_verts b0 /\ b_starts b = b_starts b0 /\ b_map b = b_map b0 /\ b_set b = b_set b0 /\
    b_base_starts b = b_base_starts b0 /\ b_base_map b = b_base_map b0 /\ b_cons b = b_cons b0;
  se_cond : b_cond b = latest (fun it => match it with ICondition c => Some c | _ => None end) its (b_cond b0);
  se_mat : b_mat b = latest (fun it => match it with IMaterial m => Some m | _ => None end) its (b_mat b0);
  se_force : forall v w, b_forces b !! (v, w) =
    latest (fun it => match it with IForce l1 l2 x y => if decide (on_edge tbl v w l1 l2) then Some (pt2 x y) else None | _ => None end)
      its (b_forces b0 !! (v, w));
  se_cons : forall v w, b_dcons b !! (v, w) =
    latest (fun it => match it with IConstraint l1 l2 c => if decide (on_edge tbl v w l1 l2) then Some c else None | _ => None end)
      its (b_dcons b0 !! (v, w)) }.
End store_spec.

(** *** the parser *)
Section parse.
Context {A : arith} (nf : numfmt A).
Definition line_end (r : text) : Prop := r = [] \/ nl_next r.
Lemma line_stop r : line_end r -> stop r.
Proof. intros [->|H]; [exact I|apply nl_stop, H]. Qed.
Lemma sp_stop t r : stop (txt " " ++ t ++ r).
Proof. right. left. reflexivity. Qed.
Lemma acc_num (R : text -> Prop) s x : (forall r, R r -> stop r) -> num_is nf s x -> accepts R (double nf) s x.
Proof. intros HR (H1 & H2) r Hr. unfold double. rewrite (number_float s r H1 (HR r Hr)), H2. reflexivity. Qed.
Lemma alnum_in c : is_alnum c = true <-> c ∈ letters_digits.
Proof.
  assert (E : is_alnum c = bool_decide (c ∈ letters_digits)) by (destruct c as [[] [] [] [] [] [] [] []]; vm_compute; reflexivity).
  rewrite E. apply bool_decide_eq_true.
Qed.
Lemma word_alnum l : Forall (fun c => is_alnum c = true) l <-> Forall (fun c => c ∈ letters_digits) l.
Proof. split; intros H; (eapply Forall_impl; [exact H|]); intros c Hc; now apply alnum_in. Qed.
Lemma acc_word (R : text -> Prop) l : (forall r, R r -> stop r) -> word l -> accepts R alphanumeric1 l l.
Proof.
  intros HR (H1 & H2) r Hr. apply acc_alnum; [exact H1|now apply word_alnum|]. apply HR in Hr. destruct r as [|c r]; [exact I|].
  destruct Hr as [->|[->| ->]]; reflexivity.
Qed.
Lemma after_sp (R : text -> Prop) t r : (exists r', r = (txt " " ++ t) ++ r' /\ R r') -> stop r.
Proof. intros (r' & -> & _). right. left. reflexivity. Qed.
Lemma acc_pre {X} R (p : parser X) t x : accepts R p t x -> accepts R (preceded space p) (txt " " ++ t) x.
Proof. intros H. unfold preceded. eapply acc_bind; [apply acc_tag|exact H]. Qed.
Lemma acc_vertex t v : vertex_text nf t v -> accepts line_end (vertex_parser nf) t v.
Proof.
  destruct v as [[x y] o]. intros (sx & sy & Hx & Hy & Ht). cbn [fst snd] in *. unfold vertex_parser. destruct o as [l|].
  - destruct Ht as [Hl ->]. apply acc_alt1.
    eapply acc_bind; [eapply acc_num; [|exact Hx]; intros r (r' & -> & _); right; left; reflexivity|].
    rewrite app_assoc.
    eapply acc_bind; [apply acc_pre, acc_num; [|exact Hy]; intros r Hr; apply (after_sp _ l _ Hr)|].
    rewrite <- (app_nil_r (txt " " ++ l)).
    eapply acc_bind; [|apply acc_ret]. apply acc_pre, acc_word; [|exact Hl]. intros r (r' & -> & Hr). apply line_stop, Hr.
  - subst t. apply acc_alt2.
    + intros r Hr. unfold p_bind at 1. rewrite <- app_assoc, (acc_num (fun r => stop r) sx x (fun _ H => H) Hx) by (right; left; reflexivity).
      cbn [mbind out_bind]. unfold p_bind at 1.
      assert (E : preceded space (double nf) ((txt " " ++ sy) ++ r) = Ret (POk r y)).
      { apply (acc_pre line_end); [|exact Hr]. apply acc_num; [apply line_stop|exact Hy]. }
      rewrite E. cbn [mbind out_bind]. destruct Hr as [->|(r' & ->)]; reflexivity.
    + eapply acc_bind; [eapply acc_num; [|exact Hx]; intros r (r' & -> & _); right; left; reflexivity|].
      eapply acc_bind; [apply acc_tag|]. rewrite <- (app_nil_r sy).
      eapply acc_bind; [|apply acc_ret]. apply acc_num; [|exact Hy]. intros r (r' & -> & Hr). apply line_stop, Hr.
Qed.
Lemma lines_joined {X} (l : list (text * X)) : lines (map fst l) = joined [nl] l.
Proof. destruct l as [|z l]; [reflexivity|]. cbn [map lines joined]. rewrite map_map. reflexivity. Qed.
Lemma pairs {X} (P : text -> X -> Prop) ts xs : Forall2 P ts xs -> exists l, ts = map fst l /\ xs = map snd l /\ Forall (fun z => P z.1 z.2) l.
Proof.
  intros H. induction H as [|t x ts xs Hp H (l & -> & -> & Hl)]; [exists []; repeat split; constructor|].
  exists ((t, x) :: l). split; [reflexivity|]. split; [reflexivity|]. constructor; assumption.
Qed.
Lemma lines_cons l ls : ls <> [] -> lines (l :: ls) = l ++ nl :: lines ls.
Proof. destruct ls as [|l' ls]; [contradiction|]. intros _. reflexivity. Qed.
Lemma lines_snoc ls l : ls <> [] -> lines (ls ++ [l]) = lines ls ++ nl :: l.
Proof.
  destruct ls as [|l0 ls]; [contradiction|]. intros _. cbn [app lines]. rewrite map_app, concat_app, <- app_assoc.
  cbn [map concat]. rewrite app_nil_r. reflexivity.
Qed.
Lemma end_no_vertex r : vertex_parser nf (txt "end" ++ r) = Ret PErr.
Proof. reflexivity. Qed.
Lemma acc_polygon t vs : item_text nf t (IPolygon vs) -> accepts anyr (polygon_item nf) t (IPolygon vs).
Proof.
  intros (ts & Nt & Hv & ->). cbn [app]. rewrite lines_cons by (destruct ts; discriminate). rewrite lines_snoc by exact Nt.
  apply pairs in Hv as (l & -> & -> & Hl). rewrite lines_joined. unfold polygon_item, delimited.
  destruct l as [|z l]; [contradiction|].
  replace (txt "polygon" ++ nl :: joined [nl] (z :: l) ++ nl :: txt "end") with
    ((txt "polygon" ++ [nl]) ++ joined [nl] (z :: l) ++ (nl :: txt "end") ++ []) by (rewrite app_nil_r; reflexivity).
  eapply acc_bind; [apply acc_tag|]. eapply acc_bind; [|eapply acc_bind; [apply acc_tag|apply acc_ret]].
  eapply acc_map; [|reflexivity].
  eapply acc_weak; [|apply (sep1_acc [nl] (vertex_parser nf) line_end)].
  - intros r (r' & -> & _). split; [right; eexists; reflexivity|]. right. eexists. split; [reflexivity|].
    apply (end_no_vertex ([] ++ r')).
  - discriminate.
  - intros r. right. eexists. reflexivity.
  - intros z' Hz. rewrite Forall_forall in Hl. apply acc_vertex, Hl, Hz.
Qed.
Lemma acc_item t it : item_text nf t it -> accepts line_end (item_parser nf) t it.
Proof.
  intros H. unfold item_parser. destruct it as [vs|c|m|a b x y|a b c].
  - apply acc_alt1. eapply acc_weak; [|apply acc_polygon, H]. easy.
  - apply acc_alt2.
    { destruct c as [x|x|]; cbn [item_text] in H; [destruct H as (s & _ & ->)|destruct H as (s & _ & ->)|subst t]; intros r _; reflexivity. }
    apply acc_alt1. unfold condition_item. destruct c as [x|x|]; cbn [item_text] in H.
    + destruct H as (s & Hs & ->). apply acc_alt1 || (apply acc_alt2; [intros r _; reflexivity|]; apply acc_alt1).
      all: first [eapply acc_map; [|reflexivity]; eapply acc_bind; [apply acc_tag|]; apply acc_num; [apply line_stop|exact Hs]].
    + destruct H as (s & Hs & ->). apply acc_alt2; [intros r _; reflexivity|]. apply acc_alt1.
      eapply acc_map; [|reflexivity]. eapply acc_bind; [apply acc_tag|]. apply acc_num; [apply line_stop|exact Hs].
    + subst t. apply acc_alt2; [intros r _; reflexivity|]. apply acc_alt2; [intros r _; reflexivity|].
      eapply acc_map; [|reflexivity]. apply acc_tag.
  - destruct H as (n & Hn & Hm & ->). apply acc_alt2; [intros r _; reflexivity|]. apply acc_alt2; [intros r _; reflexivity|].
    apply acc_alt1. unfold material_item. eapply acc_map.
    + eapply acc_bind; [apply acc_tag|]. apply acc_word; [apply line_stop|exact Hn].
    + rewrite Hm. reflexivity.
  - destruct H as (Ha & Hb & sx & sy & Hx & Hy & ->). do 3 (apply acc_alt2; [intros r _; reflexivity|]).
    apply acc_alt1. unfold force_item. eapply acc_bind; [apply acc_tag|].
    eapply acc_bind; [apply acc_word; [|exact Ha]; intros r (r' & -> & _); right; left; reflexivity|].
    rewrite app_assoc. eapply acc_bind; [apply acc_pre, acc_word; [|exact Hb]; intros r (r' & -> & _); right; left; reflexivity|].
    rewrite app_assoc. eapply acc_bind; [apply acc_pre, acc_num; [|exact Hx]; intros r (r' & -> & _); right; left; reflexivity|].
    rewrite <- (app_nil_r (txt " " ++ sy)). eapply acc_bind; [|apply acc_ret]. apply acc_pre, acc_num; [|exact Hy].
    intros r (r' & -> & Hr). apply line_stop, Hr.
  - destruct H as (Ha & Hb & s & Hc & Hs & ->). do 4 (apply acc_alt2; [intros r _; reflexivity|]).
    unfold constraint_item. eapply acc_map with (x := (a, b, s)); [|cbn [fst snd]; rewrite Hc; reflexivity].
    eapply acc_bind; [apply acc_tag|].
    eapply acc_bind; [apply acc_word; [|exact Ha]; intros r (r' & -> & _); right; left; reflexivity|].
    rewrite app_assoc. eapply acc_bind; [apply acc_pre, acc_word; [|exact Hb]; intros r (r' & -> & _); right; left; reflexivity|].
    rewrite <- (app_nil_r (txt " " ++ s)). eapply acc_bind; [|apply acc_ret]. apply acc_pre.
    intros r (r' & -> & Hr). apply acc_rest; [exact Hs|exact Hr].
Qed.
Lemma parse_items ts its : Forall2 (item_text nf) ts its ->
  parse_bbnd nf (lines ts) = Ret (Some its) /\ (its <> [] -> parse_bbnd nf (lines ts ++ [nl]) = Ret None).
Proof.
  intros H. apply pairs in H as (l & -> & -> & Hl). rewrite lines_joined. unfold parse_bbnd.
  destruct l as [|z l]; [split; [reflexivity|intros N; contradiction]|].
  assert (S : accepts (ends_list [nl] (item_parser nf) line_end) (separated_list0 (tag [nl]) (item_parser nf)) (joined [nl] (z :: l)) (map snd (z :: l))).
  { apply sep0_acc; [discriminate|intros r; right; eexists; reflexivity|]. intros z' Hz. rewrite Forall_forall in Hl. apply acc_item, Hl, Hz. }
  split; [|intros _].
  - rewrite <- (app_nil_r (joined _ _)). unfold newline. rewrite S; [reflexivity|]. split; [left; reflexivity|left; reflexivity].
  - unfold newline. rewrite S; [reflexivity|]. split; [right; eexists; reflexivity|]. right. eexists. split; reflexivity.
Qed.
End parse.

(** *** storing *)
Section store.
Context {A : arith} (g : geo A).
Lemma last_app_some {X} (l : list X) x : last (l ++ [x]) = Some x.
Proof. apply last_snoc. Qed.
Lemma omap_snoc {X Y} (f : X -> option Y) l x : omap f (l ++ [x]) = omap f l ++ match f x with Some y => [y] | None => [] end.
Proof. induction l as [|z l IH]; cbn; [destruct (f x); reflexivity|]. rewrite IH. destruct (f z); reflexivity. Qed.
Lemma find_snoc tbl lv l : find_label (tbl ++ [lv]) l = if decide (lv.1 = Some l) then Some lv.2 else find_label tbl l.
Proof.
  unfold find_label. rewrite omap_snoc. destruct (decide _); [apply last_snoc|]. rewrite app_nil_r. reflexivity.
Qed.
Lemma label_all_find new tbl m : (forall l, m !! l = find_label tbl l) ->
  forall l, label_all new m !! l = find_label (tbl ++ new) l.
Proof.
  revert tbl m. induction new as [|[o v] new IH]; intros tbl m H l.
  - rewrite app_nil_r. apply H.
  - replace (tbl ++ (o, v) :: new) with ((tbl ++ [(o, v)]) ++ new) by (rewrite <- app_assoc; reflexivity).
    cbn [label_all fold_left]. apply IH. clear l. intros l. rewrite find_snoc. cbn [fst snd]. destruct o as [l'|]; [|destruct (decide _); [discriminate|apply H]].
    destruct (decide (l' = l)) as [->|N].
    + rewrite lookup_insert, decide_True; reflexivity.
    + rewrite lookup_insert_ne, decide_False by congruence. apply H.
Qed.
Lemma first_all its : forall b m tbl, (forall l, m !! l = find_label tbl l) ->
  match foldM (fun (vs : list (@pvertex A)) (st : bound A * list (option text * vertex)) =>
      r ← store_polygon g st.1 (map fst vs); Ret (r.1, st.2 ++ zip (map snd vs) r.2))
      (omap (fun it => match it with IPolygon vs => Some vs | _ => None end) its) (b, tbl) with
  | Ret (b', tbl') => exists m', foldM (fun it (st : bound A * gmap text vertex) =>
      match it with
      | IPolygon vs => r ← store_polygon g st.1 (map fst vs); Ret (r.1, label_all (zip (map snd vs) r.2) st.2)
      | _ => Ret st
      end) its (b, m) = Ret (b', m') /\ forall l, m' !! l = find_label tbl' l
  | _ => True
  end.
Proof.
  induction its as [|it its IH]; intros b m tbl H.
  - cbn. exists m. split; [reflexivity|exact H].
  - destruct it as [vs|c|mt|l1 l2 x y|l1 l2 c]; try exact (IH b m tbl H). cbn [omap list_omap foldM fst snd].
    destruct (store_polygon g b (map fst vs)) as [[b1 ids]| | |] eqn:E; cbn [mbind out_bind fst snd]; try exact I.
    eapply (IH b1 _ (tbl ++ zip (map snd vs) ids)). apply label_all_find, H.
Qed.
Lemma latest_cons {X} (f : @pitem A -> option X) it its d : latest f (it :: its) d = latest f its (match f it with Some x => Some x | None => d end).
Proof.
  unfold latest. cbn. destruct (f it) as [x|]; [|reflexivity]. cbn. fold (omap f its).
  change (list_omap _ _ f its) with (omap f its). destruct (omap f its) as [|y l] eqn:E; [reflexivity|].
  cbn. destruct (last (y :: l)) eqn:E'; [reflexivity|]. apply last_None in E'. discriminate.
Qed.
Lemma second_settled m tbl (its : list (@pitem A)) : (forall l, m !! l = find_label tbl l) -> forall b0 : bound A,
  (known tbl its -> exists b, second_pass m its b0 = Some b /\ settled tbl its b0 b) /\
  (~ known tbl its -> second_pass m its b0 = None).
Proof.
  intros Hm. induction its as [|it its IH]; intros b0.
  - split.
    + intros _. exists b0. split; [reflexivity|]. constructor; auto; tauto.
    + intros N. exfalso. apply N. intros it l H. inversion H.
  - assert (K : known tbl (it :: its) <-> (forall l, l ∈ labels_of it -> find_label tbl l <> None) /\ known tbl its).
    { unfold known. split; [intros H; split; intros; eapply H; eauto; constructor; assumption|].
      intros [H1 H2] it' l Hi Hl. apply elem_of_cons in Hi as [->|Hi]; [apply H1, Hl|eapply H2; eassumption]. }
    rewrite K. clear K. cbn [second_pass].
    assert (P : (exists b1, apply_item m it b0 = Some b1 /\ (forall l, l ∈ labels_of it -> find_label tbl l <> None) /\
        forall b, settled tbl its b1 b -> settled tbl (it :: its) b0 b) \/
        (apply_item m it b0 = None /\ ~ (forall l, l ∈ labels_of it -> find_label tbl l <> None))).
    { assert (V : forall l, l ∈ @nil text -> find_label tbl l <> None) by (intros l H; inversion H).
      destruct it as [vs|c|mt|l1 l2 x y|l1 l2 c]; cbn [apply_item labels_of].
      - left. eexists. split; [reflexivity|]. split; [exact V|]. intros b [S1 S2 S3 S4 S5]. constructor; try setoid_rewrite latest_cons; assumption.
      - left. eexists. split; [reflexivity|]. split; [exact V|]. intros b [S1 S2 S3 S4 S5]. constructor; try setoid_rewrite latest_cons; assumption.
      - left. eexists. split; [reflexivity|]. split; [exact V|]. intros b [S1 S2 S3 S4 S5]. constructor; try setoid_rewrite latest_cons; assumption.
      - rewrite !Hm. destruct (find_label tbl l1) as [v|] eqn:E1.
        2:{ right. split; [reflexivity|]. intros H. apply (H l1); [constructor|exact E1]. }
        destruct (find_label tbl l2) as [w|] eqn:E2.
        2:{ right. split; [reflexivity|]. intros H. apply (H l2); [constructor; constructor|exact E2]. }
        left. eexists. split; [reflexivity|]. split.
        { intros l Hl. apply elem_of_cons in Hl as [->|Hl]; [congruence|]. apply elem_of_list_singleton in Hl as ->. congruence. }
        intros b [S1 S2 S3 S4 S5]. constructor; try setoid_rewrite latest_cons; try assumption.
        intros v' w'. rewrite S4. f_equal. cbn [b_forces store_distributed_force with_attrs].
        destruct (decide (on_edge tbl v' w' l1 l2)) as [[F1 F2]|N].
        + assert (v' = v) by congruence. assert (w' = w) by congruence. subst. apply lookup_insert.
        + apply lookup_insert_ne. intros E. apply N. injection E as -> ->. split; assumption.
      - rewrite !Hm. destruct (find_label tbl l1) as [v|] eqn:E1.
        2:{ right. split; [reflexivity|]. intros H. apply (H l1); [constructor|exact E1]. }
        destruct (find_label tbl l2) as [w|] eqn:E2.
        2:{ right. split; [reflexivity|]. intros H. apply (H l2); [constructor; constructor|exact E2]. }
        left. eexists. split; [reflexivity|]. split.
        { intros l Hl. apply elem_of_cons in Hl as [->|Hl]; [congruence|]. apply elem_of_list_singleton in Hl as ->. congruence. }
        intros b [S1 S2 S3 S4 S5]. constructor; try setoid_rewrite latest_cons; try assumption.
        intros v' w'. rewrite S5. f_equal. cbn [b_dcons store_distributed_constraint with_attrs].
        destruct (decide (on_edge tbl v' w' l1 l2)) as [[F1 F2]|N].
        + assert (v' = v) by congruence. assert (w' = w) by congruence. subst. apply lookup_insert.
        + apply lookup_insert_ne. intros E. apply N. injection E as -> ->. split; assumption. }
    destruct P as [(b1 & -> & Hl & Hs)|(-> & Hl)].
    + destruct (IH b1) as [I1 I2]. split.
      * intros [_ Hk]. destruct (I1 Hk) as (b & Eb & Sb). exists b. split; [exact Eb|apply Hs, Sb].
      * intros N. apply I2. intros Hk. apply N. split; assumption.
    + split; [intros [H _]; contradiction|reflexivity].
Qed.
Lemma bbnd_stores nf file its b0 tbl : parse_bbnd nf file = Ret (Some its) -> store_all g its = Ret (b0, tbl) ->
  (known tbl its -> exists b, bbnd_to_bounds nf g file = Ret (Ok b) /\ settled tbl its b0 b) /\
  (~ known tbl its -> bbnd_to_bounds nf g file = Ret (Err tt)).
Proof.
  intros Ep Es. unfold bbnd_to_bounds. rewrite Ep. cbn [mbind out_bind]. unfold first_pass.
  pose proof (first_all its (b_new []) ∅ [] (fun l => lookup_empty l)) as F. unfold store_all in Es. rewrite Es in F.
  destruct F as (m & -> & Hm). cbn [mbind out_bind fst snd]. destruct (second_settled m tbl its Hm b0) as [S1 S2]. split.
  - intros Hk. destruct (S1 Hk) as (b & -> & Sb). exists b. split; [reflexivity|exact Sb].
  - intros Hk. rewrite (S2 Hk). reflexivity.
Qed.
End store.
