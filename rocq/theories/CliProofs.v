(** The commands: paths and extensions, the order of checks and outputs, names of mode pictures. *)
From Coq Require Import Ascii String.
From Verif Require Import Cli FileText.
Local Close Scope string_scope.
Local Open Scope nat_scope.
Local Open Scope list_scope.

(** *** paths *)
Notation slash := "/"%char (only parsing).
Notation dot := "."%char (only parsing).

(** what may follow the last component: slashes and "." components *)
Inductive trail : text -> Prop :=
| trail_nil : trail []
| trail_slash t : trail t -> trail (slash :: t)
| trail_dot t : trail t -> trail (slash :: dot :: t).

(** [p]'s last component is a non-empty stem, a dot and [e] *)
Definition has_extension (p e : text) : Prop := exists dir stem tail,
  p = dir ++ stem ++ dot :: e ++ tail /\ (dir = [] \/ exists d, dir = d ++ [slash]) /\
  stem <> [] /\ slash ∉ stem /\ slash ∉ e /\ dot ∉ e /\ ~ (stem = [dot] /\ e = []) /\ trail tail.

Lemma split_on_free c s : c ∉ s -> split_on c s = [s].
Proof.
  induction s as [|x r IH]; intros H; [reflexivity|]. apply not_elem_of_cons in H as [Hx Hr]. cbn.
  destruct (Ascii.eqb_spec x c) as [->|_]; [congruence|]. now rewrite IH.
Qed.
Lemma split_on_ne c s : split_on c s <> [].
Proof. destruct s as [|x r]; [discriminate|]. cbn. destruct (Ascii.eqb x c); [discriminate|]. destruct (split_on c r); discriminate. Qed.
Lemma split_on_app c a b : split_on c (a ++ c :: b) = split_on c a ++ split_on c b.
Proof.
  induction a as [|x a IH]; cbn.
  - rewrite Ascii.eqb_refl. reflexivity.
  - destruct (Ascii.eqb x c); [now rewrite IH|]. rewrite IH. pose proof (split_on_ne c a).
    destruct (split_on c a) as [|l ls]; [congruence|reflexivity].
Qed.

Definition last_name (p : text) : option text := last (List.filter normal (split_on slash p)).
Lemma last_name_snoc_bad a b : slash ∉ b -> normal b = false -> last_name (a ++ slash :: b) = last_name a.
Proof. intros Hb Hn. unfold last_name. rewrite split_on_app, (split_on_free _ b Hb), List.filter_app. cbn. rewrite Hn. now rewrite app_nil_r. Qed.
Lemma last_name_snoc a b : slash ∉ b -> normal b = true -> last_name (a ++ slash :: b) = Some b.
Proof. intros Hb Hn. unfold last_name. rewrite split_on_app, (split_on_free _ b Hb), List.filter_app. cbn. rewrite Hn. apply last_snoc. Qed.
Lemma last_name_trail t : trail t -> forall p, last_name (p ++ t) = last_name p.
Proof.
  induction 1 as [|t Ht IH|t Ht IH]; intros p.
  - now rewrite app_nil_r.
  - change (slash :: t) with ([slash] ++ t). rewrite app_assoc, IH. apply last_name_snoc_bad; [apply not_elem_of_nil|reflexivity].
  - change (slash :: dot :: t) with ([slash; dot] ++ t). rewrite app_assoc, IH. apply last_name_snoc_bad; [|reflexivity].
    intros H. apply elem_of_list_singleton in H. discriminate.
Qed.
Lemma trail_app t u : trail t -> trail u -> trail (t ++ u).
Proof. induction 1; intros Hu; cbn; [exact Hu|apply trail_slash; auto|apply trail_dot; auto]. Qed.
Lemma last_slash (p : text) : slash ∉ p \/ exists a b, p = a ++ slash :: b /\ slash ∉ b.
Proof.
  induction p as [|x p IH]; [left; apply not_elem_of_nil|]. destruct IH as [H|(a & b & -> & H)].
  - destruct (decide (x = slash)) as [->|Hx].
    + right. exists [], p. now split.
    + left. apply not_elem_of_cons. split; [congruence|exact H].
  - right. exists (x :: a), b. now split.
Qed.
Lemma last_name_inv p f : last_name p = Some f ->
  exists dir tail, p = dir ++ f ++ tail /\ (dir = [] \/ exists d, dir = d ++ [slash]) /\ slash ∉ f /\ normal f = true /\ trail tail.
Proof.
  remember (length p) as n eqn:Hn. revert p Hn. induction (lt_wf n) as [n _ IH]. intros p -> E.
  destruct (last_slash p) as [H|(a & b & -> & Hb)].
  - unfold last_name in E. rewrite split_on_free in E by exact H. cbn in E. destruct (normal p) eqn:Hp; [|discriminate].
    injection E as <-. exists [], []. rewrite app_nil_r. repeat split; auto using trail_nil.
  - destruct (normal b) eqn:Nb.
    + rewrite last_name_snoc in E by assumption. injection E as <-. exists (a ++ [slash]), [].
      rewrite app_nil_r, <- app_assoc. split; [reflexivity|]. split; [right; eauto|]. auto using trail_nil.
    + rewrite last_name_snoc_bad in E by assumption.
      destruct (IH (length a)) with (p := a) as (dir & tail & Ha & Hd & Hf & Nf & Ht); [rewrite app_length; cbn; lia|reflexivity|exact E|].
      exists dir, (tail ++ slash :: b). split; [rewrite Ha, <- !app_assoc; reflexivity|]. repeat (split; [assumption|]).
      apply trail_app; [exact Ht|]. unfold normal in Nb. apply andb_false_iff in Nb as [Nb|Nb]; apply negb_false_iff, bool_decide_eq_true in Nb; subst b.
      * constructor; constructor.
      * apply (trail_dot []). constructor.
Qed.

Lemma rsplit_dot_free s : dot ∉ s -> rsplit_dot s = None.
Proof.
  induction s as [|x r IH]; intros H; [reflexivity|]. apply not_elem_of_cons in H as [Hx Hr]. cbn. rewrite IH by exact Hr.
  destruct (Ascii.eqb_spec x dot) as [->|_]; [congruence|reflexivity].
Qed.
Lemma rsplit_dot_app b a : dot ∉ a -> rsplit_dot (b ++ dot :: a) = Some (b, a).
Proof. intros Ha. induction b as [|x b IH]; cbn; [now rewrite rsplit_dot_free|now rewrite IH]. Qed.
Lemma rsplit_dot_inv s b a : rsplit_dot s = Some (b, a) -> s = b ++ dot :: a /\ dot ∉ a.
Proof.
  revert b. induction s as [|x r IH]; intros b E; [discriminate|]. cbn in E. destruct (rsplit_dot r) as [[b' a']|] eqn:Er.
  - injection E as <- <-. destruct (IH _ eq_refl) as [-> H]. now split.
  - destruct (Ascii.eqb_spec x dot) as [->|_]; [|discriminate]. injection E as <- <-. split; [reflexivity|].
    clear IH. induction r as [|y r IH]; [apply not_elem_of_nil|]. cbn in Er. destruct (rsplit_dot r) as [[??]|]; [discriminate|].
    destruct (Ascii.eqb_spec y dot) as [->|Hy]; [discriminate|]. apply not_elem_of_cons. split; [congruence|now apply IH].
Qed.

Lemma extension_spec p e : extension p = Some e <-> has_extension p e.
Proof.
  unfold extension, file_name. fold (last_name p). split.
  - destruct (last_name p) as [f|] eqn:Ef; [|discriminate]. destruct (bool_decide_reflect (f = txt "..")) as [_|Hdd]; [discriminate|].
    destruct (rsplit_dot f) as [[[|x b] a]|] eqn:Er; [discriminate| |discriminate]. intros [= ->].
    destruct (last_name_inv p f Ef) as (dir & tail & -> & Hd & Hs & _ & Ht). apply rsplit_dot_inv in Er as [-> Ha].
    apply not_elem_of_app in Hs as [Hs1 Hs2]. apply not_elem_of_cons in Hs2 as [_ Hs2].
    exists dir, (x :: b), tail. split; [rewrite <- app_assoc; reflexivity|]. repeat (split; [assumption|]).
    split; [discriminate|]. repeat (split; [assumption|]). split; [|exact Ht]. intros [H1 ->]. apply Hdd. rewrite H1. reflexivity.
  - intros (dir & stem & tail & -> & Hd & Hst & Hs1 & Hs2 & Hdot & Hdd & Ht).
    replace (dir ++ stem ++ dot :: e ++ tail) with ((dir ++ (stem ++ dot :: e)) ++ tail) by (rewrite <- !app_assoc; reflexivity).
    rewrite (last_name_trail _ Ht).
    assert (Hf : slash ∉ stem ++ dot :: e).
    { apply not_elem_of_app. split; [exact Hs1|]. apply not_elem_of_cons. split; [discriminate|exact Hs2]. }
    assert (Hn : normal (stem ++ dot :: e) = true).
    { unfold normal. apply andb_true_iff. split; apply negb_true_iff, bool_decide_eq_false; intros E.
      - apply app_eq_nil in E as [_ E]. discriminate.
      - destruct stem as [|y [|z stem]]; [congruence|discriminate|discriminate]. }
    assert (El : last_name (dir ++ stem ++ dot :: e) = Some (stem ++ dot :: e)).
    { destruct Hd as [->|(d & ->)].
      - cbn [app]. unfold last_name. rewrite (split_on_free _ _ Hf). cbn [List.filter]. now rewrite Hn.
      - rewrite <- (app_assoc d). now apply last_name_snoc. }
    rewrite El. rewrite bool_decide_eq_false_2.
    + rewrite rsplit_dot_app by exact Hdot. destruct stem; [congruence|reflexivity].
    + intros E. apply Hdd. destruct stem as [|y [|z [|? ?]]]; [congruence| |discriminate|discriminate].
      cbn in E. injection E as -> ->. auto.
Qed.

(** *** commands *)
Section cmd.
Context {A : arith}.
Notation cmd := (@cmd A).

Lemma c_bind_ok {X Y} (m : cmd X) (k : X -> cmd Y) l y : c_bind m k = (l, Ret (Ok y)) ->
  exists l1 x l2, m = (l1, Ret (Ok x)) /\ k x = (l2, Ret (Ok y)) /\ l = l1 ++ l2.
Proof.
  destruct m as [l1 [[x|e]| | |]]; unfold c_bind; cbn [fst snd]; try discriminate.
  destruct (k x) as [l2 o] eqn:E. cbn. intros [= <- ->]. eauto 8.
Qed.
Lemma c_bind_err {X Y} (m : cmd X) (k : X -> cmd Y) l e : c_bind m k = (l, Ret (Err e)) ->
  m = (l, Ret (Err e)) \/ exists l1 x l2, m = (l1, Ret (Ok x)) /\ k x = (l2, Ret (Err e)) /\ l = l1 ++ l2.
Proof.
  destruct m as [l1 [[x|e1]| | |]]; unfold c_bind; cbn [fst snd]; try discriminate.
  - destruct (k x) as [l2 o] eqn:E. cbn. intros [= <- ->]. right. eauto 8.
  - intros [= -> ->]. now left.
Qed.
Lemma c_bind_ret {X Y} (x : X) (k : X -> cmd Y) m : m = ([], Ret (Ok x)) -> c_bind m k = k x.
Proof. intros ->. unfold c_bind. cbn. destruct (k x); reflexivity. Qed.
Lemma c_do_ok {X} (m : out X) l x : c_do (A := A) m = (l, Ret (Ok x)) -> l = [] /\ m = Ret x.
Proof. destruct m; cbn; intros [= <-]; subst; auto. Qed.
Lemma c_do_err {X} (m : out X) l e : c_do (A := A) m = (l, Ret (Err e)) -> False.
Proof. destruct m; discriminate. Qed.
Lemma c_arg_ok {X} what (o : option X) l x : c_arg (A := A) what o = (l, Ret (Ok x)) -> l = [] /\ o = Some x.
Proof. destruct o; cbn; intros [= <-]; subst; auto. Qed.
Lemma c_arg_err {X} what (o : option X) l e : c_arg (A := A) what o = (l, Ret (Err e)) -> l = [] /\ o = None /\ e = ArgError what.
Proof. destruct o; cbn; intros [= <- <-]; auto. Qed.
Lemma c_file_ok {X} (m : out (result file_error X)) l x : c_file (A := A) m = (l, Ret (Ok x)) -> l = [] /\ m = Ret (Ok x).
Proof. destruct m as [[x'|e]| | |]; cbn; intros [= <-]; subst; auto. Qed.
Lemma c_file_err {X} (m : out (result file_error X)) l e : c_file (A := A) m = (l, Ret (Err e)) ->
  l = [] /\ exists f, m = Ret (Err f) /\ e = FileErr f.
Proof. destruct m as [[x'|f]| | |]; cbn; intros [= <- <-]; eauto. Qed.
End cmd.

Ltac ok1 H := let l1 := fresh "l" in let x := fresh "x" in let l2 := fresh "l" in let H1 := fresh "H" in
  apply c_bind_ok in H as (l1 & x & l2 & H1 & H & ->); cbv beta in H;
  first [apply c_do_ok in H1 as [-> H1]|apply c_arg_ok in H1 as [-> H1]|apply c_file_ok in H1 as [-> H1]|idtac].
Ltac err1 H := let l1 := fresh "l" in let x := fresh "x" in let l2 := fresh "l" in let H1 := fresh "H" in
  lazymatch type of H with c_bind _ _ = _ => idtac end; apply c_bind_err in H as [H|(l1 & x & l2 & H1 & H & ->)];
  [first [exfalso; exact (c_do_err _ _ _ H)|apply c_arg_err in H as (-> & H)|apply c_file_err in H as (-> & H)|idtac]
  |cbv beta in H; first [apply c_do_ok in H1 as [-> H1]|apply c_arg_ok in H1 as [-> H1]|apply c_file_ok in H1 as [-> H1]|idtac]].

Section commands.
Context {A : arith} (nf : numfmt A) (ra : raster A) (g : geo A).
Notation linear := (Cli.linear nf ra).
Notation modal := (Cli.modal nf ra).
Notation mesh := (Cli.mesh nf ra g).

Lemma draw_to_ok w (v : visual A) path size cm show l : draw_to ra w v path size cm show = (l, Ret (Ok tt)) ->
  exists im, draw ra size cm show v = Ret im /\ l = [SavedImage path size im] /\ w_image w path size = true.
Proof.
  unfold draw_to. intros H. ok1 H. destruct (w_image w path size); [|discriminate]. injection H as <-. eauto.
Qed.
Lemma draw_to_err w (v : visual A) path size cm show l e : draw_to ra w v path size cm show = (l, Ret (Err e)) -> False.
Proof. unfold draw_to. intros H. err1 H. destruct (w_image w path size); discriminate. Qed.

(** a successful linear study, step by step *)
Lemma linear_ok w h ar l : linear w h ar = (l, Ret (Ok tt)) ->
  exists path a solver disp vm max_vm max_d scale vis vals nv vis' cm size show im,
    ar "INPUT"%string = Some path /\ read_to_elas nf w path = Ret (Ok a) /\
    solver_of h (ar "solver"%string) = Some solver /\
    calc_displacements (h_k h) (h_conc h (ea_conc a)) (h_line h (ea_line a)) solver a = Ret disp /\
    ea_von_mises a disp = Ret vm /\ Visual.max_by vm = Ret max_vm /\ Visual.max_by (displacement_norms disp) = Ret max_d /\
    scale_of nf (ar "scale"%string) = Some scale /\ dfm_visualize a disp scale = Ret vis /\
    node_value a disp (ar "nodevalue"%string) = Some vals /\ vals = Ret nv /\ set_vals vis nv = Ret vis' /\
    colormap ra (ar "colormap"%string) = Some cm /\ im_size (ar "imsize"%string) = Some size /\
    show_mesh (ar "showmesh"%string) = Some show /\ draw ra (Z.of_N size) cm show vis' = Ret im /\
    l = [SavedImage (default (txt "out.png") (ar "out"%string)) (Z.of_N size) im; PrintMax max_vm max_d].
Proof.
  unfold Cli.linear. intros H. do 14 ok1 H. injection H as <-. 
  match goal with H : (ea_von_mises _ _ ≫= _) = Ret _ |- _ => apply bind_ret_inv in H as (vm & ? & ?) end.
  match goal with H : (_ ≫= _) = Ret _ |- _ => apply bind_ret_inv in H as (nv & ? & ?) end.
  match goal with H : draw_to _ _ _ _ _ _ _ = (_, Ret (Ok ?u)) |- _ => destruct u; apply draw_to_ok in H as (im & ? & -> & ?) end.
  match goal with H : unwrap _ = Ret ?p |- _ => assert (ar "INPUT"%string = Some p) by (destruct (ar "INPUT"%string); [cbn in H; congruence|discriminate]) end.
  do 16 eexists. repeat (split; [eassumption|]). reflexivity.
Qed.
Lemma linear_err w h ar l e : linear w h ar = (l, Ret (Err e)) -> l = [].
Proof.
  unfold Cli.linear. intros H. repeat (err1 H; try reflexivity).
  - now apply draw_to_err in H.
  - discriminate.
Qed.

(** a successful modal study *)
Lemma modal_one_ok w ar (a : elas A) scale i d l : modal_one ra w ar a scale i d = (l, Ret (Ok tt)) ->
  exists vis cm size show im,
    (v ← dfm_visualize a d.1 scale; set_vals v (displacement_norms d.1)) = Ret vis /\
    colormap ra (ar "colormap"%string) = Some cm /\ im_size (ar "imsize"%string) = Some size /\
    show_mesh (ar "showmesh"%string) = Some show /\ draw ra (Z.of_N size) cm show vis = Ret im /\
    l = [SavedImage (mode_path i) (Z.of_N size) im; PrintMode i d.2].
Proof.
  unfold modal_one. intros H. do 5 ok1 H. injection H as <-.
  match goal with H : draw_to _ _ _ _ _ _ _ = (_, Ret (Ok ?u)) |- _ => destruct u; apply draw_to_ok in H as (im & ? & -> & ?) end.
  do 5 eexists. repeat (split; [eassumption|]). reflexivity.
Qed.
Lemma modal_one_err w ar (a : elas A) scale i d l e : modal_one ra w ar a scale i d = (l, Ret (Err e)) -> l = [] /\
  (colormap ra (ar "colormap"%string) = None \/ im_size (ar "imsize"%string) = None \/ show_mesh (ar "showmesh"%string) = None).
Proof.
  unfold modal_one. intros H. repeat (err1 H; try (split; [reflexivity|tauto])).
  - now apply draw_to_err in H.
  - discriminate.
Qed.
Lemma modal_loop_ok w ar (a : elas A) scale ds : forall i l, modal_loop ra w ar a scale i ds = (l, Ret (Ok tt)) ->
  exists ims : list (Z * list (pix * rgb)), length ims = length ds /\
    l = concat (map (fun t : nat * (Z * list (pix * rgb)) * (list (point A) * A) =>
                       [SavedImage (mode_path t.1.1) t.1.2.1 t.1.2.2; PrintMode t.1.1 t.2.2]) (zip (zip (seq i (length ds)) ims) ds)) /\
    (ds <> [] -> is_Some (colormap ra (ar "colormap"%string)) /\ is_Some (im_size (ar "imsize"%string)) /\ is_Some (show_mesh (ar "showmesh"%string))).
Proof.
  induction ds as [|d ds IH]; intros i l H; cbn [modal_loop] in H.
  - injection H as <-. exists []. repeat split; congruence.
  - ok1 H. destruct x. apply modal_one_ok in H0 as (vis & cm & size & show & im & _ & E1 & E2 & E3 & _ & ->).
    destruct (IH _ _ H) as (ims & Hl & -> & _). exists ((Z.of_N size, im) :: ims). split; [cbn; congruence|]. split; [reflexivity|].
    intros _. rewrite E1, E2, E3. eauto.
Qed.
Lemma modal_loop_err w ar (a : elas A) scale ds : forall i l e, modal_loop ra w ar a scale i ds = (l, Ret (Err e)) -> l = [].
Proof.
  destruct ds as [|d ds]; intros i l e H; cbn [modal_loop] in H; [discriminate|].
  err1 H; [now apply modal_one_err in H|]. exfalso. destruct x.
  apply modal_one_ok in H0 as (vis & cm & size & show & im & _ & E1 & E2 & E3 & _ & ->).
  revert H. generalize l1, (S i). clear - E1 E2 E3. induction ds as [|d ds IH]; intros l i H; cbn [modal_loop] in H; [discriminate|].
  err1 H; [|destruct x; eauto]. apply modal_one_err in H as [_ H]. rewrite E1, E2, E3 in H. destruct H as [|[|]]; discriminate.
Qed.
Lemma unwrap_some {X} (o : option X) x : unwrap o = Ret x -> o = Some x.
Proof. destruct o; cbn; congruence. Qed.
Lemma modal_ok w h fl fi fs rnd ar l : modal w h fl fi fs rnd ar = (l, Ret (Ok tt)) ->
  exists path a s num dfms scale, ar "INPUT"%string = Some path /\ read_to_elas nf w path = Ret (Ok a) /\
    ar "NUM"%string = Some s /\ parse_usize s = Some num /\
    calc_modes (h_k h) (h_sys h) fl fi fs num rnd a = Ret dfms /\ scale_of nf (ar "scale"%string) = Some scale /\
    modal_loop ra w ar a scale 0 dfms = (l, Ret (Ok tt)).
Proof.
  unfold Cli.modal. intros H. do 6 ok1 H. do 2 match goal with H : unwrap _ = _ |- _ => apply unwrap_some in H end.
  do 6 eexists. repeat (split; [eassumption|]). exact H.
Qed.
Lemma modal_err w h fl fi fs rnd ar l e : modal w h fl fi fs rnd ar = (l, Ret (Err e)) -> l = [].
Proof. unfold Cli.modal. intros H. repeat (err1 H; try reflexivity). now apply modal_loop_err in H. Qed.

(** meshing *)
Lemma save_elas_ok w h path (a : elas A) l : save_elas nf w h path a = (l, Ret (Ok tt)) ->
  exists t, elas_to_bmsh nf (h_conc h (ea_conc a)) (h_line h (ea_line a)) a = Ret t /\ l = [SavedFile path t].
Proof. unfold save_elas. intros H. ok1 H. destruct (w_write w path); [|discriminate]. injection H as <-. eauto. Qed.
Lemma mesh_ok w h fuel ar l : mesh w h fuel ar = (l, Ret (Ok tt)) ->
  exists path b s size m st vis isz im a t,
    ar "INPUT"%string = Some path /\ read_to_bound nf g w path = Ret (Ok b) /\
    ar "elementsize"%string = Some s /\ nf_read nf s = Some size /\
    mesher g h fuel size (ar "mesher"%string) (pl_new b) = Some m /\ m = Ret st /\
    pl_visualize h st = Ret vis /\ im_size (ar "imsize"%string) = Some isz /\ draw ra (Z.of_N isz) None true vis = Ret im /\
    assemble_of h st = Ret (Some a) /\ elas_to_bmsh nf (h_conc h (ea_conc a)) (h_line h (ea_line a)) a = Ret t /\
    l = [SavedImage (default (txt "out.png") (ar "imageout"%string)) (Z.of_N isz) im;
         SavedFile (default (txt "out.bmsh") (ar "meshout"%string)) t].
Proof.
  unfold Cli.mesh. intros H. do 10 ok1 H. do 2 match goal with H : unwrap _ = _ |- _ => apply unwrap_some in H end.
  match goal with H : draw_to _ _ _ _ _ _ _ = (_, Ret (Ok ?u)) |- _ => destruct u; apply draw_to_ok in H as (im & ? & -> & ?) end.
  match type of H with match ?x with _ => _ end = _ => destruct x as [a|]; [|discriminate] end.
  apply save_elas_ok in H as (t & Et & ->). do 11 eexists. repeat (split; [eassumption|]). reflexivity.
Qed.
Lemma mesh_err w h fuel ar l e : mesh w h fuel ar = (l, Ret (Err e)) -> l = [] \/
  e = NoMaterial /\ exists path b s size m st isz im,
    ar "INPUT"%string = Some path /\ read_to_bound nf g w path = Ret (Ok b) /\
    ar "elementsize"%string = Some s /\ nf_read nf s = Some size /\
    mesher g h fuel size (ar "mesher"%string) (pl_new b) = Some m /\ m = Ret st /\ assemble_of h st = Ret None /\
    l = [SavedImage (default (txt "out.png") (ar "imageout"%string)) (Z.of_N isz) im].
Proof.
  unfold Cli.mesh. intros H. repeat (err1 H; try (left; reflexivity)); [now apply draw_to_err in H|].
  do 2 match goal with H : unwrap _ = _ |- _ => apply unwrap_some in H end.
  match goal with H : draw_to _ _ _ _ _ _ _ = (_, Ret (Ok ?u)) |- _ => destruct u; apply draw_to_ok in H as (im & ? & -> & ?) end.
  match type of H with match ?x with _ => _ end = _ => destruct x as [a|] end.
  - exfalso. unfold save_elas in H. err1 H. destruct (w_write _ _); discriminate.
  - injection H as <- <-. right. split; [reflexivity|]. do 8 eexists. repeat (split; [eassumption|]). reflexivity.
Qed.

(** inputs with another extension *)
Lemma read_to_elas_ext w path a : read_to_elas nf w path = Ret (Ok a) ->
  extension path = Some (txt "bmsh") /\ exists t, w_read w path = Some t /\ bmsh_to_elas nf t = Ret (Ok a).
Proof.
  unfold read_to_elas. destruct (extension path) as [ext|]; [|discriminate]. destruct (w_read w path) as [t|]; [|discriminate].
  destruct (bool_decide_reflect (ext = txt "bmsh")) as [->|]; [|discriminate]. intros H. split; [reflexivity|].
  apply bind_ret_inv in H as (r & E & H). exists t. split; [reflexivity|]. destruct r; [congruence|discriminate].
Qed.
Lemma read_to_bound_ext w path b : read_to_bound nf g w path = Ret (Ok b) ->
  extension path = Some (txt "bbnd") /\ exists t, w_read w path = Some t /\ bbnd_to_bounds nf g t = Ret (Ok b).
Proof.
  unfold read_to_bound. destruct (extension path) as [ext|]; [|discriminate]. destruct (w_read w path) as [t|]; [|discriminate].
  destruct (bool_decide_reflect (ext = txt "bbnd")) as [->|]; [|discriminate]. intros H. split; [reflexivity|].
  apply bind_ret_inv in H as (r & E & H). exists t. split; [reflexivity|]. destruct r; [congruence|discriminate].
Qed.
Lemma read_to_elas_bad w path : extension path <> Some (txt "bmsh") -> exists e, read_to_elas nf w path = Ret (Err e).
Proof.
  unfold read_to_elas. intros H. destruct (extension path) as [ext|]; [|eauto]. destruct (w_read w path); [|eauto].
  rewrite bool_decide_eq_false_2 by congruence. eauto.
Qed.
Lemma read_to_bound_bad w path : extension path <> Some (txt "bbnd") -> exists e, read_to_bound nf g w path = Ret (Err e).
Proof.
  unfold read_to_bound. intros H. destruct (extension path) as [ext|]; [|eauto]. destruct (w_read w path); [|eauto].
  rewrite bool_decide_eq_false_2 by congruence. eauto.
Qed.
Lemma linear_bad w h ar path e : ar "INPUT"%string = Some path -> read_to_elas nf w path = Ret (Err e) ->
  linear w h ar = ([], Ret (Err (FileErr e))).
Proof. intros E1 E2. unfold Cli.linear. rewrite E1. rewrite (c_bind_ret path) by reflexivity. rewrite E2. reflexivity. Qed.
Lemma modal_bad w h fl fi fs rnd ar path e : ar "INPUT"%string = Some path -> read_to_elas nf w path = Ret (Err e) ->
  modal w h fl fi fs rnd ar = ([], Ret (Err (FileErr e))).
Proof. intros E1 E2. unfold Cli.modal. rewrite E1. rewrite (c_bind_ret path) by reflexivity. rewrite E2. reflexivity. Qed.
Lemma mesh_bad w h fuel ar path e : ar "INPUT"%string = Some path -> read_to_bound nf g w path = Ret (Err e) ->
  mesh w h fuel ar = ([], Ret (Err (FileErr e))).
Proof. intros E1 E2. unfold Cli.mesh. rewrite E1. rewrite (c_bind_ret path) by reflexivity. rewrite E2. reflexivity. Qed.
End commands.
