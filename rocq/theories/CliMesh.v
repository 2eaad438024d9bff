(** From a boundary file to a mesh file: what reading, meshing and assembling keep. *)
From Coq Require Import Ascii String.
From Verif Require Import SolverProofs FileTop CliProofs FileProofs FileRound FileBnd FileSound PlaneTop PlaneAsm Cli.
Local Close Scope string_scope.
Local Open Scope nat_scope.
Local Open Scope list_scope.

(** *** assemblages made by the reader and by the mesher are histories of operations *)
Section built.
Context {A : arith}.
Lemma ea_built_step o (a a' : elas A) : ea_built a -> ea_step o a = Ret a' -> ea_built a'.
Proof. intros (m & c & ops & E) Es. exists m, c, (ops ++ [o]). rewrite foldM_app, E. cbn. rewrite Es. reflexivity. Qed.
Lemma ea_built_new m c : ea_built (ea_new (A := A) m c).
Proof. exists m, c, []. reflexivity. Qed.

Lemma build_elas_built x (a : elas A) : build_elas x = Ret a -> ea_built a.
Proof.
  unfold build_elas. destruct (add_nodes _ _) as [a0 ids] eqn:E0. intros E.
  assert (B0 : ea_built a0).
  { apply (ea_built_step (ANodes (pa_nodes x)) (ea_new (pa_mat x) (pa_cond x))); [apply ea_built_new|]. cbn [ea_step]. now rewrite E0. }
  apply bind_ret_inv in E as (a1 & E1 & E). apply bind_ret_inv in E as (a2 & E2 & E). apply bind_ret_inv in E as (a3 & E3 & E).
  assert (B1 : ea_built a1).
  { refine (foldM_ok _ ea_built _ _ _ _ B0 E1). intros ns s s' Hs H. apply bind_ret_inv in H as (nids & _ & H).
    apply bind_ret_inv in H as (d & _ & H). exact (ea_built_step (AElement d) _ _ Hs H). }
  assert (B2 : ea_built a2).
  { refine (foldM_ok _ ea_built _ _ _ _ B1 E2). intros nc s s' Hs H. apply bind_ret_inv in H as (n & _ & H).
    exact (ea_built_step (ASupport n nc.2) _ _ Hs H). }
  assert (B3 : ea_built a3).
  { refine (foldM_ok _ ea_built _ _ _ _ B2 E3). intros nc s s' Hs H. apply bind_ret_inv in H as (n & _ & H).
    exact (ea_built_step (AConc n nc.2) _ _ Hs H). }
  refine (foldM_ok _ ea_built _ _ _ _ B3 E). intros nc s s' Hs H. apply bind_ret_inv in H as (n & _ & H).
  apply bind_ret_inv in H as (m & _ & H). exact (ea_built_step (ALine n m nc.2) _ _ Hs H).
Qed.
Lemma bmsh_built nf t (a : elas A) : bmsh_to_elas nf t = Ret (Ok a) -> ea_built a.
Proof.
  unfold bmsh_to_elas. intros E. apply bind_ret_inv in E as (p & _ & E). destruct p as [x|]; [|discriminate].
  apply bind_ret_inv in E as (a' & E & H). injection H as ->. exact (build_elas_built x a E).
Qed.
Lemma assemble_built ot os oc ol st (a : elas A) : pl_assemble ot os oc ol st = Ret (Some a) -> ea_built a.
Proof.
  unfold pl_assemble. destruct (b_mat (t_bound st)) as [mat|]; [|discriminate]. intros E. apply bind_ret_inv in E as (cond & _ & E).
  cbv zeta in E. apply bind_ret_inv in E as (a1 & E1 & E). apply bind_ret_inv in E as (a2 & E2 & E). apply bind_ret_inv in E as (a3 & E3 & E).
  injection E as ->.
  assert (B0 : ea_built (add_nodes (ea_new mat cond) (map (fun v => xy_pt (tget st v)) (all_vertices st))).1).
  { eapply (ea_built_step (ANodes _)); [apply ea_built_new|reflexivity]. }
  assert (B1 : ea_built a1).
  { refine (foldM_ok _ ea_built _ _ _ _ B0 E1). intros t s s' Hs H. do 3 (apply bind_ret_inv in H as (? & _ & H)).
    exact (ea_built_step (AElement _) _ _ Hs H). }
  assert (B2 : ea_built a2).
  { refine (foldM_ok _ ea_built _ _ _ _ B1 E2). intros v s s' Hs H. destruct (all_constraints (t_bound st) os !! v); [|congruence].
    apply bind_ret_inv in H as (n & _ & H). exact (ea_built_step (ASupport n _) _ _ Hs H). }
  refine (foldM_ok _ ea_built _ _ _ _ B2 E3). intros sf s s' Hs H. do 2 (apply bind_ret_inv in H as (? & _ & H)).
  exact (ea_built_step (ALine _ _ _) _ _ Hs H).
Qed.
End built.

(** *** the material is not changed by meshing *)
Section kind.
Context {A : arith} (g : geo A).
Implicit Types b : bound A.
Implicit Types st : plane A.
Local Notation mat st := (b_mat (t_bound st)).

Lemma split_mat b s r : split_segment b s = Ret r -> b_mat r.1 = b_mat b.
Proof.
  unfold split_segment. intros E. apply bind_ret_inv in E as (u & _ & E). cbn in E.
  destruct (take_attr (b_forces _) s) as [fs f]. destruct (take_attr (b_dcons _) s) as [ds c]. injection E as <-. reflexivity.
Qed.
Lemma divide_mat b s h b' : divide_segment g b s h = Ret b' -> b_mat b' = b_mat b.
Proof.
  unfold divide_segment. intros E. apply bind_ret_inv in E as (u & _ & E). cbv zeta in E. destruct (_ =? _)%Z; [discriminate|].
  destruct (take_attr (b_forces _) s) as [fs f]. destruct (take_attr (b_dcons _) s) as [ds c].
  apply bind_ret_inv in E as ([[b1 cur] np] & E1 & E). injection E as <-. cbn [b_mat with_attrs store_segment_unchecked with_segs].
  refine (foldM_ok _ (fun x : bound A * vertex * Bounds.xy A => b_mat x.1.1 = b_mat b) _ _ _ _ _ E1).
  - intros x [[s1 c1] n1] s' Hs H. cbn in H. injection H as <-. exact Hs.
  - reflexivity.
Qed.
Lemma divide_all_mat b ord h b' : divide_all_segments g b ord h = Ret b' -> b_mat b' = b_mat b.
Proof.
  unfold divide_all_segments. intros E. refine (foldM_ok _ (fun x => b_mat x = b_mat b) _ _ _ _ _ E); [|reflexivity].
  intros s b1 b2 H1 H2. rewrite (divide_mat _ _ _ _ H2). exact H1.
Qed.
Lemma add_triangle_bound st t st' : add_triangle g st t = Some st' -> t_bound st' = t_bound st.
Proof. unfold add_triangle. destruct (negb _); [discriminate|]. destruct (existsb _ _); [discriminate|]. now injection 1 as <-. Qed.
Lemma delete_triangle_bound st t st' : delete_triangle st t = Some st' -> t_bound st' = t_bound st.
Proof. unfold delete_triangle. destruct (bool_decide _); [|discriminate]. now injection 1 as <-. Qed.
Lemma unwrap_inv {X} (o : option X) x : unwrap o = Ret x -> o = Some x.
Proof. apply unwrap_some. Qed.
Lemma dig_bound fuel : forall u v w st st', dig g fuel u v w st = Ret st' -> t_bound st' = t_bound st.
Proof.
  induction fuel as [|fuel IH]; intros u v w st st' E; [discriminate|]. cbn [dig] in E.
  assert (Hadd : forall s', unwrap (add_triangle g st (u, v, w)) = Ret s' -> t_bound s' = t_bound st).
  { intros s' H. apply unwrap_inv in H. exact (add_triangle_bound _ _ _ H). }
  assert (Hdeep : forall x s', (st ← unwrap (delete_triangle st (w, v, x)); st ← dig g fuel u v x st; dig g fuel u x w st) = Ret s' -> t_bound s' = t_bound st).
  { intros x s' H. apply bind_ret_inv in H as (s1 & H1 & H). apply bind_ret_inv in H as (s2 & H2 & H).
    rewrite (IH _ _ _ _ _ H), (IH _ _ _ _ _ H2). apply unwrap_inv in H1. exact (delete_triangle_bound _ _ _ H1). }
  destruct (is_segment _ _ || is_segment _ _); [exact (Hadd _ E)|]. destruct (pl_adjacent st (w, v)) as [x|]; [|exact (Hadd _ E)].
  destruct (is_negative _); [exact (Hdeep _ _ E)|]. apply bind_ret_inv in E as (ins & _ & E). destruct ins; [exact (Hdeep _ _ E)|exact (Hadd _ E)].
Qed.
Lemma insert_bound fuel u t st st' : insert_vertex g fuel u t st = Ret st' -> t_bound st' = t_bound st.
Proof.
  unfold insert_vertex. intros E. apply bind_ret_inv in E as (s1 & E1 & E). apply bind_ret_inv in E as (s2 & E2 & E).
  apply bind_ret_inv in E as (s3 & E3 & E). rewrite (dig_bound _ _ _ _ _ _ E), (dig_bound _ _ _ _ _ _ E3), (dig_bound _ _ _ _ _ _ E2).
  apply unwrap_inv in E1. exact (delete_triangle_bound _ _ _ E1).
Qed.
Lemma gift_loop_bound pk fuel : forall st X lost r, gift_loop g pk fuel st X lost = Ret r -> t_bound r.1 = t_bound st.
Proof.
  induction fuel as [|fuel IH]; intros st X lost r E; [discriminate|]. cbn [gift_loop] in E.
  destruct (bool_decide (X = ∅)); [now injection E as <-|]. apply bind_ret_inv in E as (e & _ & E). cbv zeta in E.
  apply bind_ret_inv in E as (o & _ & E). destruct o as [[[t a] b]|]; [|exact (IH _ _ _ _ E)].
  apply bind_ret_inv in E as (s1 & E1 & E). rewrite (IH _ _ _ _ E). apply unwrap_inv in E1. exact (add_triangle_bound _ _ _ E1).
Qed.
Lemma gift_bound pk fuel st r : gift_wrap g pk fuel st = Ret r -> t_bound r.1 = t_bound st.
Proof. unfold gift_wrap. intros E. apply bind_ret_inv in E as (w & _ & E). now rewrite (gift_loop_bound _ _ _ _ _ _ E). Qed.
Lemma chew_loop_mat ft inner h fuel : forall st st', chew_loop g ft inner fuel h st = Ret st' -> mat st' = mat st.
Proof.
  induction fuel as [|fuel IH]; intros st st' E; [discriminate|]. cbn [chew_loop] in E. destruct (large_triangle _ _) as [t|]; [|now injection E as <-].
  apply bind_ret_inv in E as (o & _ & E). apply bind_ret_inv in E as (p & _ & E). cbn in E.
  apply bind_ret_inv in E as (s2 & Ei & E). rewrite (IH _ _ E), (insert_bound _ _ _ _ _ Ei). reflexivity.
Qed.
Lemma ruppert_split_mat fuel st s r : ruppert_split_segment g fuel st s = Ret r -> mat r.1 = mat st.
Proof.
  unfold ruppert_split_segment. intros E. apply bind_ret_inv in E as (x & _ & E). apply bind_ret_inv in E as (s1 & E1 & E).
  apply bind_ret_inv in E as (q & Eq & E). cbv zeta in E. apply bind_ret_inv in E as (s2 & E2 & E). apply bind_ret_inv in E as (s3 & E3 & E).
  injection E as <-. cbn [fst]. rewrite (dig_bound _ _ _ _ _ _ E3), (dig_bound _ _ _ _ _ _ E2). cbn [t_bound with_bound].
  rewrite (split_mat _ _ _ Eq). apply unwrap_inv in E1. now rewrite (delete_triangle_bound _ _ _ E1).
Qed.
Lemma split_many_mat inner p rc fuel : forall st stack res r, split_many g inner fuel p rc st stack res = Ret r -> mat r.1 = mat st.
Proof.
  induction fuel as [|fuel IH]; intros st stack res r E; [discriminate|]. cbn [split_many] in E.
  destruct stack as [|s stack]; [now injection E as <-|]. apply bind_ret_inv in E as (q & Es & E).
  pose proof (ruppert_split_mat _ _ _ _ Es) as H1. destruct q as [s1 [[ca cb] v]]. cbn [fst] in *.
  apply bind_ret_inv in E as (ea & _ & E). apply bind_ret_inv in E as (eb & _ & E). now rewrite (IH _ _ _ _ E).
Qed.
Lemma ruppert_walls_mat inner fuel : forall st stack st', ruppert_walls g inner fuel st stack = Ret st' -> mat st' = mat st.
Proof.
  induction fuel as [|fuel IH]; intros st stack st' E; [discriminate|]. cbn [ruppert_walls] in E.
  destruct stack as [|v stack]; [now injection E as <-|]. apply bind_ret_inv in E as (segs & _ & E).
  destruct segs as [|s segs]; [eauto|]. apply bind_ret_inv in E as (r & Es & E). now rewrite (IH _ _ _ E), (split_many_mat _ _ _ _ _ _ _ _ Es).
Qed.
Lemma ruppert_loop_mat ft inner h fuel : forall st st', ruppert_loop g ft inner fuel h st = Ret st' -> mat st' = mat st.
Proof.
  induction fuel as [|fuel IH]; intros st st' E; [discriminate|]. cbn [ruppert_loop] in E. destruct (skinny_triangle _ _ _ _) as [t|]; [|now injection E as <-].
  apply bind_ret_inv in E as (o & _ & E). apply bind_ret_inv in E as (p & _ & E). cbn in E. apply bind_ret_inv in E as (segs & _ & E).
  destruct segs as [|s segs].
  - apply bind_ret_inv in E as (s2 & Ei & E). rewrite (IH _ _ E), (insert_bound _ _ _ _ _ Ei). reflexivity.
  - apply bind_ret_inv in E as (r & Es & E). rewrite (IH _ _ E), (split_many_mat _ _ _ _ _ _ _ _ Es). reflexivity.
Qed.
Lemma mesher_mat h fuel size o b m st : mesher g h fuel size o (pl_new b) = Some m -> m = Ret st -> mat st = b_mat b.
Proof.
  intros E Em.
  assert (Hc : forall ord, chew_mesh g (h_pick h) (h_order h) ord fuel size (pl_new b) = Ret st -> mat st = b_mat b).
  { intros ord H. unfold chew_mesh in H. apply bind_ret_inv in H as (b' & E1 & H). apply bind_ret_inv in H as (r & E2 & H).
    rewrite (chew_loop_mat _ _ _ _ _ _ H), (gift_bound _ _ _ _ E2). exact (divide_all_mat _ _ _ _ E1). }
  assert (Hr : ruppert_mesh g (h_pick h) (h_order h) fuel size (pl_new b) = Ret st -> mat st = b_mat b).
  { intros H. unfold ruppert_mesh in H. apply bind_ret_inv in H as (r & E1 & H). apply bind_ret_inv in H as (s1 & E2 & H).
    rewrite (ruppert_loop_mat _ _ _ _ _ _ H), (ruppert_walls_mat _ _ _ _ _ E2). now rewrite (gift_bound _ _ _ _ E1). }
  unfold mesher in E. destruct o as [s|]; [|injection E as <-; eauto].
  destruct (bool_decide (s = txt "chew")); [injection E as <-; eauto|]. destruct (bool_decide _); [injection E as <-; eauto|discriminate].
Qed.
Lemma mesher_state h fuel size o b polys m st : bd_built g b polys -> pick_ok (h_pick h) ->
  mesher g h fuel size o (pl_new b) = Some m -> m = Ret st -> mesh_state g st.
Proof.
  intros Hb Hp E Em.
  assert (Hc : forall ord, chew_mesh g (h_pick h) (h_order h) ord fuel size (pl_new b) = Ret st -> mesh_state g st).
  { intros ord H. now destruct (chew_state g _ _ ord fuel size b polys st Hb Hp H) as (_ & _ & _ & _ & _ & _ & ?). }
  assert (Hr : ruppert_mesh g (h_pick h) (h_order h) fuel size (pl_new b) = Ret st -> mesh_state g st).
  { intros H. now destruct (ruppert_state g _ _ fuel size b polys st Hb Hp H) as (_ & _ & _ & _ & _ & _ & ?). }
  unfold mesher in E. destruct o as [s|]; [|injection E as <-; eauto].
  destruct (bool_decide (s = txt "chew")); [injection E as <-; eauto|]. destruct (bool_decide _); [injection E as <-; eauto|discriminate].
Qed.
End kind.

(** *** boundaries read from files *)
Section bnd.
Context {A : arith} (nf : numfmt A) (g : geo A).
(** what a parser's answers satisfy *)
Definition yields {X} (P : X -> Prop) (p : parser X) : Prop := forall i i' x, p i = Ret (POk i' x) -> P x.
Lemma y_any {X} (p : parser X) : yields (fun _ => True) p.
Proof. intros ? ? ? _. exact I. Qed.
Lemma y_weak {X} (P Q : X -> Prop) p : (forall x, P x -> Q x) -> yields P p -> yields Q p.
Proof. intros H Hp i i' x E. apply H, (Hp _ _ _ E). Qed.
Lemma y_ret {X} (P : X -> Prop) x : P x -> yields P (p_ret x).
Proof. intros H i i' y E. unfold p_ret in E. congruence. Qed.
Lemma y_bind {X Y} (P : X -> Prop) (Q : Y -> Prop) p f : yields P p -> (forall x, P x -> yields Q (f x)) -> yields Q (p_bind p f).
Proof.
  intros Hp Hf i i' y E. unfold p_bind in E. apply bind_ret_inv in E as (r & E1 & E). destruct r as [i1 x| |]; [|discriminate|discriminate].
  exact (Hf x (Hp _ _ _ E1) _ _ _ E).
Qed.
Lemma y_map {X Y} (P : X -> Prop) (Q : Y -> Prop) p f : yields P p -> (forall x y, P x -> f x = Ret y -> Q y) -> yields Q (p_map p f).
Proof.
  intros Hp Hf i i' y E. unfold p_map in E. apply bind_ret_inv in E as (r & E1 & E). destruct r as [i1 x| |]; [|discriminate|discriminate].
  apply bind_ret_inv in E as (y' & E2 & E). injection E as _ ->. exact (Hf x y (Hp _ _ _ E1) E2).
Qed.
Lemma y_alt {X} (P : X -> Prop) p q : yields P p -> yields P q -> yields P (p_alt p q).
Proof.
  intros Hp Hq i i' y E. unfold p_alt in E. apply bind_ret_inv in E as (r & E1 & E). destruct r as [i1 x| |]; [|exact (Hq _ _ _ E)|discriminate].
  injection E as -> ->. exact (Hp _ _ _ E1).
Qed.
Lemma y_sep_loop {X} (P : X -> Prop) sep (p : parser X) fuel : yields P p -> forall res i i' l, Forall P res ->
  sep_loop fuel sep p res i = Ret (POk i' l) -> Forall P l.
Proof.
  intros Hp. induction fuel as [|fuel IH]; intros res i i' l Hr E; [discriminate|]. cbn [sep_loop] in E.
  apply bind_ret_inv in E as (s & _ & E). destruct s as [i1 []| |]; [|injection E as _ <-; exact Hr|discriminate].
  apply bind_ret_inv in E as (r & E1 & E). destruct r as [i2 x| |]; [|injection E as _ <-; exact Hr|discriminate].
  apply (IH _ _ _ _ (Forall_app_2 _ _ _ Hr (Forall_cons_2 _ _ _ (Hp _ _ _ E1) (Forall_nil_2 _))) E).
Qed.
Lemma y_separated {X} (P : X -> Prop) sep (p : parser X) : yields P p -> yields (Forall P) (separated_list0 sep p).
Proof.
  intros Hp i i' l E. unfold separated_list0 in E. apply bind_ret_inv in E as (r & E1 & E).
  destruct r as [i1 x| |]; [|injection E as _ <-; constructor|discriminate].
  eapply (y_sep_loop P); [exact Hp| |exact E]. constructor; [exact (Hp _ _ _ E1)|constructor].
Qed.

(** every material named in a file is a known one *)
Definition known_item (it : @pitem A) : Prop := match it with IMaterial m => material_from_str (m_name m) = Some m | _ => True end.
Lemma known_material s (m : material A) : material_from_str s = Some m -> material_from_str (m_name m) = Some m.
Proof. unfold material_from_str. destruct (String.eqb s "AL6061"); [now injection 1 as <-|]. destruct (String.eqb s "TEST"); [now injection 1 as <-|discriminate]. Qed.
Lemma item_known : yields known_item (item_parser nf).
Proof.
  unfold item_parser. repeat apply y_alt.
  - unfold polygon_item, delimited. eapply y_bind; [apply y_any|]. intros _ _. eapply (y_bind known_item).
    + eapply y_map; [apply y_any|]. intros vs y _ H. injection H as <-. exact I.
    + intros it Hit. eapply y_bind; [apply y_any|]. intros _ _. now apply y_ret.
  - eapply y_map; [apply y_any|]. intros vs y _ H. injection H as <-. exact I.
  - eapply y_map; [apply y_any|]. intros vs y _ H. injection H as <-. exact I.
  - eapply y_map; [apply y_any|]. intros vs y _ H. injection H as <-. exact I.
  - unfold material_item. eapply y_map; [apply y_any|]. intros s y _ H. apply bind_ret_inv in H as (m & E & H). injection H as <-.
    cbn. destruct (material_from_str (string_of_list_ascii s)) as [m'|] eqn:Em; [|discriminate]. injection E as <-. exact (known_material _ _ Em).
  - unfold force_item, preceded. repeat (eapply y_bind; [apply y_any|]; intros ? _). apply y_ret. exact I.
  - unfold constraint_item. eapply y_map; [apply y_any|]. intros s y _ H. apply bind_ret_inv in H as (c & E & H). injection H as <-. exact I.
Qed.

Lemma built_op b polys o b' polys' : bd_built g b polys -> bd_step g o (b, polys) = Ret (b', polys') -> bd_built g b' polys'.
Proof. intros (pts & ops & E) Es. exists pts, (ops ++ [o]). rewrite foldM_app, E. cbn [mbind out_bind foldM]. rewrite Es. reflexivity. Qed.
Lemma store_polygon_mat (b : bound A) poly r : store_polygon g b poly = Ret r -> b_mat r.1 = b_mat b.
Proof.
  unfold store_polygon. destruct poly as [|p poly]; [discriminate|]. cbn [store_vertex vertex_new]. cbv zeta.
  intros E. apply bind_ret_inv in E as ([[b1 prev] ids] & E1 & E). apply bind_ret_inv in E as (b2 & E2 & E). injection E as <-. cbn [fst].
  assert (Hs : forall b s b', store_base_segment g b s = Ret b' -> b_mat b' = b_mat b).
  { intros c s c' H. unfold store_base_segment in H. destruct (intersects _ _ _ _ _); [discriminate|]. injection H as <-. reflexivity. }
  rewrite (Hs _ _ _ E2). refine (foldM_ok _ (fun x : bound A * vertex * list vertex => b_mat x.1.1 = b_mat b) _ _ _ _ _ E1); [|reflexivity].
  intros q [[c v] l] s' Hc H. cbn in H. apply bind_ret_inv in H as (c' & H1 & H). injection H as <-. cbn [fst] in *. rewrite (Hs _ _ _ H1). exact Hc.
Qed.
Lemma bbnd_built t b : bbnd_to_bounds nf g t = Ret (Ok b) ->
  (exists polys, bd_built g b polys) /\ forall m, b_mat b = Some m -> material_from_str (m_name m) = Some m.
Proof.
  unfold bbnd_to_bounds. intros E. apply bind_ret_inv in E as (p & Ep & E). destruct p as [items|]; [|discriminate].
  apply bind_ret_inv in E as (st & E1 & E).
  assert (Hk : Forall known_item items).
  { unfold parse_bbnd in Ep. apply bind_ret_inv in Ep as (r & Er & Ep). injection Ep as Ep.
    destruct r as [[|] l| |]; try discriminate. injection Ep as <-. exact (y_separated _ _ _ item_known _ _ _ Er). }
  assert (H1 : (exists polys, bd_built g st.1 polys) /\ b_mat st.1 = None).
  { refine (foldM_ok _ (fun st : bound A * gmap text vertex => (exists polys, bd_built g st.1 polys) /\ b_mat st.1 = None) _ _ _ _ _ E1).
    - intros it s s' [[polys Hb] Hm] H. destruct it as [vs| | | |]; try (injection H as <-; eauto; fail).
      apply bind_ret_inv in H as (r & Er & H). injection H as <-. cbn [fst]. split.
      + exists (polys ++ [r.2]). apply (built_op _ _ (DPoly (map fst vs)) _ _ Hb). cbn. rewrite Er. reflexivity.
      + now rewrite (store_polygon_mat _ _ _ Er).
    - split; [|reflexivity]. exists [], [], []. reflexivity. }
  destruct H1 as [Hb Hm]. destruct (second_pass st.2 items st.1) as [b'|] eqn:E2; [|discriminate]. injection E as ->.
  assert (Hg : forall m, b_mat st.1 = Some m -> material_from_str (m_name m) = Some m) by (rewrite Hm; discriminate).
  clear E1 Ep Hm. revert E2 Hb Hg. generalize (st.1). induction Hk as [|it items Hit Hk IH]; intros b0 E2 [polys Hb] Hg; cbn [second_pass] in E2.
  - injection E2 as <-. eauto.
  - destruct (apply_item st.2 it b0) as [b1|] eqn:Ea; [|discriminate]. apply (IH b1 E2).
    + destruct it as [vs|c|m|l1 l2 x y|l1 l2 c]; cbn in Ea.
      * injection Ea as <-. eauto.
      * injection Ea as <-. exists polys. now apply (built_op _ _ (DCond c) _ _ Hb).
      * injection Ea as <-. exists polys. now apply (built_op _ _ (DMat m) _ _ Hb).
      * destruct (st.2 !! l1) as [v|]; [|discriminate]. destruct (st.2 !! l2) as [w|]; [|discriminate]. injection Ea as <-.
        exists polys. now apply (built_op _ _ (DForce v w (pt2 x y)) _ _ Hb).
      * destruct (st.2 !! l1) as [v|]; [|discriminate]. destruct (st.2 !! l2) as [w|]; [|discriminate]. injection Ea as <-.
        exists polys. now apply (built_op _ _ (DDcons v w c) _ _ Hb).
    + destruct it as [vs|c|m|l1 l2 x y|l1 l2 c]; cbn in Ea; try (injection Ea as <-; exact Hg).
      * injection Ea as <-. cbn. intros m' [= <-]. exact Hit.
      * destruct (st.2 !! l1) as [v|]; [|discriminate]. destruct (st.2 !! l2) as [w|]; [|discriminate]. injection Ea as <-. exact Hg.
      * destruct (st.2 !! l1) as [v|]; [|discriminate]. destruct (st.2 !! l2) as [w|]; [|discriminate]. injection Ea as <-. exact Hg.
Qed.
End bnd.

(** *** what the mesh command saves *)
(** every traversal visits each element of its map once *)
Record hashes_ok {A : arith} (h : hashes A) : Prop := {
  ho_k : oracle_ok (h_k h);
  ho_sys : oracle_ok (h_sys h);
  ho_conc : forall m, h_conc h m ≡ₚ map_to_list m;
  ho_line : forall m, h_line h m ≡ₚ map_to_list m;
  ho_pick : pick_ok (h_pick h);
  ho_order : order_ok (h_order h);
  ho_segs : forall X, h_segs h X ≡ₚ elements X;
  ho_full : forall m, h_full h m ≡ₚ (map_to_list m).*1;
  ho_dcons : forall m, h_dcons h m ≡ₚ (map_to_list m).*1;
  ho_cons : forall m, h_cons h m ≡ₚ (map_to_list m).*1;
  ho_forces : forall m, h_forces h m ≡ₚ (map_to_list m).*1;
  ho_keys : forall m, h_keys h m ≡ₚ (map_to_list m).*1;
  ho_drain : forall X, h_drain h X ≡ₚ elements X }.

(** the numbers of an assemblage satisfy [fin]; there are fewer things than a usize counts *)
Definition finite_numbers {A : arith} (fin : A -> Prop) (a : elas A) : Prop :=
  match ea_cond a with PlaneStrain t | PlaneStress t => fin t | Axisymmetric => True end /\
  (forall p, p ∈ ea_nodes a -> fin (p_x p) /\ fin (p_y p)) /\
  (forall t, AngleFixed t ∈ ea_cons a -> fin t) /\
  (forall nm f, ea_line a !! nm = Some f -> fin (p_x f) /\ fin (p_y f)).
Definition countable_size {A : arith} (a : elas A) : Prop :=
  (N.of_nat (length (ea_nodes a)) < 2 ^ 64 /\ N.of_nat (length (ea_elems a)) < 2 ^ 64 /\ N.of_nat (size (ea_line a)) < 2 ^ 64)%N.

Section save.
Context {A : arith} (nf : numfmt A) (ra : raster A) (g : geo A).
Lemma foldM_each {B T} (f : B -> T -> out T) l : forall s s', foldM f l s = Ret s' -> forall x, x ∈ l -> exists s1 s2, f x s1 = Ret s2.
Proof.
  induction l as [|y l IH]; intros s s' E x Hx; [now apply elem_of_nil in Hx|]. cbn [foldM] in E. apply bind_ret_inv in E as (s1 & E1 & E).
  apply elem_of_cons in Hx as [->|Hx]; [eauto|]. exact (IH _ _ E x Hx).
Qed.
Lemma coord_text_dim k (p : point A) t : coord_text nf k p = Ret t -> 2 <= p_n p.
Proof.
  unfold coord_text. intros E. apply bind_ret_inv in E as (x & _ & E). apply bind_ret_inv in E as (y & E & _). unfold pt_idx in E.
  destruct (p_n p <=? 1) eqn:H; [discriminate|]. apply Nat.leb_gt in H. lia.
Qed.
Lemma written_dims oc ol (a : elas A) t : elas_to_bmsh nf oc ol a = Ret t -> forall nm f, (nm, f) ∈ ol -> 2 <= p_n f.
Proof.
  unfold elas_to_bmsh. cbv zeta. intros E nm f Hin. apply bind_ret_inv in E as (r1 & _ & E). apply bind_ret_inv in E as (r2 & _ & E).
  apply bind_ret_inv in E as (r3 & E3 & _). destruct (foldM_each _ _ _ _ E3 _ Hin) as (s1 & s2 & E).
  apply bind_ret_inv in E as (c & Ec & _). exact (coord_text_dim _ _ _ Ec).
Qed.

Lemma mesh_run w h fuel ar l : hashes_ok h -> Cli.mesh nf ra g w h fuel ar = (l, Ret (Ok tt)) ->
  exists path file b polys size st a size' im t,
    ar "INPUT"%string = Some path /\ extension path = Some (txt "bbnd") /\ w_read w path = Some file /\
    bbnd_to_bounds nf g file = Ret (Ok b) /\ bd_built g b polys /\ mesher g h fuel size (ar "mesher"%string) (pl_new b) = Some (Ret st) /\
    mesh_state g st /\ assemble_of h st = Ret (Some a) /\ ea_built a /\
    elas_to_bmsh nf (h_conc h (ea_conc a)) (h_line h (ea_line a)) a = Ret t /\
    l = [SavedImage (default (txt "out.png") (ar "imageout"%string)) size' im; SavedFile (default (txt "out.bmsh") (ar "meshout"%string)) t] /\
    forall fin, finite_numbers fin a -> countable_size a -> writable fin a.
Proof.
  intros Hh E. apply CliProofs.mesh_ok in E as (path & b & s & size & m & st & vis & isz & im & a & t & H1 & H2 & H3 & H4 & H5 & -> & H7 & H8 & H9 & H10 & H11 & ->).
  destruct (read_to_bound_ext _ _ _ _ _ H2) as (He & file & Hf & Hb). destruct (bbnd_built nf g file b Hb) as [[polys Hbt] Hmat].
  pose proof (mesher_state g h fuel size _ b polys _ st Hbt (ho_pick _ Hh) H5 eq_refl) as Hst.
  pose proof (mesher_mat g h fuel size _ b _ st H5 eq_refl) as Hm.
  pose proof (assemble_built _ _ _ _ _ _ H10) as Hea.
  exists path, file, b, polys, size, st, a, (Z.of_N isz), im, t. repeat (split; [assumption|]). split; [reflexivity|].
  intros fin (F1 & F2 & F3 & F4) (S1 & S2 & S3).
  destruct (C71_lemma g st _ _ _ _ a Hst (ho_full _ Hh _) (ho_dcons _ Hh _) (ho_cons _ Hh _) (ho_forces _ Hh _) H10)
    as (Hn & _ & _ & Hma & _ & _ & _ & Hc & Hl).
  assert (Hpt : forall p, p ∈ ea_nodes a -> 2 <= p_n p).
  { intros p Hp. rewrite Hn in Hp. apply elem_of_list_fmap in Hp as (v & -> & _). cbn. lia. }
  constructor.
  - apply Hmat. congruence.
  - exact F1.
  - apply Forall_forall. intros p Hp. destruct (F2 p Hp). split; [exact (Hpt p Hp)|auto].
  - apply Forall_forall. intros c Hin. destruct c; try exact I. now apply F3.
  - rewrite Hc. apply map_Forall_empty.
  - intros [i j] f Hf'. cbn [fst snd]. pose proof (proj1 (Hl i j f) Hf') as (u & v & Hu & Hv & _).
    rewrite Hn, map_length. split; [exact (lookup_lt_Some _ _ _ Hu)|]. split; [exact (lookup_lt_Some _ _ _ Hv)|].
    destruct (F4 _ _ Hf'). split; [|auto]. apply (written_dims _ _ _ _ H11 (i, j) f). rewrite (ho_line _ Hh). now apply elem_of_map_to_list.
  - rewrite Hc, map_size_empty. repeat split; assumption.
Qed.

(** reading the saved file back *)
Lemma mesh_reads w h fuel ar l fin (ok : numfmt_ok nf fin) : hashes_ok h -> Cli.mesh nf ra g w h fuel ar = (l, Ret (Ok tt)) ->
  exists st a t, mesh_state g st /\ assemble_of h st = Ret (Some a) /\ ea_built a /\
    last l = Some (SavedFile (default (txt "out.bmsh") (ar "meshout"%string)) t) /\
    (finite_numbers fin a -> countable_size a -> (forall e, e ∈ ea_elems a -> sound (rd_elem nf e)) ->
     extension (default (txt "out.bmsh") (ar "meshout"%string)) = Some (txt "bmsh") ->
     forall w', w_read w' (default (txt "out.bmsh") (ar "meshout"%string)) = Some t ->
       read_to_elas nf w' (default (txt "out.bmsh") (ar "meshout"%string)) = Ret (Ok (read_back nf a))).
Proof.
  intros Hh E. destruct (mesh_run w h fuel ar l Hh E) as (path & file & b & polys & size & st & a & sz' & im & t & _ & _ & _ & _ & _ & _ & Hst & Ha & Hb & Ht & -> & Hw).
  exists st, a, t. repeat (split; [assumption|]). split; [reflexivity|]. intros Hf Hs Hso He w' Hr.
  destruct (FileTop.round_trip nf fin ok _ _ a (ea_built_ok _ Hb) (Hw fin Hf Hs) (ho_conc _ Hh _) (ho_line _ Hh _) Hso) as (t' & Et & Er).
  assert (t' = t) as -> by congruence. unfold read_to_elas. rewrite He, Hr, bool_decide_eq_true_2 by reflexivity. rewrite Er. reflexivity.
Qed.
End save.
