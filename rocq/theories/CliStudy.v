(** The numbers printed by the linear and modal studies. *)
From Coq Require Import Ascii String.
From Verif Require Import StudyProofs FileText AssemProofs EigSearch CliProofs CliMesh.
From Verif Require Import Cli.
Local Close Scope string_scope.
Local Open Scope nat_scope.
Local Open Scope list_scope.

(** *** writing at fixed places *)
Section writes.
Context {X : Type}.
Definition writes (ws : list (nat * X)) (res : list X) : out (list X) := foldM (fun iv res => set res iv.1 iv.2) ws res.
Definition put (res : list X) (iv : nat * X) : list X := <[iv.1 := iv.2]> res.

Lemma set_ok (res : list X) i v r : set res i v = Ret r -> i < length res /\ r = <[i := v]> res.
Proof. unfold set. destruct (res !! i) eqn:E; [|discriminate]. intros [= <-]. split; [exact (lookup_lt_Some _ _ _ E)|reflexivity]. Qed.
Lemma set_at (res : list X) i v : i < length res -> set res i v = Ret (<[i := v]> res).
Proof. intros H. unfold set. destruct (lookup_lt_is_Some_2 res i H) as [x ->]. reflexivity. Qed.
Lemma put_length res ws : length (fold_left put ws res) = length res.
Proof. revert res. induction ws as [|iv ws IH]; intros res; [reflexivity|]. cbn [fold_left]. rewrite IH. apply insert_length. Qed.
Lemma writes_ok ws : forall res r, writes ws res = Ret r -> (forall iv, iv ∈ ws -> iv.1 < length res) /\ r = fold_left put ws res.
Proof.
  unfold writes. induction ws as [|iv ws IH]; intros res r E; cbn [foldM] in E.
  - injection E as <-. split; [intros iv H; now apply elem_of_nil in H|reflexivity].
  - apply bind_ret_inv in E as (r1 & E1 & E). apply set_ok in E1 as [Hi ->]. apply IH in E as [Hr ->]. rewrite insert_length in Hr.
    split; [|reflexivity]. intros jv Hj. apply elem_of_cons in Hj as [->|Hj]; auto.
Qed.
Lemma writes_at ws : forall res, (forall iv, iv ∈ ws -> iv.1 < length res) -> writes ws res = Ret (fold_left put ws res).
Proof.
  unfold writes. induction ws as [|iv ws IH]; intros res H; [reflexivity|]. cbn [foldM fold_left].
  rewrite set_at by (apply H; left). cbn [mbind out_bind]. apply (IH (<[iv.1 := iv.2]> res)). intros jv Hj. rewrite insert_length. apply H. now right.
Qed.
Lemma put_comm ws iv : (forall jv, jv ∈ ws -> jv.1 <> iv.1) -> forall res, fold_left put ws (put res iv) = put (fold_left put ws res) iv.
Proof.
  induction ws as [|jv ws IH]; intros H res; [reflexivity|]. cbn [fold_left].
  replace (put (put res iv) jv) with (put (put res jv) iv); [apply IH; intros kv Hk; apply H; now right|].
  unfold put. apply list_insert_commute. intros E. apply (H jv); [left|]. now symmetry.
Qed.
Lemma puts_comm ws vs : (forall iv jv, iv ∈ ws -> jv ∈ vs -> iv.1 <> jv.1) ->
  forall res, fold_left put vs (fold_left put ws res) = fold_left put ws (fold_left put vs res).
Proof.
  revert vs. induction ws as [|iv ws IH]; intros vs H res; [reflexivity|]. cbn [fold_left].
  rewrite IH by (intros jv kv Hj Hk; apply H; [now right|exact Hk]). f_equal. apply put_comm. intros jv Hj E. apply (H iv jv); [left|exact Hj|now symmetry].
Qed.

(** whenever [f] succeeds it only writes fixed values at places in [F] *)
Definition plan (F : nat -> Prop) (f : list X -> out (list X)) : Prop := forall res r, f res = Ret r ->
  exists ws, (forall iv, iv ∈ ws -> F iv.1) /\ forall res, f res = writes ws res.
Lemma writes_app ws vs res : writes (ws ++ vs) res = (r ← writes ws res; writes vs r).
Proof. unfold writes. apply foldM_app. Qed.
Lemma plan_set (F : nat -> Prop) i v : F i -> plan F (fun res => set res i v).
Proof.
  intros H res r _. exists [(i, v)]. split; [intros iv Hi; apply elem_of_list_singleton in Hi as ->; exact H|].
  intros res'. unfold writes. cbn [foldM fst snd]. destruct (set res' i v); reflexivity.
Qed.
Lemma plan_ret F : plan F (fun res => Ret res).
Proof. intros res r _. exists []. split; [intros iv H; now apply elem_of_nil in H|reflexivity]. Qed.
Lemma plan_bind {Y} F (m : out Y) k : (forall y, m = Ret y -> plan F (k y)) -> plan F (fun res => y ← m; k y res).
Proof.
  intros H res r E. apply bind_ret_inv in E as (y & E1 & E). destruct (H y E1 res r E) as (ws & H1 & H2).
  exists ws. split; [exact H1|]. intros res'. rewrite E1. apply H2.
Qed.
Lemma plan_foldM {Y} F (f : Y -> list X -> out (list X)) l : (forall y, y ∈ l -> plan F (f y)) -> plan F (foldM f l).
Proof.
  induction l as [|y l IH]; intros H res r E; cbn [foldM] in E.
  - exists []. split; [intros iv Hi; now apply elem_of_nil in Hi|reflexivity].
  - apply bind_ret_inv in E as (r1 & E1 & E). destruct (H y ltac:(left) _ _ E1) as (ws & W1 & W2).
    destruct (IH (fun z Hz => H z (elem_of_list_further _ _ _ Hz)) _ _ E) as (vs & V1 & V2).
    exists (ws ++ vs). split; [intros iv Hi; apply elem_of_app in Hi as [Hi|Hi]; auto|].
    intros res'. cbn [foldM]. rewrite writes_app, W2. destruct (writes ws res'); cbn; [apply V2|reflexivity..].
Qed.
Lemma plan_comm F G f h : plan F f -> plan G h -> (forall i, F i -> ~ G i) ->
  forall res r, (s ← f res; h s) = Ret r -> (s ← h res; f s) = Ret r.
Proof.
  intros Pf Ph Hd res r E. apply bind_ret_inv in E as (s & E1 & E2). destruct (Pf _ _ E1) as (ws & W1 & W2). destruct (Ph _ _ E2) as (vs & V1 & V2).
  rewrite W2 in E1. rewrite V2 in E2. apply writes_ok in E1 as [B1 ->]. apply writes_ok in E2 as [B2 ->]. rewrite put_length in B2.
  rewrite V2, (writes_at vs res B2). cbn [mbind out_bind]. rewrite W2, writes_at by (intros iv Hi; rewrite put_length; auto).
  f_equal. symmetry. apply puts_comm. intros iv jv Hi Hj E. apply (Hd iv.1); [auto|]. rewrite E. auto.
Qed.
End writes.

(** steps that commute can be done in any order *)
Lemma foldM_perm {Y T} (f : Y -> T -> out T) l l' : l ≡ₚ l' ->
  (forall x y s s', x ∈ l -> y ∈ l -> x <> y -> (s1 ← f x s; f y s1) = Ret s' -> (s1 ← f y s; f x s1) = Ret s') -> NoDup l ->
  forall s s', foldM f l s = Ret s' -> foldM f l' s = Ret s'.
Proof.
  induction 1 as [|x l l' HP IH|x y l|l1 l2 l3 HP1 IH1 HP2 IH2]; intros Hc Hn s s' E.
  - exact E.
  - cbn [foldM] in *. apply NoDup_cons in Hn as [_ Hn]. apply bind_ret_inv in E as (s1 & E1 & E). rewrite E1. cbn [mbind out_bind].
    apply IH; [|exact Hn|exact E]. intros u v t t' Hu Hv. apply Hc; now right.
  - cbn [foldM] in *. apply NoDup_cons in Hn as [Hx _].
    apply bind_ret_inv in E as (s1 & E1 & E). apply bind_ret_inv in E as (s2 & E2 & E).
    assert (E' : (s1 ← f x s; f y s1) = Ret s2).
    { apply (Hc y x); [left|right; left| |]; [|rewrite E1; exact E2]. intros ->. apply Hx. left. }
    apply bind_ret_inv in E' as (s3 & E3 & E4). rewrite E3. cbn [mbind out_bind]. rewrite E4. exact E.
  - apply IH2; [|rewrite <- HP1; exact Hn|]; [|apply IH1; assumption].
    intros u v t t' Hu Hv. apply Hc; rewrite HP1; assumption.
Qed.

Section load.
Context {A : arith}.
(** two loaded edges never belong to elements with a common node *)
Definition apart (a : elas A) : Prop := forall nm nm', is_Some (ea_line a !! nm) -> is_Some (ea_line a !! nm') -> nm <> nm' ->
  forall e e', e ∈ ea_elems a -> e' ∈ ea_elems a -> nodes_connect e nm.1 nm.2 = true -> nodes_connect e' nm'.1 nm'.2 = true ->
  forall i, i ∈ e_id_list e -> i ∉ e_id_list e'.

Lemma conc_plan n (f : point A) : plan (fun i => i = n * 2 \/ i = n * 2 + 1) (conc_step (n, f)).
Proof.
  unfold conc_step. apply plan_foldM. intros d Hd. apply plan_bind. intros v _. apply plan_set.
  unfold range in Hd. apply elem_of_seq in Hd. unfold to_dof. cbn [fst snd]. lia.
Qed.
Lemma map_vec_nodes (e : element A) v l : map_vec e v = Ret l -> forall iv, iv ∈ l -> iv.1.1 ∈ e_id_list e /\ iv.1.2 < 2.
Proof.
  unfold map_vec. intros E iv Hin. apply mapM_out_inv in E as [Hl H]. apply elem_of_list_lookup in Hin as [k Hk].
  destruct (lookup_lt_is_Some_2 (imap pair v) k) as [x Hx]; [rewrite <- Hl; exact (lookup_lt_Some _ _ _ Hk)|].
  destruct (H k x Hx) as (y & Ey & Hy). assert (y = iv) as -> by congruence.
  apply bind_ret_inv in Ey as (p & Ep & Ey). injection Ey as <-. cbn [fst]. unfold map_dof in Ep.
  apply bind_ret_inv in Ep as (m & Em & Ep). injection Ep as <-. cbn [fst snd]. split.
  - unfold idx in Em. destruct (e_id_list e !! (x.1 / 2)) eqn:Eq; [|discriminate]. injection Em as ->. exact (elem_of_list_lookup_2 _ _ _ Eq).
  - apply Nat.mod_upper_bound. lia.
Qed.
Lemma line_plan (els : list (element A)) nm f :
  plan (fun i => exists e, e ∈ els /\ nodes_connect e nm.1 nm.2 = true /\ i / 2 ∈ e_id_list e) (line_step els (nm, f)).
Proof.
  unfold line_step. apply plan_foldM. intros e He. cbn [fst snd]. destruct (nodes_connect e nm.1 nm.2) eqn:Hc; [|apply plan_ret].
  apply plan_bind. intros o Ho. apply plan_bind. intros l Hl. apply plan_foldM. intros iv Hiv. apply plan_set.
  exists e. split; [exact He|]. split; [exact Hc|]. destruct o as [l'|]; [|discriminate]. injection Hl as ->.
  unfold int_f_l in Ho. rewrite Hc in Ho. cbn [negb] in Ho. repeat (apply bind_ret_inv in Ho as (? & ? & Ho)). injection Ho as <-.
  match goal with H : map_vec e _ = Ret _ |- _ => destruct (map_vec_nodes e _ _ H iv Hiv) as [I1 I2] end.
  unfold to_dof. replace ((iv.1.1 * 2 + iv.1.2) / 2) with (iv.1.1); [exact I1|].
  apply (Nat.div_unique _ _ _ iv.1.2); lia.
Qed.

Lemma load_order (a : elas A) oc oc' ol ol' : oc ≡ₚ map_to_list (ea_conc a) -> oc' ≡ₚ map_to_list (ea_conc a) ->
  ol ≡ₚ map_to_list (ea_line a) -> ol' ≡ₚ map_to_list (ea_line a) -> apart a ->
  forall r, calc_load a oc ol = Ret r -> calc_load a oc' ol' = Ret r.
Proof.
  intros C1 C2 L1 L2 Hap r E. unfold calc_load in *. apply bind_ret_inv in E as (res & E1 & E2).
  rewrite (foldM_perm conc_step oc oc') with (s' := res).
  - cbn [mbind out_bind]. apply (foldM_perm _ ol ol'); [now rewrite L1, L2| | |exact E2].
    + intros [nm f] [nm' f'] s s' Hx Hy Hne. rewrite L1 in Hx, Hy. apply elem_of_map_to_list in Hx, Hy.
      apply (plan_comm _ _ _ _ (line_plan _ nm f) (line_plan _ nm' f')).
      intros i (e & He & Hc & Hi) (e' & He' & Hc' & Hi').
      refine (Hap nm nm' _ _ _ e e' He He' Hc Hc' _ Hi Hi'); [eauto|eauto|]. intros ->. apply Hne. congruence.
    + rewrite L1. apply NoDup_map_to_list.
  - now rewrite C1, C2.
  - intros [n f] [m f'] s s' Hx Hy Hne. rewrite C1 in Hx, Hy. apply elem_of_map_to_list in Hx, Hy.
    apply (plan_comm _ _ _ _ (conc_plan n f) (conc_plan m f')). intros i Hi Hi'. apply Hne.
    assert (n = m) as -> by lia. congruence.
  - rewrite C1. apply NoDup_map_to_list.
  - exact E1.
Qed.

(** *** greatest elements *)
Lemma max_in (l : list A) m : Visual.max_by l = Ret m -> m ∈ l.
Proof.
  destruct l as [|x l]; [discriminate|]. cbn [Visual.max_by]. revert x. induction l as [|y l IH]; intros x E; cbn [foldM] in E.
  - injection E as <-. left.
  - apply bind_ret_inv in E as (z & Ez & E). apply bind_ret_inv in Ez as (c & _ & Ez). injection Ez as <-.
    specialize (IH _ E). destruct c; [right; exact IH..|]. apply elem_of_cons in IH as [->|IH]; [left|right; now right].
Qed.
Lemma max_ge (OL : ord_laws A) (l : list A) m : Visual.max_by l = Ret m -> forall x, x ∈ l -> les x m.
Proof.
  destruct l as [|x l]; [discriminate|]. cbn [Visual.max_by].
  enough (K : forall l x, foldM (fun y m => c ← unwrap (scmp m y); Ret (match c with Gt => m | _ => y end)) l x = Ret m ->
    forall y, y ∈ x :: l -> les y m) by apply K.
  clear x l. induction l as [|y l IH]; intros x E; cbn [foldM] in E.
  - injection E as <-. intros y Hy. apply elem_of_list_singleton in Hy as ->. apply (les_refl OL).
  - apply bind_ret_inv in E as (z & Ez & E). destruct (scmp_spec OL x y) as (c & Ec & Hc). rewrite Ec in Ez. cbn [unwrap mbind out_bind] in Ez.
    injection Ez as <-. pose proof (IH _ E) as IH'.
    assert (Hz : les x (match c with Gt => x | _ => y end) /\ les y (match c with Gt => x | _ => y end)).
    { destruct c; (split; [|]); subst; try apply (les_refl OL); now apply (lts_les OL). }
    pose proof (IH' _ (elem_of_list_here _ _)) as Hm. destruct Hz as [Z1 Z2].
    intros w Hw. apply elem_of_cons in Hw as [->|Hw]; [exact (les_trans OL _ _ _ Z1 Hm)|].
    apply elem_of_cons in Hw as [->|Hw]; [exact (les_trans OL _ _ _ Z2 Hm)|]. apply IH'. now right.
Qed.
End load.

Section linear.
Context {A : arith} (nf : numfmt A) (ra : raster A) (OL : ord_laws A).
Let FL : field_laws A := ol_field A OL.
Context (Trig : forall th : A, sadd (smul (scos th) (scos th)) (smul (ssin th) (ssin th)) = s1).

(** the reduced stiffness matrix of an assemblage has no zero pivot *)
Definition reduced_pivots (ho : hash_oracle A) (a : elas A) : Prop := forall K t Kb n,
  ea_calc_k a = Ret K -> from_constraints (ea_cons a) = Ret t -> bar_matrix ho 0 t K = Ret Kb -> d_shape Kb = (n, n) ->
  pivots_nonzero n (el Kb).
(** every displacement its supports allow stores energy *)
Definition held (a : elas A) : Prop := forall K, ea_calc_k a = Ret K -> stable (node_count a * 2) (el K) (ea_cons a).

(** the method a solver name selects applies *)
Definition applies (h : hashes A) (name : option text) (a : elas A) : Prop :=
  (default (txt "densegauss") name = txt "densegauss" /\ reduced_pivots (h_k h) a) \/
  (default (txt "densegauss") name = txt "cholesky" /\ sqrt_law A /\ held a).

Lemma solver_dense h name solver : solver_of h name = Some solver -> default (txt "densegauss") name = txt "densegauss" -> solver = @dense_gauss A.
Proof. destruct name as [s|]; cbn; [|congruence]. intros E ->. rewrite bool_decide_eq_true_2 in E by reflexivity. congruence. Qed.
Lemma solver_cholesky (h : hashes A) name solver : solver_of h name = Some solver -> default (txt "densegauss") name = txt "cholesky" -> solver = cholesky_solver (h_sys h).
Proof.
  destruct name as [s|]; cbn; [|discriminate]. intros E ->. rewrite bool_decide_eq_false_2 in E by discriminate.
  rewrite bool_decide_eq_true_2 in E by reflexivity. congruence.
Qed.

(** the only field in equilibrium *)
Definition the_solution (a : elas A) (oc : list (nat * point A)) (ol : list (nat * nat * point A)) (disp : list (point A)) : Prop :=
  exists K r, ea_calc_k a = Ret K /\ calc_load a oc ol = Ret r /\ length disp = node_count a /\ respects (ea_cons a) (flat_disp disp) /\
    forall u, respects (ea_cons a) u ->
      (in_equilibrium (node_count a * 2) (el K) (vel r) (ea_cons a) u <-> forall i, i < node_count a * 2 -> u i = flat_disp disp i).

Lemma study_solution (h : hashes A) name a oc ol solver disp : hashes_ok h -> ea_ok a -> solver_of h name = Some solver -> applies h name a ->
  calc_displacements (h_k h) oc ol solver a = Ret disp -> the_solution a oc ol disp.
Proof.
  intros Hh Hok Hs Hap E. destruct (calc_disp_unique OL Trig a (h_k h) oc ol solver disp Hok (ho_k _ Hh) E)
    as (K & r & s & k & rv & raw & H1 & H2 & H3 & H4 & H5 & H6 & H7 & H8 & H10 & H11 & H12 & H13 & (t & Kb & T1 & T2 & T3 & T4 & _) & H15).
  exists K, r. repeat (split; [assumption|]). destruct Hap as [[Hn Hp]|(Hn & SQ & Hp)].
  - rewrite (solver_dense _ _ _ Hs Hn) in H3. pose proof (Hp K t Kb _ H1 T1 T2 T3) as Hp'.
    assert (Hpk : pivots_nonzero (sy_dofs s) (el k)).
    { destruct Hp' as (Ms & P1 & P2). exists Ms. split; [|exact P2]. intros x y Hx Hy. rewrite T4. auto. }
    destruct (dense_unique OL s k rv raw H4 H6 H7 H8 Hpk H3) as [U1 U2]. now apply H15.
  - rewrite (solver_cholesky _ _ _ Hs Hn) in H3.
    destruct (cholesky_unique OL SQ (h_sys h) s k rv raw (ho_sys _ Hh) H4 H5 H6 H7 H10 (H13 (Hp K H1)) H3) as [U1 U2]. now apply H15.
Qed.

(** displacements are planar *)
Lemma calc_disp_planar (a : elas A) ho oc ol solver disp : ea_ok a -> calc_displacements ho oc ol solver a = Ret disp ->
  exists u, disp = map (disp_of u) (seq 0 (node_count a)).
Proof.
  intros Hok E. unfold calc_displacements in E. repeat (apply bind_ret_inv in E as (? & _ & E)).
  match type of E with match ?x with _ => _ end = _ => destruct x as [raw|]; [|discriminate] end.
  destruct (disp_inv a raw disp) as (t & u & _ & _ & _ & _ & ->); [|exact E|]; [|eauto].
  apply Hok.
Qed.
Lemma solution_det (a : elas A) oc ol oc' ol' disp disp' u u' : the_solution a oc ol disp -> the_solution a oc' ol' disp' ->
  disp = map (disp_of u) (seq 0 (node_count a)) -> disp' = map (disp_of u') (seq 0 (node_count a)) ->
  (forall r, calc_load a oc ol = Ret r -> calc_load a oc' ol' = Ret r) -> disp = disp'.
Proof.
  intros (K & r & HK & Hr & Hl & Hc & Hu) (K' & r' & HK' & Hr' & Hl' & Hc' & Hu') Ed Ed' Hlo.
  assert (K' = K) as -> by congruence. apply Hlo in Hr. assert (r' = r) as -> by congruence.
  assert (Heq : forall i, i < node_count a * 2 -> flat_disp disp i = flat_disp disp' i).
  { apply (proj1 (Hu' (flat_disp disp) Hc)). apply (proj2 (Hu _ Hc)). reflexivity. }
  rewrite Ed, Ed' in *. apply map_ext_in. intros n Hn. apply in_seq in Hn. unfold disp_of.
  pose proof (Heq (n * 2) ltac:(lia)) as Q1. pose proof (Heq (n * 2 + 1) ltac:(lia)) as Q2.
  rewrite !flat_disp_of in Q1, Q2 by lia. congruence.
Qed.

(** what the linear command prints *)
Lemma linear_prints w h ar l : hashes_ok h -> Cli.linear nf ra w h ar = (l, Ret (Ok tt)) ->
  exists path file a disp vm size im max_vm max_d,
    ar "INPUT"%string = Some path /\ w_read w path = Some file /\ bmsh_to_elas nf file = Ret (Ok a) /\ ea_built a /\
    ea_von_mises a disp = Ret vm /\ length disp = node_count a /\
    l = [SavedImage (default (txt "out.png") (ar "out"%string)) size im; PrintMax max_vm max_d] /\
    max_vm ∈ vm /\ (forall x, x ∈ vm -> les x max_vm) /\
    max_d ∈ map pt_norm disp /\ (forall p, p ∈ disp -> les (pt_norm p) max_d) /\
    (applies h (ar "solver"%string) a -> the_solution a (h_conc h (ea_conc a)) (h_line h (ea_line a)) disp).
Proof.
  intros Hh E. apply linear_ok in E as (path & a & solver & disp & vm & max_vm & max_d & scale & vis & vals & nv & vis' & cm & size & show & im &
    H1 & H2 & H3 & H4 & H5 & H6 & H7 & _ & _ & _ & _ & _ & _ & _ & _ & _ & ->).
  apply read_to_elas_ext in H2 as (_ & file & Hf & Hb). pose proof (bmsh_built nf file a Hb) as Ha. pose proof (ea_built_ok a Ha) as Hok.
  exists path, file, a, disp, vm, (Z.of_N size), im, max_vm, max_d. repeat (split; [assumption|]). split.
  { destruct (calc_disp_planar _ _ _ _ _ _ Hok H4) as (u & ->). now rewrite map_length, seq_length. }
  split; [reflexivity|]. split; [exact (max_in _ _ H6)|]. split; [exact (max_ge OL _ _ H6)|].
  split; [exact (max_in _ _ H7)|]. split; [intros p Hp; apply (max_ge OL _ _ H7); now apply elem_of_list_fmap_1|].
  intros Hap. exact (study_solution h _ a _ _ solver disp Hh Hok H3 Hap H4).
Qed.

(** two runs on one file *)
Lemma linear_twice w h ar l h' ar' l' path file a : hashes_ok h -> hashes_ok h' ->
  ar "INPUT"%string = Some path -> ar' "INPUT"%string = Some path -> w_read w path = Some file -> bmsh_to_elas nf file = Ret (Ok a) ->
  applies h (ar "solver"%string) a -> applies h' (ar' "solver"%string) a -> apart a ->
  Cli.linear nf ra w h ar = (l, Ret (Ok tt)) -> Cli.linear nf ra w h' ar' = (l', Ret (Ok tt)) -> last l = last l'.
Proof.
  intros Hh Hh' Hi Hi' Hf Hb Hap Hap' Hsep E E'.
  apply linear_ok in E as (path1 & a1 & solver & disp & vm & max_vm & max_d & scale & vis & vals & nv & vis' & cm & size & show & im &
    H1 & H2 & H3 & H4 & H5 & H6 & H7 & _ & _ & _ & _ & _ & _ & _ & _ & _ & ->).
  apply linear_ok in E' as (path2 & a2 & solver' & disp' & vm' & max_vm' & max_d' & scale' & vis1 & vals' & nv' & vis1' & cm' & size' & show' & im' &
    G1 & G2 & G3 & G4 & G5 & G6 & G7 & _ & _ & _ & _ & _ & _ & _ & _ & _ & ->).
  assert (path1 = path) as -> by congruence. assert (path2 = path) as -> by congruence.
  apply read_to_elas_ext in H2 as (_ & f1 & Hf1 & Hb1). apply read_to_elas_ext in G2 as (_ & f2 & Hf2 & Hb2).
  assert (f1 = file) as -> by congruence. assert (f2 = file) as -> by congruence.
  assert (a1 = a) as -> by congruence. assert (a2 = a) as -> by congruence.
  pose proof (ea_built_ok a (bmsh_built nf file a Hb)) as Hok.
  pose proof (study_solution h _ a _ _ solver disp Hh Hok H3 Hap H4) as S1.
  pose proof (study_solution h' _ a _ _ solver' disp' Hh' Hok G3 Hap' G4) as S2.
  destruct (calc_disp_planar _ _ _ _ _ _ Hok H4) as (u & Eu). destruct (calc_disp_planar _ _ _ _ _ _ Hok G4) as (u' & Eu').
  assert (disp = disp') as ->.
  { apply (solution_det a _ _ _ _ disp disp' u u' S1 S2 Eu Eu'). intros r. apply load_order; [apply Hh|apply Hh'|apply Hh|apply Hh'|exact Hsep]. }
  assert (vm' = vm) as -> by congruence. cbn. congruence.
Qed.
End linear.

Section modal.
Context {A : arith} (nf : numfmt A) (ra : raster A).
Lemma find_loop_count fi fs n rnd : forall fl (s s' : searcher A), find_loop fl fi fs n rnd s = Ret s' -> n <= length (se_pairs s').
Proof.
  induction fl as [|fl IH]; intros s s' E; cbn [find_loop] in E; destruct (Nat.ltb_spec (length (se_pairs s)) n) as [Hlt|Hge];
    [discriminate|injection E as <-; exact Hge| |injection E as <-; exact Hge].
  apply bind_ret_inv in E as (s1 & _ & E). exact (IH _ _ E).
Qed.
(** one mode shape and frequency for each pair found *)
Lemma calc_modes_count (ho ho' : hash_oracle A) fl fi fs n rnd a dfms : calc_modes ho ho' fl fi fs n rnd a = Ret dfms ->
  exists t k kb m mb sys s s' ps, from_constraints (ea_cons a) = Ret t /\ ea_calc_k a = Ret k /\ bar_matrix ho 0 t k = Ret kb /\
    ea_calc_m a = Ret m /\ bar_matrix ho 6 t m = Ret mb /\ from_km (fun k => d_nzs (ho 12 (d_data k))) (fun m => d_nzs (ho 13 (d_data m))) kb mb = Ret sys /\
    eigen_new ho' sys = Ret s /\ find_eigens fl fi fs n rnd (searcher_new s) = Ret (s', ps) /\ length ps = n /\ length dfms = n /\
    forall i p, ps !! i = Some p -> exists d, raw_to_node_disp a (ep_vec p) = Ret d /\ dfms !! i = Some (d, ssqrt (ep_value p)).
Proof.
  intros E. unfold calc_modes in E. apply bind_ret_inv in E as (t & Et & E). apply bind_ret_inv in E as (k & Ek & E).
  apply bind_ret_inv in E as (kb & Ekb & E). apply bind_ret_inv in E as (m & Em & E). apply bind_ret_inv in E as (mb & Emb & E).
  apply bind_ret_inv in E as (sys & Es & E). apply bind_ret_inv in E as (es & Ees & E).
  apply bind_ret_inv in E as ([s' ps] & Ep & E). cbn [snd] in E. exists t, k, kb, m, mb, sys, es, s', ps. repeat (split; [assumption|]).
  assert (Hl : length ps = n).
  { unfold find_eigens in Ep. apply bind_ret_inv in Ep as (? & _ & Ep). apply bind_ret_inv in Ep as (s1 & E1 & Ep).
    apply bind_ret_inv in Ep as (l & El & Ep). injection Ep as <- <-. apply find_loop_count in E1.
    apply mapM_out_inv in El as [El _]. rewrite take_length. lia. }
  apply mapM_out_inv in E as [E1 E2]. split; [exact Hl|]. split; [congruence|]. intros i p Hp.
  destruct (E2 i p Hp) as (y & Ey & Hy). apply bind_ret_inv in Ey as (d & Ed & Ey). injection Ey as <-. eauto.
Qed.

Lemma dval_pad s : dval (pad2 s) = dval s.
Proof. unfold pad2. assert (K : forall k, dval (replicate k "0"%char ++ s) = dval s).
  { intros k. induction k as [|k IH]; [reflexivity|]. change (replicate (S k) "0"%char ++ s) with ("0"%char :: (replicate k "0"%char ++ s)). rewrite <- IH. reflexivity. }
  apply K.
Qed.
Lemma mode_path_inj i j : mode_path i = mode_path j -> i = j.
Proof.
  unfold mode_path. intros E. apply app_inv_head, app_inv_tail in E. apply (f_equal dval) in E. rewrite !dval_pad in E. unfold show_nat in E.
  rewrite !(proj2 (proj2 (show_N_spec _))) in E. lia.
Qed.
End modal.

(** *** option texts *)
Definition uint_text (top : N) (s : text) (n : N) : Prop := exists d, (s = d \/ s = "+"%char :: d) /\ d <> [] /\ digits d /\ dval d = n /\ (n < top)%N.
Lemma digits_val_none top s : fold_left (fun o c => match o with
                        | Some v => if is_digit c then
                                      let w := (v * 10 + (code c - 48))%N in if (w <? top)%N then Some w else None
                                    else None
                        | None => None
                        end) s None = None.
Proof. induction s as [|c s IH]; [reflexivity|exact IH]. Qed.
Lemma digits_val_spec top s n : s <> [] -> (digits_val top s = Some n <-> digits s /\ dval s = n /\ (n < top)%N).
Proof.
  unfold digits_val, dval, digits. intros Hs.
  enough (K : forall s v, (fold_left (fun o c => match o with
                        | Some v => if is_digit c then
                                      let w := (v * 10 + (code c - 48))%N in if (w <? top)%N then Some w else None
                                    else None
                        | None => None
                        end) s (Some v) = Some n) <->
      (Forall (fun c => is_digit c = true) s /\ fold_left (fun v c => (v * 10 + (code c - 48))%N) s v = n /\ (s = [] \/ (n < top)%N))).
  { rewrite K. intuition. }
  clear. induction s as [|c s IH]; intros v; cbn [fold_left].
  - split; [intros [= <-]; auto|]. intros (_ & <- & _). reflexivity.
  - rewrite Forall_cons. destruct (is_digit c) eqn:Hc; [|rewrite digits_val_none; split; [discriminate|intuition discriminate]].
    cbv zeta. destruct (N.ltb_spec (v * 10 + (code c - 48)) top) as [Hlt|Hge].
    + rewrite IH. split; [|intuition discriminate]. intros (H1 & H2 & H3). split; [auto|]. split; [exact H2|]. right.
      destruct H3 as [->|H3]; [cbn in H2; lia|exact H3].
    + rewrite digits_val_none. split; [discriminate|]. intros (_ & <- & [|H]); [discriminate|]. exfalso.
      assert (M : forall s v, (v <= fold_left (fun v c => (v * 10 + (code c - 48))%N) s v)%N).
      { clear. induction s as [|c s IH]; intros v; cbn [fold_left]; [lia|]. etransitivity; [|apply IH]. lia. }
      pose proof (M s (v * 10 + (code c - 48))%N). lia.
Qed.
Lemma parse_uint_spec top s n : parse_uint top s = Some n <-> uint_text top s n.
Proof.
  unfold parse_uint, uint_text. destruct s as [|c r].
  - split; [discriminate|]. intros (d & [<-|Hq] & H & _); [congruence|discriminate].
  - destruct (Ascii.eqb_spec c "+"%char) as [->|Hc].
    + destruct r as [|c r].
      * split; [discriminate|]. intros (d & [<-|[= <-]] & H1 & H2 & _); [|congruence]. apply Forall_cons in H2 as [H2 _]. discriminate.
      * rewrite digits_val_spec by discriminate. split.
        -- intros (H1 & H2 & H3). exists (c :: r). split; [now right|]. repeat split; try assumption. discriminate.
        -- intros (d & [<-|[= <-]] & H1 & H2 & H3); [|tauto]. apply Forall_cons in H2 as [H2 _]. discriminate.
    + rewrite digits_val_spec by discriminate. split.
      * intros (H1 & H2 & H3). exists (c :: r). split; [now left|]. repeat split; try assumption. discriminate.
      * intros (d & [<-|[= ->]] & H1 & H2 & H3); [tauto|congruence].
Qed.
Lemma parse_bool_spec s b : parse_bool s = Some b <-> s = txt (if b then "true" else "false")%string.
Proof.
  unfold parse_bool. repeat case_bool_decide; split; intros E; subst; try congruence; destruct b; first [congruence|discriminate].
Qed.
Lemma parse_usize_spec s n : parse_usize s = Some n <-> uint_text (2 ^ 64) s (N.of_nat n).
Proof.
  unfold parse_usize. rewrite <- parse_uint_spec. destruct (parse_uint (2 ^ 64) s) as [m|]; cbn [fmap option_fmap option_map]; [|split; discriminate].
  split; intros [= H]; [rewrite <- H, N2Nat.id; reflexivity|]. f_equal. lia.
Qed.

(** an option is absent or one of some names *)
Definition one_of (names : list string) (o : option text) : Prop := o = None \/ exists s, s ∈ names /\ o = Some (txt s).
(** an option is absent or a text of some kind *)
Definition text_of (P : text -> Prop) (o : option text) : Prop := forall s, o = Some s -> P s.
Definition is_u32 (s : text) : Prop := exists n, uint_text (2 ^ 32) s n.
Definition is_bool (s : text) : Prop := s = txt "true" \/ s = txt "false".
Definition is_num {A} (nf : numfmt A) (s : text) : Prop := exists x, nf_read nf s = Some x.

Section options.
Context {A : arith} (nf : numfmt A) (ra : raster A) (g : geo A).
Ltac names o := let H := fresh in intros H; destruct o as [s|]; [|now left]; right;
  unfold solver_of, node_value, colormap, mesher in H; cbv zeta in H; repeat case_bool_decide; try discriminate H;
  match goal with E : s = txt ?n |- _ => exists n; rewrite E end; (split; [|reflexivity]); set_solver.
Lemma solver_names (h : hashes A) o x : solver_of h o = Some x -> one_of ["densegauss"; "cholesky"; "gaussseidel"]%string o.
Proof. names o. Qed.
Lemma value_names (a : elas A) d o x : node_value a d o = Some x -> one_of ["displacement"; "vonmises"]%string o.
Proof. names o. Qed.
Lemma color_names o x : colormap ra o = Some x -> one_of ["hot"; "rgb"]%string o.
Proof. names o. Qed.
Lemma mesher_names (h : hashes A) fuel z st o x : mesher g h fuel z o st = Some x -> one_of ["chew"; "ruppert"]%string o.
Proof. names o. Qed.
Lemma size_text o x : im_size o = Some x -> text_of is_u32 o.
Proof. intros H s ->. exists x. apply parse_uint_spec. exact H. Qed.
Lemma show_text o x : show_mesh o = Some x -> text_of is_bool o.
Proof. intros H s ->. change (parse_bool s = Some x) in H. apply parse_bool_spec in H. rewrite H. destruct x; [left|right]; reflexivity. Qed.
Lemma scale_text o x : scale_of nf o = Some x -> text_of (is_num nf) o.
Proof. intros H s ->. exists x. exact H. Qed.
Lemma linear_options w h ar l : Cli.linear nf ra w h ar = (l, Ret (Ok tt)) ->
  one_of ["densegauss"; "cholesky"; "gaussseidel"]%string (ar "solver"%string) /\ one_of ["displacement"; "vonmises"]%string (ar "nodevalue"%string) /\
  one_of ["hot"; "rgb"]%string (ar "colormap"%string) /\ text_of is_u32 (ar "imsize"%string) /\ text_of is_bool (ar "showmesh"%string) /\
  text_of (is_num nf) (ar "scale"%string).
Proof.
  intros E. apply linear_ok in E as (path & a & solver & disp & vm & max_vm & max_d & scale & vis & vals & nv & vis' & cm & size & show & im &
    H1 & H2 & H3 & H4 & H5 & H6 & H7 & H8 & H9 & H10 & H11 & H12 & H13 & H14 & H15 & _).
  split; [exact (solver_names _ _ _ H3)|]. split; [exact (value_names _ _ _ _ H10)|]. split; [exact (color_names _ _ H13)|].
  split; [exact (size_text _ _ H14)|]. split; [exact (show_text _ _ H15)|exact (scale_text _ _ H8)].
Qed.
Lemma mesh_options w h fuel ar l : Cli.mesh nf ra g w h fuel ar = (l, Ret (Ok tt)) ->
  one_of ["chew"; "ruppert"]%string (ar "mesher"%string) /\ text_of is_u32 (ar "imsize"%string) /\
  exists s, ar "elementsize"%string = Some s /\ is_num nf s.
Proof.
  intros E. apply CliProofs.mesh_ok in E as (path & b & s & size & m & st & vis & isz & im & a & t & H1 & H2 & H3 & H4 & H5 & H6 & H7 & H8 & _).
  split; [eauto using mesher_names|]. split; [eauto using size_text|]. exists s. split; [exact H3|]. exists size. exact H4.
Qed.
Lemma modal_options w h fl fi fs rnd ar l : Cli.modal nf ra w h fl fi fs rnd ar = (l, Ret (Ok tt)) ->
  exists s num, ar "NUM"%string = Some s /\ uint_text (2 ^ 64) s (N.of_nat num) /\ text_of (is_num nf) (ar "scale"%string) /\
  (0 < num -> one_of ["hot"; "rgb"]%string (ar "colormap"%string) /\ text_of is_u32 (ar "imsize"%string) /\ text_of is_bool (ar "showmesh"%string)).
Proof.
  intros E. apply modal_ok in E as (path & a & s & num & dfms & scale & H1 & H2 & H3 & H4 & H5 & H6 & H7).
  exists s, num. split; [exact H3|]. split; [now apply parse_usize_spec|]. split; [eauto using scale_text|]. intros Hn.
  apply calc_modes_count in H5 as (t & k & kb & m & mb & sys & s1 & s' & ps & _ & _ & _ & _ & _ & _ & _ & _ & _ & Hl & _).
  apply modal_loop_ok in H7 as (ims & _ & _ & H). destruct H as ([? Hc] & [? Hs] & [? Hb]); [intros ->; cbn in Hl; lia|].
  split; [exact (color_names _ _ Hc)|]. split; [exact (size_text _ _ Hs)|exact (show_text _ _ Hb)].
Qed.

(** a readable mesh never gives a file error *)
Lemma linear_no_file_error w h ar l e path a : ar "INPUT"%string = Some path -> read_to_elas nf w path = Ret (Ok a) ->
  Cli.linear nf ra w h ar = (l, Ret (Err (FileErr e))) -> False.
Proof.
  intros Hp Hr H. unfold Cli.linear in H. rewrite Hp in H. rewrite (c_bind_ret path) in H by reflexivity. rewrite Hr in H.
  rewrite (c_bind_ret a) in H by reflexivity.
  repeat (err1 H; try solve [discriminate|match type of H with _ /\ _ => destruct H; discriminate end|now apply draw_to_err in H]).
Qed.
Lemma modal_no_file_error w h fl fi fs rnd ar l e path a : ar "INPUT"%string = Some path -> read_to_elas nf w path = Ret (Ok a) ->
  Cli.modal nf ra w h fl fi fs rnd ar = (l, Ret (Err (FileErr e))) -> False.
Proof.
  intros Hp Hr H. unfold Cli.modal in H. rewrite Hp in H. rewrite (c_bind_ret path) in H by reflexivity. rewrite Hr in H.
  rewrite (c_bind_ret a) in H by reflexivity.
  repeat (err1 H; try solve [discriminate|match type of H with _ /\ _ => destruct H; discriminate end|now apply draw_to_err in H]).
  assert (K : forall dfms i l, modal_loop ra w ar a x2 i dfms = (l, Ret (Err (FileErr e))) -> False).
  { induction dfms as [|d dfms IH]; intros i l' Hl; cbn [modal_loop] in Hl; [discriminate|]. err1 Hl; [|destruct x3; eauto].
    unfold modal_one in Hl. repeat (err1 Hl; try solve [discriminate|match type of Hl with _ /\ _ => destruct Hl; discriminate end|now apply draw_to_err in Hl]). }
  exact (K _ _ _ H).
Qed.
End options.

Section same.
Context {A : arith} (nf : numfmt A).
Lemma linear_same (ra ra' : raster A) w w' h ar ar' l l' path :
  ar "INPUT"%string = Some path -> ar' "INPUT"%string = Some path -> w_read w path = w_read w' path -> ar "solver"%string = ar' "solver"%string ->
  Cli.linear nf ra w h ar = (l, Ret (Ok tt)) -> Cli.linear nf ra' w' h ar' = (l', Ret (Ok tt)) ->
  exists im im' v d, l = [im; PrintMax v d] /\ l' = [im'; PrintMax v d].
Proof.
  intros Hi Hi' Hw Hs E E'.
  apply linear_ok in E as (path1 & a1 & solver & disp & vm & max_vm & max_d & scale & vis & vals & nv & vis' & cm & size & show & im &
    H1 & H2 & H3 & H4 & H5 & H6 & H7 & _ & _ & _ & _ & _ & _ & _ & _ & _ & ->).
  apply linear_ok in E' as (path2 & a2 & solver' & disp' & vm' & max_vm' & max_d' & scale' & vis1 & vals' & nv' & vis1' & cm' & size' & show' & im' &
    G1 & G2 & G3 & G4 & G5 & G6 & G7 & _ & _ & _ & _ & _ & _ & _ & _ & _ & ->).
  assert (path1 = path) as -> by congruence. assert (path2 = path) as -> by congruence.
  apply read_to_elas_ext in H2 as (_ & f1 & Hf1 & Hb1). apply read_to_elas_ext in G2 as (_ & f2 & Hf2 & Hb2).
  assert (f2 = f1) as -> by congruence. assert (a2 = a1) as -> by congruence.
  assert (solver' = solver) as -> by congruence. assert (disp' = disp) as -> by congruence. assert (vm' = vm) as -> by congruence.
  assert (max_vm' = max_vm) as -> by congruence. assert (max_d' = max_d) as -> by congruence. eauto 6.
Qed.

Lemma concat_zip (D : Type) (ims : list (Z * list (pix * rgb))) : forall (ds : list (D * A)) (ps : list (epair A)) i,
  length ims = length ds -> length ps = length ds -> (forall j p, ps !! j = Some p -> exists d, ds !! j = Some (d, ssqrt (ep_value p))) ->
  concat (map (fun t : nat * (Z * list (pix * rgb)) * (D * A) =>
                 [SavedImage (mode_path t.1.1) t.1.2.1 t.1.2.2; PrintMode t.1.1 t.2.2]) (zip (zip (seq i (length ds)) ims) ds)) =
  concat (map (fun j => match ims !! (j - i), ps !! (j - i) with
                        | Some im, Some p => [SavedImage (mode_path j) im.1 im.2; PrintMode j (ssqrt (ep_value p))]
                        | _, _ => []
                        end) (seq i (length ds))).
Proof.
  induction ims as [|im ims IH]; intros [|d ds] [|p ps] i L1 L2 H; try discriminate; [reflexivity|].
  cbn [length seq zip zip_with map concat]. rewrite Nat.sub_diag. cbn [lookup list_lookup]. destruct (H 0 p eq_refl) as (d0 & H0). injection H0 as ->.
  cbn [fst snd]. f_equal. rewrite (IH ds ps (S i)); [|cbn in L1; lia|cbn in L2; lia|intros j q Hj; exact (H (S j) q Hj)].
  f_equal. apply map_ext_in. intros j Hj. apply in_seq in Hj. replace (j - i) with (S (j - S i)) by lia. reflexivity.
Qed.
Lemma modal_prints (ra : raster A) w h fl fi fs rnd ar l : Cli.modal nf ra w h fl fi fs rnd ar = (l, Ret (Ok tt)) ->
  exists path a s num, ar "INPUT"%string = Some path /\ read_to_elas nf w path = Ret (Ok a) /\ ar "NUM"%string = Some s /\ uint_text (2 ^ 64) s (N.of_nat num) /\
  exists t k kb m mb sys es s' (ps : list (epair A)), from_constraints (ea_cons a) = Ret t /\
    ea_calc_k a = Ret k /\ bar_matrix (h_k h) 0 t k = Ret kb /\ ea_calc_m a = Ret m /\ bar_matrix (h_k h) 6 t m = Ret mb /\
    from_km (fun k => d_nzs (h_k h 12 (d_data k))) (fun m => d_nzs (h_k h 13 (d_data m))) kb mb = Ret sys /\ eigen_new (h_sys h) sys = Ret es /\ find_eigens fl fi fs num rnd (searcher_new es) = Ret (s', ps) /\ length ps = num /\
    exists ims : list (Z * list (pix * rgb)), length ims = num /\
      l = concat (map (fun i => match ims !! i, ps !! i with
                                | Some im, Some p => [SavedImage (mode_path i) im.1 im.2; PrintMode i (ssqrt (ep_value p))]
                                | _, _ => []
                                end) (seq 0 num)).
Proof.
  intros E. apply modal_ok in E as (path & a & s & num & dfms & scale & H1 & H2 & H3 & H4 & H5 & H6 & H7).
  exists path, a, s, num. repeat (split; [assumption|]). split; [now apply parse_usize_spec|].
  apply calc_modes_count in H5 as (t & k & kb & m & mb & sys & s1 & s' & ps & G1 & G2 & G3 & G4 & G5 & G6 & G7 & G8 & G9 & Hl & Hd).
  exists t, k, kb, m, mb, sys, s1, s', ps. repeat (split; [assumption|]).
  apply modal_loop_ok in H7 as (ims & Hi & -> & _). exists ims. split; [congruence|].
  rewrite (concat_zip _ ims dfms ps 0); [|exact Hi|congruence|intros j p Hj; destruct (Hd j p Hj) as (d & _ & Hd'); eauto].
  rewrite Hl. f_equal. apply map_ext. intros i. now rewrite Nat.sub_0_r.
Qed.
End same.
