(** The same mesh made of another material or of another thickness. *)
From Coq Require Import Ascii String.
From Verif Require Export VibProofs.
From Verif Require Import CliProofs CliMesh CliStudy ElemAlg StressPatch StressProofs.
From Verif Require Import Cli.
Local Close Scope string_scope.
Local Open Scope nat_scope.
Local Open Scope list_scope.

(** ** spec *)
Section spec.
Context {A : arith}.
Definition thicker (k : A) (c c' : strain_cond A) : Prop :=
  match c, c' with
  | PlaneStrain t, PlaneStrain t' | PlaneStress t, PlaneStress t' => t' = smul k t
  | Axisymmetric, Axisymmetric => k = s1
  | _, _ => False
  end.
(** the mesh of [a] with [kE] times the modulus, [kR] times the density and [kT] times the thickness *)
Record remade (kE kR kT : A) (a b : elas A) : Prop := {
  rm_nodes : ea_nodes b = ea_nodes a;
  rm_ids : map e_ids (ea_elems b) = map e_ids (ea_elems a);
  rm_poisson : m_poisson (ea_mat b) = m_poisson (ea_mat a);
  rm_youngs : m_youngs (ea_mat b) = smul kE (m_youngs (ea_mat a));
  rm_density : m_density (ea_mat b) = smul kR (m_density (ea_mat a));
  rm_thick : thicker kT (ea_cond a) (ea_cond b) }.
End spec.

Section scale.
Context {A : arith} (OL : ord_laws A).
Let FL : field_laws A := ol_field A OL.
Add Field Afield82 : (fl_field A FL).
Local Open Scope arith_scope.
Context (kE kR kT : A) (a b : elas A) (Hm : remade kE kR kT a b) (Ha : ea_ok a) (Hb : ea_ok b).

Lemma remade_count : node_count b = node_count a.
Proof. unfold node_count. now rewrite (rm_nodes _ _ _ _ _ Hm). Qed.
Lemma remade_el k e : ea_elems a !! k = Some e -> exists e', ea_elems b !! k = Some e' /\ e_ids e' = e_ids e /\ e_pts e' = e_pts e /\
  e_mat e = ea_mat a /\ e_mat e' = ea_mat b /\ e_cond e = ea_cond a /\ e_cond e' = ea_cond b /\ planar e /\ planar e'.
Proof.
  intros Hk. pose proof (f_equal (fun l => l !! k) (rm_ids _ _ _ _ _ Hm)) as E. cbv beta in E. rewrite !list_lookup_fmap, Hk in E. cbn in E.
  destruct (ea_elems b !! k) as [e'|] eqn:Hk'; [|discriminate]. cbn in E. injection E as E. exists e'. split; [reflexivity|]. split; [exact E|].
  destruct (proj2 Ha e) as (P & M & C & P0 & P1 & P2); [now apply elem_of_list_lookup_2 in Hk|].
  destruct (proj2 Hb e') as (P' & M' & C' & P0' & P1' & P2'); [now apply elem_of_list_lookup_2 in Hk'|].
  split; [|auto 10]. rewrite E, (rm_nodes _ _ _ _ _ Hm) in P0', P1', P2'.
  destruct (e_pts e) as [[x y] z]. destruct (e_pts e') as [[x' y'] z']. cbn [fst snd] in *. congruence.
Qed.
(** *** loads *)
Lemma seg_ext (f g : point A -> out (lm A)) p q n : (forall x, f x = g x) -> gauss_segment_mat f p q n = gauss_segment_mat g p q n.
Proof.
  intros H. unfold gauss_segment_mat. destruct (pt_dist p q) as [d| | |]; cbn [mbind out_bind]; try reflexivity.
  destruct (gauss_table n) as [[|[p0 w0] rest]| | |]; cbn [mbind out_bind]; try reflexivity.
  destruct (seg_point p q p0) as [x| | |]; cbn [mbind out_bind]; try reflexivity. rewrite H. destruct (g x) as [m| | |]; cbn [mbind out_bind]; try reflexivity.
  f_equal. generalize (lm_scale m w0). induction rest as [|pw rest IH]; intros s; [reflexivity|]. cbn [foldM].
  destruct (seg_point p q pw.1) as [y| | |]; cbn [mbind out_bind]; try reflexivity. rewrite H. destruct (g y) as [t| | |]; cbn [mbind out_bind]; try reflexivity.
  destruct (add_ass s _) as [s'| | |]; cbn [mbind out_bind]; try reflexivity. apply IH.
Qed.
Lemma line_remade k e e' edge fo : ea_elems a !! k = Some e -> ea_elems b !! k = Some e' -> int_f_l e' edge fo = int_f_l e edge fo /\ nodes_connect e' edge.1 edge.2 = nodes_connect e edge.1 edge.2.
Proof.
  intros Hk Hk'. destruct (remade_el k e Hk) as (e2 & Hk2 & Ei & Ep & M & M' & C & C' & P & P'). assert (e2 = e') as -> by congruence. clear Hk2.
  assert (N : nodes_connect e' edge.1 edge.2 = nodes_connect e edge.1 edge.2) by (unfold nodes_connect, e_id_list; now rewrite Ei).
  split; [|exact N]. unfold int_f_l. rewrite N.
  assert (G : forall n, node_natural e' n = node_natural e n) by (intros n; unfold node_natural; now rewrite Ei).
  assert (G2 : forall n, e_node e' n = e_node e n) by (intros n; unfold e_node, e_pt_list; now rewrite Ei, Ep).
  assert (G3 : forall l, map_vec e' l = map_vec e l) by (intros l; unfold map_vec, map_dof, e_id_list; now rewrite Ei).
  rewrite !G, !G2. destruct (negb _); [reflexivity|]. destruct (assert_ _) as [[]| | |]; cbn [mbind out_bind]; try reflexivity.
  destruct (pt_to_vec fo) as [fv| | |]; cbn [mbind out_bind]; try reflexivity. destruct (col_vec fv) as [f| | |]; cbn [mbind out_bind]; try reflexivity.
  destruct (unwrap (node_natural e edge.1)) as [p| | |]; cbn [mbind out_bind]; try reflexivity.
  destruct (unwrap (node_natural e edge.2)) as [q| | |]; cbn [mbind out_bind]; try reflexivity.
  rewrite (seg_ext (fun q => m ← get_isopar_mats e' q; mmul (lm_transpose (em_h m)) f) (fun q => m ← get_isopar_mats e q; mmul (lm_transpose (em_h m)) f)).
  - destruct (gauss_segment_mat _ p q 2) as [res| | |]; cbn [mbind out_bind]; try reflexivity. destruct (pt_dist p q) as [nl| | |]; cbn [mbind out_bind]; try reflexivity.
    destruct (unwrap (e_node e edge.1)) as [ar| | |]; cbn [mbind out_bind]; try reflexivity.
    destruct (unwrap (e_node e edge.2)) as [br| | |]; cbn [mbind out_bind]; try reflexivity.
    destruct (pt_dist ar br) as [rl| | |]; cbn [mbind out_bind]; try reflexivity. destruct (flat _) as [l| | |]; cbn [mbind out_bind]; try reflexivity. now rewrite G3.
  - intros [n x y z]. destruct (decide (n = 2)) as [->|Hn]; [now rewrite !mats_ret by assumption|].
    unfold get_isopar_mats, pt_pair. cbn [p_n]. rewrite (proj2 (Nat.eqb_neq n 2) Hn). reflexivity.
Qed.
Lemma load_remade oc ol : calc_load b oc ol = calc_load a oc ol.
Proof.
  unfold calc_load. rewrite remade_count. destruct (foldM conc_step oc _) as [res| | |]; cbn [mbind out_bind]; try reflexivity.
  assert (HH : Forall2 (fun e e' : element A => forall edge fo, int_f_l e' edge fo = int_f_l e edge fo /\ nodes_connect e' edge.1 edge.2 = nodes_connect e edge.1 edge.2) (ea_elems a) (ea_elems b)).
  { apply Forall2_same_length_lookup. split.
    - pose proof (f_equal length (rm_ids _ _ _ _ _ Hm)) as E. rewrite !map_length in E. congruence.
    - intros k e e' Hk Hk' edge fo. exact (line_remade k e e' edge fo Hk Hk'). }
  assert (L : forall ef res, line_step (ea_elems b) ef res = line_step (ea_elems a) ef res).
  { intros ef. unfold line_step. clear - HH. induction HH as [|e e' l l' He _ IH]; intros r; [reflexivity|]. cbn [foldM]. destruct (He ef.1 ef.2) as [-> ->].
    destruct (if nodes_connect e _ _ then _ else _) as [r'| | |]; cbn [mbind out_bind]; try reflexivity. apply IH. }
  revert res. induction ol as [|ef ol IH]; intros res; [reflexivity|]. cbn [foldM]. rewrite L.
  destruct (line_step (ea_elems a) ef res) as [r'| | |]; cbn [mbind out_bind]; try reflexivity. apply IH.
Qed.
Lemma div_scale (k x y : A) : k * x / y = k * (x / y).
Proof. rewrite (Fdiv_def (fl_field A FL) (k * x) y), (Fdiv_def (fl_field A FL) x y). ring. Qed.
Lemma c_remade i j : c_c (ea_cond b) (ea_mat b) i j = kE * c_c (ea_cond a) (ea_mat a) i j.
Proof.
  pose proof (rm_thick _ _ _ _ _ Hm) as T. unfold c_c, c_scale. rewrite (rm_poisson _ _ _ _ _ Hm), (rm_youngs _ _ _ _ _ Hm).
  destruct (ea_cond a) as [t|t| ], (ea_cond b) as [t'|t'| ]; try contradiction;
    match goal with
    | |- context [(kE * ?e * ?w) / ?d] => replace (kE * e * w) with (kE * (e * w)) by ring; rewrite (div_scale kE (e * w) d)
    | |- context [(kE * ?e) / ?d] => rewrite (div_scale kE e d)
    end; ring.
Qed.
Lemma vec_len_remade : vec_len (ea_cond b) = vec_len (ea_cond a) /\ cond_kind (ea_cond b) = cond_kind (ea_cond a).
Proof. pose proof (rm_thick _ _ _ _ _ Hm) as T. destruct (ea_cond a), (ea_cond b); try contradiction; auto. Qed.
Lemma th_remade p q w r t : th_c (ea_cond b) p q w r t = kT * th_c (ea_cond a) p q w r t.
Proof.
  pose proof (rm_thick _ _ _ _ _ Hm) as T. destruct (ea_cond a), (ea_cond b); try contradiction; cbn [th_c thicker] in *; [exact T|exact T|]. rewrite T. ring.
Qed.
Lemma at_samples_scale k (g h : A -> A -> A) : (forall r t, g r t = k * h r t) -> at_samples g = k * at_samples h.
Proof. intros H. unfold at_samples. rewrite !H. ring. Qed.
Lemma K_remade k e e' i j : ea_elems a !! k = Some e -> ea_elems b !! k = Some e' -> K_c e' i j = kE * kT * K_c e i j.
Proof.
  intros Hk Hk'. destruct (remade_el k e Hk) as (e2 & Hk2 & Ei & Ep & M & M' & C & C' & _). assert (e2 = e') as -> by congruence. clear Hk2.
  unfold K_c. apply at_samples_scale. intros r t. unfold mats_c. cbn [em_det em_th]. rewrite Ep, M, M', C, C', th_remade, (proj1 vec_len_remade).
  unfold k_int. rewrite <- (bigsum_scale_l FL). apply bigsum_ext. intros x _.
  rewrite (bigsum_ext _ (fun l => kE * (b_c (ElemProofs.xy (e_pts e).1.1) (ElemProofs.xy (e_pts e).1.2) (ElemProofs.xy (e_pts e).2) r t l i * c_c (ea_cond a) (ea_mat a) l x)))
    by (intros l _; rewrite c_remade; ring).
  rewrite (bigsum_scale_l FL). ring.
Qed.
Lemma M_remade k e e' i j : ea_elems a !! k = Some e -> ea_elems b !! k = Some e' -> M_c e' i j = kR * kT * M_c e i j.
Proof.
  intros Hk Hk'. destruct (remade_el k e Hk) as (e2 & Hk2 & Ei & Ep & M & M' & C & C' & _). assert (e2 = e') as -> by congruence. clear Hk2.
  unfold M_c. apply at_samples_scale. intros r t. unfold mats_c. cbn [em_th]. rewrite Ep, M, M', C, C', th_remade, (rm_density _ _ _ _ _ Hm).
  unfold m_int. cbn [bigsum]. ring.
Qed.
Lemma forms_remade (g : element A -> nat -> nat -> A) c u w :
  (forall k e e' i j, ea_elems a !! k = Some e -> ea_elems b !! k = Some e' -> g e' i j = c * g e i j) ->
  ssum (map (fun e => el_form (g e) (loc e u) (loc e w)) (ea_elems b)) = c * ssum (map (fun e => el_form (g e) (loc e u) (loc e w)) (ea_elems a)).
Proof.
  intros Hg.
  assert (HH : Forall2 (fun e e' => el_form (g e') (loc e' u) (loc e' w) = c * el_form (g e) (loc e u) (loc e w)) (ea_elems a) (ea_elems b)).
  { apply Forall2_same_length_lookup. split.
    - pose proof (f_equal length (rm_ids _ _ _ _ _ Hm)) as E. rewrite !map_length in E. congruence.
    - intros k e e' Hk Hk'. destruct (remade_el k e Hk) as (e2 & Hk2 & Ei & _). assert (e2 = e') as -> by congruence.
      assert (L : forall (x : nat -> A) i, loc e' x i = loc e x i) by (intros x i; unfold loc, e_dof, e_id_list; now rewrite Ei).
      unfold el_form. rewrite <- (bigsum_scale_l FL). apply bigsum_ext. intros i _. rewrite <- (bigsum_scale_l FL). apply bigsum_ext. intros j _.
      rewrite !L, (Hg k e e' i j Hk Hk'). ring. }
  clear - HH FL. induction HH as [|e e' l l' He _ IH]; [cbn; ring|]. cbn [map]. rewrite !(ssum_cons FL), He, IH. ring.
Qed.
Lemma stiff_remade K K' u w : ea_calc_k a = Ret K -> ea_calc_k b = Ret K' ->
  work (node_count a * 2) (mv (node_count a * 2) (el K') u) w = kE * kT * work (node_count a * 2) (mv (node_count a * 2) (el K) u) w.
Proof.
  intros EK EK'. destruct (assembled_k FL a Ha) as (K1 & E1 & _ & _ & V). assert (K1 = K) as -> by congruence.
  destruct (assembled_k FL b Hb) as (K1 & E2 & _ & _ & V'). assert (K1 = K') as -> by congruence.
  rewrite !(work_form OL).
  transitivity (ssum (map (fun e => el_form (K_c e) (loc e w) (loc e u)) (ea_elems b))).
  - rewrite <- (assembled_form FL b K_c _ _ Hb), remade_count. apply bigsum_ext. intros i _. apply bigsum_ext. intros j _. now rewrite V'.
  - rewrite (forms_remade K_c (kE * kT)) by (intros; eapply K_remade; eassumption). f_equal.
    rewrite <- (assembled_form FL a K_c _ _ Ha). apply bigsum_ext. intros i _. apply bigsum_ext. intros j _. now rewrite V.
Qed.
Lemma mass_remade M M' u w : ea_calc_m a = Ret M -> ea_calc_m b = Ret M' ->
  work (node_count a * 2) (mv (node_count a * 2) (el M') u) w = kR * kT * work (node_count a * 2) (mv (node_count a * 2) (el M) u) w.
Proof.
  intros EM EM'. rewrite (mass_form OL a M u w Ha EM). rewrite <- remade_count at 1 2. rewrite (mass_form OL b M' u w Hb EM').
  apply forms_remade. intros; eapply M_remade; eassumption.
Qed.

(** *** vibrations *)
Lemma vibrates_remade K M K' M' mu u : kE <> 0 -> kR <> 0 -> kT <> 0 -> ea_cons b = ea_cons a ->
  ea_calc_k a = Ret K -> ea_calc_m a = Ret M -> ea_calc_k b = Ret K' -> ea_calc_m b = Ret M' ->
  (vibrates (node_count a * 2) (el K) (el M) (ea_cons a) mu u <->
   vibrates (node_count b * 2) (el K') (el M') (ea_cons b) (kE / kR * mu) u).
Proof.
  intros NE NR NT Hc EK EM EK' EM'. rewrite remade_count, Hc. unfold vibrates.
  assert (G : forall w, work (node_count a * 2) (mv (node_count a * 2) (el K) u) w = mu * work (node_count a * 2) (mv (node_count a * 2) (el M) u) w <->
    work (node_count a * 2) (mv (node_count a * 2) (el K') u) w = kE / kR * mu * work (node_count a * 2) (mv (node_count a * 2) (el M') u) w).
  { intros w. rewrite (stiff_remade K K' u w EK EK'), (mass_remade M M' u w EM EM').
    set (x := work _ (mv _ (el K) u) w). set (y := work _ (mv _ (el M) u) w). split; intros E.
    - rewrite E. field. exact NR.
    - transitivity ((kE * kT * x) / (kE * kT)); [field; auto|]. rewrite E. field. auto. }
  split; intros (H1 & H2 & H3); (split; [exact H1|]; split; [exact H2|]); intros w Hw; apply G; now apply H3.
Qed.

(** *** stresses *)
Lemma sig_remade k e e' us us' r t i : ea_elems a !! k = Some e -> ea_elems b !! k = Some e' -> (forall j, (j < 6)%nat -> vel us j = kE * vel us' j) ->
  sig_c e' us' r t i = sig_c e us r t i.
Proof.
  intros Hk Hk' Hu. destruct (remade_el k e Hk) as (e2 & Hk2 & Ei & Ep & M & M' & C & C' & _). assert (e2 = e') as -> by congruence. clear Hk2.
  unfold sig_c. rewrite Ep, M, M', C, C', (proj1 vec_len_remade). apply bigsum_ext. intros j Hj. rewrite (Hu j Hj).
  set (x := vel us' j).
  rewrite (bigsum_ext _ (fun l => kE * (c_c (ea_cond a) (ea_mat a) i l * b_c (ElemProofs.xy (e_pts e).1.1) (ElemProofs.xy (e_pts e).1.2) (ElemProofs.xy (e_pts e).2) r t l j)))
    by (intros l _; rewrite c_remade; ring).
  rewrite (bigsum_scale_l FL). ring.
Qed.
Lemma stresses_remade k e e' u u' : ea_elems a !! k = Some e -> ea_elems b !! k = Some e' -> twice_area e <> 0 ->
  (forall i, (i < node_count a * 2)%nat -> u i = kE * u' i) ->
  e_stresses e' (idx (map (disp_of u') (seq 0 (node_count a)))) = e_stresses e (idx (map (disp_of u) (seq 0 (node_count a)))).
Proof.
  intros Hk Hk' Hd Hu. destruct (remade_el k e Hk) as (e2 & Hk2 & Ei & Ep & M & M' & C & C' & P & P'). assert (e2 = e') as -> by congruence. clear Hk2.
  pose proof (proj2 Ha e (elem_of_list_lookup_2 _ _ _ Hk)) as Ho. pose proof (area_distinct FL a e Ho Hd) as Hds.
  assert (Hin : forall n, n ∈ e_id_list e -> (n < node_count a)%nat).
  { destruct Ho as (_ & _ & _ & H0 & H1 & H2). apply lookup_lt_Some in H0, H1, H2. unfold e_id_list. intros n Hn.
    destruct (e_ids e) as [[x y] z]. cbn [fst snd] in *. change (length (ea_nodes a)) with (node_count a) in *.
    repeat (apply elem_of_cons in Hn as [->|Hn]; [assumption|]). now apply elem_of_nil in Hn. }
  assert (G : forall (v : nat -> A) n, n ∈ e_id_list e -> idx (map (disp_of v) (seq 0 (node_count a))) n = Ret (disp_of v n) /\ p_n (disp_of v n) = 2%nat).
  { intros v n Hn. split; [|reflexivity]. unfold idx. rewrite list_lookup_fmap, lookup_seq_lt by (now apply Hin). reflexivity. }
  assert (Eid : e_id_list e' = e_id_list e) by (unfold e_id_list; now rewrite Ei).
  rewrite (e_stresses_ret e _ (disp_of u) P Hds (G u)).
  rewrite (e_stresses_ret e' _ (disp_of u') P' ltac:(now rewrite Ei) ltac:(rewrite Eid; exact (G u'))).
  f_equal. apply map_ext. intros x. rewrite Eid. f_equal. rewrite C, C'. destruct vec_len_remade as [-> ->]. f_equal. apply pad6_ext. intros i Hi.
  apply (sig_remade k e e' _ _ _ _ i Hk Hk'). rewrite Ei. intros j Hj.
  assert (B : forall n d, n ∈ e_id_list e -> (d < 2)%nat -> u (n * 2 + d)%nat = kE * u' (n * 2 + d)%nat) by (intros n d Hn Hd'; apply Hu; pose proof (Hin n Hn); lia).
  assert (B0 : forall n, n ∈ e_id_list e -> u (n * 2)%nat = kE * u' (n * 2)%nat) by (intros n Hn; rewrite <- (Nat.add_0_r (n * 2)); apply B; [exact Hn|lia]).
  unfold e_id_list in B, B0. unfold disp_list. destruct (e_ids e) as [[x0 x1] x2]. cbn [fst snd] in *.
  do 6 (destruct j as [|j]; [cbn; first [apply B0|apply B; [|lia]]; rewrite ?elem_of_cons; auto|]). lia.
Qed.
Lemma mises_remade u u' : (forall e, e ∈ ea_elems a -> twice_area e <> 0) -> (forall i, (i < node_count a * 2)%nat -> u i = kE * u' i) ->
  ea_von_mises b (map (disp_of u') (seq 0 (node_count a))) = ea_von_mises a (map (disp_of u) (seq 0 (node_count a))).
Proof.
  intros Hd Hu. unfold ea_von_mises, ea_stresses. rewrite remade_count. f_equal. f_equal.
  assert (HH : Forall2 (fun e e' => e_stresses e' (idx (map (disp_of u') (seq 0 (node_count a)))) = e_stresses (A := A) e (idx (map (disp_of u) (seq 0 (node_count a))))) (ea_elems a) (ea_elems b)).
  { apply Forall2_same_length_lookup. split.
    - pose proof (f_equal length (rm_ids _ _ _ _ _ Hm)) as E. rewrite !map_length in E. congruence.
    - intros k e e' Hk Hk'. apply (stresses_remade k e e' u u' Hk Hk'); [|exact Hu]. apply Hd. now apply elem_of_list_lookup_2 in Hk. }
  clear Hd. generalize (replicate (node_count a) (@average_new (stress A))). induction HH as [|e e' l l' He _ IH]; intros av; [reflexivity|]. cbn [foldM]. rewrite He.
  destruct (e_stresses e _) as [x| | |]; cbn [mbind out_bind]; try reflexivity.
  destruct (foldM _ x av) as [y| | |]; cbn [mbind out_bind]; try reflexivity. apply IH.
Qed.
End scale.

Section solve.
Context {A : arith} (OL : ord_laws A) (Trig : forall th : A, sadd (smul (scos th) (scos th)) (smul (ssin th) (ssin th)) = s1).
Let FL : field_laws A := ol_field A OL.
Add Field Afield83 : (fl_field A FL).
Local Open Scope arith_scope.
Context (kE kR kT s : A) (h : hashes A) (name : option text) (a : elas A) (oc : list (nat * point A)) (ol : list (nat * nat * point A)) (disp : list (point A)).
Context (h' : hashes A) (name' : option text) (b : elas A) (oc' : list (nat * point A)) (ol' : list (nat * nat * point A)) (disp' : list (point A)).
Lemma remade_solution r r' : remade kE kR kT a b -> kE <> 0 -> kT <> 0 -> ea_cons b = ea_cons a ->
  computed h name a oc ol disp -> computed h' name' b oc' ol' disp' -> calc_load a oc ol = Ret r -> calc_load b oc' ol' = Ret r' ->
  (forall i, (i < node_count a * 2)%nat -> vel r' i = s * vel r i) ->
  forall i, (i < node_count a * 2)%nat -> flat_disp disp' i = s / (kE * kT) * flat_disp disp i.
Proof.
  intros Hm NE NT Hk Hc Hc' Lr Lr' Hr.
  pose proof (ea_built_ok a (proj1 (proj2 Hc))) as Ha. pose proof (ea_built_ok b (proj1 (proj2 Hc'))) as Hb.
  destruct (sol_facts OL Trig _ _ _ _ _ _ Hc) as (K & r1 & EK & Er & _ & R & E & _). assert (r1 = r) as -> by congruence.
  destruct (sol_facts OL Trig _ _ _ _ _ _ Hc') as (K' & r1 & EK' & Er' & _ & R' & E' & U' & _). assert (r1 = r') as -> by congruence.
  rewrite (remade_count _ _ _ _ _ Hm), Hk in *. set (q := s / (kE * kT)).
  intros i Hi. symmetry. revert i Hi. apply (U' (fun i => q * flat_disp disp i)).
  - intros n k Hnk. pose proof (respects_comb OL (ea_cons a) (flat_disp disp) (flat_disp disp) q 0 R R n k Hnk) as Q. cbv beta in Q.
    assert (Z : forall x y : A, x + 0 * y = x) by (intros; ring). rewrite !Z in Q. exact Q.
  - intros v Hv. pose proof (stiff_remade OL kE kR kT a b Hm Ha Hb K K' (flat_disp disp) v EK EK') as F. pose proof (eq_work OL _ _ _ _ _ _ E Hv) as W.
    set (N := (node_count a * 2)%nat) in *.
    transitivity (q * work N (mv N (el K') (flat_disp disp)) v - s * work N (vel r) v).
    + unfold work. rewrite <- !(bigsum_scale_l FL), <- (bigsum_sub FL). apply bigsum_ext. intros i Hi. rewrite (Hr i Hi).
      assert (Q : mv N (el K') (fun i => q * flat_disp disp i) i = q * mv N (el K') (flat_disp disp) i) by (unfold mv; rewrite <- (bigsum_scale_l FL); apply bigsum_ext; intros; ring).
      rewrite Q. ring.
    + rewrite F, W. unfold q. field. auto.
Qed.
Lemma remade_stress r r' : remade kE kR kT a b -> kE <> 0 -> kT <> 0 -> s = kT -> ea_cons b = ea_cons a -> (forall e, e ∈ ea_elems a -> twice_area e <> 0) ->
  computed h name a oc ol disp -> computed h' name' b oc' ol' disp' -> calc_load a oc ol = Ret r -> calc_load b oc' ol' = Ret r' ->
  (forall i, (i < node_count a * 2)%nat -> vel r' i = s * vel r i) -> ea_von_mises b disp' = ea_von_mises a disp.
Proof.
  intros Hm NE NT Hs Hk Hd Hc Hc' Lr Lr' Hr. pose proof (remade_solution r r' Hm NE NT Hk Hc Hc' Lr Lr' Hr) as S.
  pose proof (ea_built_ok a (proj1 (proj2 Hc))) as Ha. pose proof (ea_built_ok b (proj1 (proj2 Hc'))) as Hb.
  destruct Hc as (_ & _ & _ & so & _ & E). destruct Hc' as (_ & _ & _ & so' & _ & E').
  destruct (calc_disp_planar _ _ _ _ _ _ Ha E) as (u & ->). destruct (calc_disp_planar _ _ _ _ _ _ Hb E') as (u' & ->).
  rewrite (remade_count _ _ _ _ _ Hm) in *. apply (mises_remade OL kE kR kT a b Hm Ha Hb u u' Hd).
  intros i Hi. specialize (S i Hi). rewrite !flat_disp_of in S by exact Hi. rewrite S, Hs. field. auto.
Qed.
End solve.
