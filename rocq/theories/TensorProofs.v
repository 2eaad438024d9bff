(** The stress tensors of a body in another frame of reference. *)
From Coq Require Import Ascii String.
From Verif Require Export FrameProofs.
From Verif Require Import CliProofs CliMesh CliStudy.
From Verif Require Import Cli.
Local Close Scope string_scope.
Local Open Scope nat_scope.
Local Open Scope list_scope.
Local Notation xy := ElemProofs.xy.

(** *** spec: the plane tensor ((x, w), (w, y)) seen from the frame [f], divided by its size *)
Section spec.
Context {A : arith}.
Local Open Scope arith_scope.
Definition turned_tensor (f : frame A) (x y w x' y' w' : A) : Prop :=
  f_lam f * x' = f_c f * f_c f * x - (1 + 1) * f_c f * f_s f * w + f_s f * f_s f * y /\
  f_lam f * y' = f_s f * f_s f * x + (1 + 1) * f_c f * f_s f * w + f_c f * f_c f * y /\
  f_lam f * w' = f_c f * f_s f * (x - y) + (f_c f * f_c f - f_s f * f_s f) * w.
Definition turned_stress (f : frame A) (t t' : stress A) : Prop := exists x y w x' y' w',
  t = Stress Plane [x; y; w; 0; 0; 0] /\ t' = Stress Plane [x'; y'; w'; 0; 0; 0] /\ turned_tensor f x y w x' y' w'.
Definition turned_opt (f : frame A) (o o' : option (stress A)) : Prop :=
  match o, o' with Some t, Some t' => turned_stress f t t' | None, None => True | _, _ => False end.
(** what does not depend on the frame *)
Definition trace (t : stress A) : A := nth 0 (st_data t) 0 + nth 1 (st_data t) 0.
Definition tdet (t : stress A) : A := nth 0 (st_data t) 0 * nth 1 (st_data t) 0 - nth 2 (st_data t) 0 * nth 2 (st_data t) 0.
End spec.

Section tensor.
Context {A : arith} (OL : ord_laws A).
Let FL : field_laws A := ol_field A OL.
Add Field Afield84 : (fl_field A FL).
Local Open Scope arith_scope.
Context (f : frame A) (Hf : is_frame f).
Local Notation c := (f_c f). Local Notation s := (f_s f). Local Notation lam := (f_lam f).

Lemma invariants t t' : turned_stress f t t' -> lam * trace t' = trace t /\ lam * lam * tdet t' = tdet t.
Proof.
  intros (x & y & w & x' & y' & w' & -> & -> & X & Y & W). unfold trace, tdet. cbn [st_data nth]. destruct Hf as [H1 _]. set (n := c * c + s * s) in *. split.
  - transitivity (lam * x' + lam * y'); [ring|]. rewrite X, Y. transitivity (n * (x + y)); [unfold n; ring|]. rewrite H1. ring.
  - transitivity (lam * x' * (lam * y') - lam * w' * (lam * w')); [ring|]. rewrite X, Y, W. transitivity (n * n * (x * y - w * w)); [unfold n; ring|]. rewrite H1. ring.
Qed.
Lemma invariants_one t t' : f_lam f = 1 -> turned_stress f t t' -> trace t' = trace t /\ tdet t' = tdet t.
Proof. intros Hl H. destruct (invariants t t' H) as [I1 I2]. rewrite Hl in I1, I2. split; [rewrite <- I1|rewrite <- I2]; ring. Qed.
Definition plane (k : strain_cond A) : Prop := match k with Axisymmetric => False | _ => True end.
Lemma law k m : plane k -> 1 - m_poisson m <> 0 -> exists off z, forall e : nat -> A,
  bigsum 3 (fun l => c_c k m 0 l * e l) = z * (e 0%nat + off * e 1%nat) /\ bigsum 3 (fun l => c_c k m 1 l * e l) = z * (off * e 0%nat + e 1%nat) /\
  bigsum 3 (fun l => c_c k m 2 l * e l) = z * ((1 - off) / (1 + 1)) * e 2%nat.
Proof.
  intros Hk Hv. pose proof (two_neq OL) as H2. exists (match k with PlaneStress _ => m_poisson m | _ => m_poisson m / (1 - m_poisson m) end), (c_scale k m). intros e.
  unfold c_c. cbv [bigsum Nat.eqb orb]. change (s2 : A) with (1 + 1 : A). generalize (c_scale k m). intros z. destruct k as [t|t| ]; [| |contradiction];
  (split; [|split]; field; auto).
Qed.
Context (a b : elas A) (Hm : moved f a b) (Ha : ea_ok a) (Hb : ea_ok b) (Hp : plane (ea_cond a)) (Hv : 1 - m_poisson (ea_mat a) <> 0)
  (Hd : forall e, e ∈ ea_elems a -> twice_area e <> 0).
Lemma sig_turned k e e' us us' r t : ea_elems a !! k = Some e -> ea_elems b !! k = Some e' -> (forall j, (j < 6)%nat -> vel us' j = turn f (vel us) j) ->
  turned_tensor f (sig_c e us r t 0) (sig_c e us r t 1) (sig_c e us r t 2) (sig_c e' us' r t 0) (sig_c e' us' r t 1) (sig_c e' us' r t 2).
Proof.
  intros Hk Hk' Hu. destruct (moved_el f a b Hm Ha Hb k e Hk) as (e2 & Hk2 & Ei & Ec & Em & P0 & P1 & P2). assert (e2 = e') as -> by congruence. clear Hk2.
  assert (Hin : e ∈ ea_elems a) by (now apply elem_of_list_lookup_2 in Hk). destruct (proj2 Ha e Hin) as (_ & M & C & _).
  rewrite !(sig_strain FL), P0, P1, P2, <- Ec, <- Em, M, C. assert (vec_len (ea_cond a) = 3%nat) as -> by (destruct (ea_cond a); [reflexivity..|contradiction]).
  set (p := xy (e_pts e).1.1) in *. set (q := xy (e_pts e).1.2) in *. set (w' := xy (e_pts e).2) in *.
  assert (Hdc : det_c p q w' <> 0) by (rewrite (det_area FL); exact (Hd e Hin)).
  destruct (strain_place OL f Hf p q w' r t (vel us) Hdc) as (X0 & X1 & X2).
  assert (E : forall B l, strain B (vel us') l = strain B (turn f (vel us)) l) by (intros B l; unfold strain; apply bigsum_ext; intros j Hj; now rewrite Hu).
  destruct (law (ea_cond a) (ea_mat a) Hp Hv) as (off & z & G).
  destruct (G (strain (b_c p q w' r t) (vel us))) as (-> & -> & ->).
  destruct (G (strain (b_c (FrameProofs.place f p) (FrameProofs.place f q) (FrameProofs.place f w') r t) (vel us'))) as (-> & -> & ->). rewrite !E, X0, X1, X2.
  generalize (strain (b_c p q w' r t) (vel us) 0) (strain (b_c p q w' r t) (vel us) 1) (strain (b_c p q w' r t) (vel us) 2). intros x0 x1 x2.
  pose proof (two_neq OL) as H2. destruct Hf as [_ Hl]. split; [|split]; field; auto.
Qed.
Definition turned_at (x y : nat * stress A) : Prop := y.1 = x.1 /\ turned_stress f x.2 y.2.
Lemma stresses_turned k e e' u u' : ea_elems a !! k = Some e -> ea_elems b !! k = Some e' -> (forall i, (i < node_count a * 2)%nat -> u' i = turn f u i) ->
  exists l l', e_stresses e (idx (map (disp_of u) (seq 0 (node_count a)))) = Ret l /\ e_stresses e' (idx (map (disp_of u') (seq 0 (node_count a)))) = Ret l' /\
    Forall2 turned_at l l' /\ Forall (fun x => x.1 < node_count a)%nat l.
Proof.
  intros Hk Hk' Hu. destruct (moved_el f a b Hm Ha Hb k e Hk) as (e2 & Hk2 & Ei & Ec & Em & P0 & P1 & P2). assert (e2 = e') as -> by congruence. clear Hk2.
  pose proof (elem_of_list_lookup_2 _ _ _ Hk) as Hin. pose proof (proj2 Ha e Hin) as Ho. pose proof (area_distinct FL a e Ho (Hd e Hin)) as Hds.
  destruct (proj2 Hb e' (elem_of_list_lookup_2 _ _ _ Hk')) as (P' & _). destruct Ho as (P & M & C & H0 & H1 & H2).
  assert (Hid : forall n, n ∈ e_id_list e -> (n < node_count a)%nat).
  { apply lookup_lt_Some in H0, H1, H2. unfold e_id_list. intros n Hn. destruct (e_ids e) as [[x y] z]. cbn [fst snd] in *. change (length (ea_nodes a)) with (node_count a) in *.
    repeat (apply elem_of_cons in Hn as [->|Hn]; [assumption|]). now apply elem_of_nil in Hn. }
  assert (G : forall (v : nat -> A) n, n ∈ e_id_list e -> idx (map (disp_of v) (seq 0 (node_count a))) n = Ret (disp_of v n) /\ p_n (disp_of v n) = 2%nat).
  { intros v n Hn. split; [|reflexivity]. unfold idx. rewrite list_lookup_fmap, lookup_seq_lt by (now apply Hid). reflexivity. }
  assert (Eid : e_id_list e' = e_id_list e) by (unfold e_id_list; now rewrite Ei).
  eexists _, _. split; [exact (e_stresses_ret e _ (disp_of u) P Hds (G u))|].
  split; [exact (e_stresses_ret e' _ (disp_of u') P' ltac:(now rewrite Ei) ltac:(rewrite Eid; exact (G u')))|].
  assert (V : forall j, (j < 6)%nat -> vel (disp_list (disp_of u') (e_ids e')) j = turn f (vel (disp_list (disp_of u) (e_ids e))) j).
  { rewrite Ei. assert (B0 : forall n, n ∈ e_id_list e -> u' (n * 2)%nat = c * u (n * 2)%nat - s * u (n * 2 + 1)%nat).
    { intros n Hn. rewrite Hu by (pose proof (Hid n Hn); lia). apply turn_even. }
    assert (B1 : forall n, n ∈ e_id_list e -> u' (n * 2 + 1)%nat = s * u (n * 2)%nat + c * u (n * 2 + 1)%nat).
    { intros n Hn. rewrite Hu by (pose proof (Hid n Hn); lia). apply turn_odd. }
    unfold e_id_list in B0, B1. unfold disp_list. destruct (e_ids e) as [[x0 x1] x2]. cbn [fst snd] in *. intros j Hj.
    do 6 (destruct j as [|j]; [cbn; first [apply B0|apply B1]; rewrite ?elem_of_cons; auto|]). lia. }
  split.
  - assert (T : forall k0, turned_stress f (Stress (cond_kind (e_cond e)) (pad6 (vec_len (e_cond e)) (sig_c e (disp_list (disp_of u) (e_ids e)) (corner k0).1 (corner k0).2)))
      (Stress (cond_kind (e_cond e')) (pad6 (vec_len (e_cond e')) (sig_c e' (disp_list (disp_of u') (e_ids e')) (corner k0).1 (corner k0).2)))).
    { intros k0. pose proof (sig_turned k e e' _ _ (corner k0).1 (corner k0).2 Hk Hk' V) as T. rewrite <- Ec, C.
      eexists _, _, _, _, _, _. split; [|split; [|exact T]]; (destruct (ea_cond a); [reflexivity..|contradiction]). }
    rewrite Eid. cbn [map]. repeat constructor; apply T.
  - cbn [map]. unfold e_id_list in *. cbn [nth] in *. repeat constructor; cbn [fst]; apply Hid; rewrite ?elem_of_cons; auto.
Qed.
(** *** averages *)
Definition turned_avg (v v' : average (stress A)) : Prop := av_n v' = av_n v /\ turned_opt f (av_avg v) (av_avg v').
Lemma div_lin (x y k : A) : (x + y) / k = x / k + y / k.
Proof. rewrite (Fdiv_def (fl_field A FL) (x + y) k), (Fdiv_def (fl_field A FL) x k), (Fdiv_def (fl_field A FL) y k). ring. Qed.
Lemma update_turned v v' t t' : turned_avg v v' -> turned_stress f t t' -> exists w w', st_update v t = Ret w /\ st_update v' t' = Ret w' /\ turned_avg w w'.
Proof.
  intros [Hn Ho] Ht. unfold st_update. rewrite Hn. destruct (av_avg v) as [m|], (av_avg v') as [m'|]; try contradiction.
  - destruct Ho as (x & y & w & x' & y' & w' & -> & -> & X & Y & W). destruct Ht as (x1 & y1 & w1 & x1' & y1' & w1' & -> & -> & X1 & Y1 & W1).
    unfold st_add, st_mul. cbn [st_type st_data map zip_with]. cbn [mbind out_bind]. eexists _, _. split; [reflexivity|]. split; [reflexivity|].
    split; [reflexivity|]. cbn [av_avg turned_opt]. unfold st_div. cbn [st_type st_data map].
    pose proof (pos_neq OL _ (sz_pos OL (Pos.of_succ_nat (av_n v)))) as Hk. change (Z.pos (Pos.of_succ_nat (av_n v))) with (Z.of_nat (S (av_n v))) in *.
    set (k := sz (Z.of_nat (S (av_n v))) : A) in *. set (m := sz (Z.of_nat (av_n v)) : A).
    assert (Z : (0 * m + 0) / k = 0) by (field; exact Hk). rewrite !Z.
    eexists _, _, _, _, _, _. split; [reflexivity|]. split; [reflexivity|].
    unfold turned_tensor in *. split; [|split].
    + transitivity ((lam * x' * m + lam * x1') / k); [field; exact Hk|]. rewrite X, X1. field. exact Hk.
    + transitivity ((lam * y' * m + lam * y1') / k); [field; exact Hk|]. rewrite Y, Y1. field. exact Hk.
    + transitivity ((lam * w' * m + lam * w1') / k); [field; exact Hk|]. rewrite W, W1. field. exact Hk.
  - eexists _, _. split; [reflexivity|]. split; [reflexivity|]. split; [reflexivity|exact Ht].
Qed.
Lemma fold_turned l l' av av' : Forall2 turned_at l l' -> Forall (fun x => x.1 < length av)%nat l -> Forall2 turned_avg av av' ->
  exists r r', foldM (fun ns avs => v ← idx avs ns.1; v ← st_update v ns.2; set avs ns.1 v) l av = Ret r /\
    foldM (fun ns avs => v ← idx avs ns.1; v ← st_update v ns.2; set avs ns.1 v) l' av' = Ret r' /\ Forall2 turned_avg r r' /\ length r = length av.
Proof.
  intros HH. revert av av'. induction HH as [|[n t] [n' t'] l l' [En Ht] _ IH]; intros av av' Hl Hav; [eexists _, _; repeat split; eauto|].
  cbn [fst snd] in *. subst n'. apply Forall_cons in Hl as [Hn Hl]. cbn [fst] in Hn. cbn [foldM fst snd].
  destruct (lookup_lt_is_Some_2 _ _ Hn) as (v & Ev). pose proof (Forall2_lookup_l _ _ _ _ _ Hav Ev) as (v' & Ev' & Hvv).
  assert (I1 : idx av n = Ret v) by (unfold idx; now rewrite Ev). assert (I2 : idx av' n = Ret v') by (unfold idx; now rewrite Ev'). rewrite I1, I2. cbn [mbind out_bind]. destruct (update_turned v v' t t' Hvv Ht) as (w & w' & -> & -> & Hw). cbn [mbind out_bind].
  pose proof (Forall2_length _ _ _ Hav) as Ln. rewrite (set_lookup av) by exact Hn. rewrite (set_lookup av') by (rewrite <- Ln; exact Hn). cbn [mbind out_bind].
  destruct (IH (<[n:=w]> av) (<[n:=w']> av')) as (r & r' & E & E' & H & L).
  - rewrite insert_length. exact Hl.
  - now apply Forall2_insert.
  - exists r, r'. split; [exact E|]. split; [exact E'|]. split; [exact H|]. rewrite L. apply insert_length.
Qed.
Lemma tensors_turned u u' : (forall i, (i < node_count a * 2)%nat -> u' i = turn f u i) ->
  exists l l', ea_stresses a (map (disp_of u) (seq 0 (node_count a))) = Ret l /\ ea_stresses b (map (disp_of u') (seq 0 (node_count a))) = Ret l' /\ Forall2 (turned_opt f) l l'.
Proof.
  intros Hu. unfold ea_stresses. rewrite <- (moved_count f a b Hm).
  assert (HH : Forall2 (fun e e' => exists l l', e_stresses (A := A) e (idx (map (disp_of u) (seq 0 (node_count a)))) = Ret l /\
    e_stresses (A := A) e' (idx (map (disp_of u') (seq 0 (node_count a)))) = Ret l' /\ Forall2 turned_at l l' /\ Forall (fun x => x.1 < node_count a)%nat l) (ea_elems a) (ea_elems b)).
  { apply Forall2_same_length_lookup. split.
    - pose proof (f_equal length (mv_elems _ _ _ Hm)) as E. now rewrite !map_length in E.
    - intros k e e' Hk Hk'. exact (stresses_turned k e e' u u' Hk Hk' Hu). }
  assert (L0 : length (replicate (node_count a) (@average_new (stress A))) = node_count a) by apply replicate_length.
  assert (T0 : Forall2 turned_avg (replicate (node_count a) average_new) (replicate (node_count a) average_new)) by (apply Forall2_replicate; split; [reflexivity|exact I]).
  revert L0 T0. generalize (replicate (node_count a) (@average_new (stress A))) at 1 2 4. generalize (replicate (node_count a) (@average_new (stress A))).
  clear Hd Hu. induction HH as [|e e' es es' (l & l' & E & E' & T & B) _ IH]; intros av' av L0 T0.
  - cbn [foldM mbind out_bind]. eexists _, _. split; [reflexivity|]. split; [reflexivity|]. apply Forall2_fmap. eapply Forall2_impl; [exact T0|]. intros v v' [_ H]. exact H.
  - cbn [foldM]. rewrite E, E'. cbn [mbind out_bind]. destruct (fold_turned l l' av av' T ltac:(rewrite L0; exact B) T0) as (r & r' & Er & Er' & Hr & Lr).
    rewrite Er, Er'. cbn [mbind out_bind]. apply IH; [congruence|exact Hr].
Qed.
End tensor.

Section study.
Context {A : arith} (OL : ord_laws A) (Trig : forall th : A, sadd (smul (scos th) (scos th)) (smul (ssin th) (ssin th)) = s1).
Local Open Scope arith_scope.
Lemma study_tensors (f : frame A) (h : hashes A) name (a : elas A) oc ol disp (h' : hashes A) name' (b : elas A) oc' ol' disp' r r' :
  is_frame f -> computed h name a oc ol disp -> computed h' name' b oc' ol' disp' -> moved f a b -> plane (ea_cond a) ->
  1 - m_poisson (ea_mat a) <> 0 -> (forall e, e ∈ ea_elems a -> twice_area e <> 0) ->
  Forall2 (turned_support f) (ea_cons a) (ea_cons b) -> calc_load a oc ol = Ret r -> calc_load b oc' ol' = Ret r' ->
  (forall i, (i < node_count a * 2)%nat -> vel r' i = turn f (vel r) i) ->
  exists l l', ea_stresses a disp = Ret l /\ ea_stresses b disp' = Ret l' /\ Forall2 (turned_opt f) l l'.
Proof.
  intros Hf Hc Hc' Hm Hp Hv Hd HF Lr Lr' Hr.
  assert (Hs : suits f (ea_cond a)) by (destruct (ea_cond a); [exact I..|contradiction]).
  pose proof (moved_solution OL Trig f h name a oc ol disp h' name' b oc' ol' disp' r r' Hf Hc Hc' Hm Hs Hv Hd HF Lr Lr' Hr) as S.
  pose proof (ea_built_ok a (proj1 (proj2 Hc))) as Ha. pose proof (ea_built_ok b (proj1 (proj2 Hc'))) as Hb.
  destruct Hc as (_ & _ & _ & so & _ & E). destruct Hc' as (_ & _ & _ & so' & _ & E').
  destruct (calc_disp_planar _ _ _ _ _ _ Ha E) as (u & ->). destruct (calc_disp_planar _ _ _ _ _ _ Hb E') as (u' & ->).
  rewrite <- (moved_count f a b Hm) in *. apply (tensors_turned OL f Hf a b Hm Ha Hb Hp Hv Hd u u').
  intros i Hi. specialize (S i Hi). rewrite (flat_disp_of u') in S by exact Hi. rewrite S. unfold turn.
  destruct (Nat.even i) eqn:Ev.
  - apply Nat.even_spec in Ev as (n & ->). rewrite !flat_disp_of by lia. reflexivity.
  - rewrite !flat_disp_of by lia. reflexivity.
Qed.
End study.
