(** Moving, turning and enlarging a body. *)
From Coq Require Import Ascii String.
From Verif Require Export EnergyProofs StressPatch.
From Verif Require Import Cli CliMesh.
Local Close Scope string_scope.
Local Open Scope nat_scope.
Local Notation xy := ElemProofs.xy.

(** *** spec *)
Section spec.
Context {A : arith}.
Local Open Scope arith_scope.
(** turn by the angle with cosine [c] and sine [s], enlarge by [lam], then shift *)
Record frame := Frame { f_c : A; f_s : A; f_lam : A; f_tx : A; f_ty : A }.
Definition place (f : frame) (p : A * A) : A * A :=
  (f_lam f * (f_c f * p.1 - f_s f * p.2) + f_tx f, f_lam f * (f_s f * p.1 + f_c f * p.2) + f_ty f).
Definition is_frame (f : frame) : Prop := f_c f * f_c f + f_s f * f_s f = 1 /\ f_lam f <> 0.
(** the turned values of a field, component by component *)
Definition turn (f : frame) (u : nat -> A) (i : nat) : A :=
  if Nat.even i then f_c f * u i - f_s f * u (i + 1)%nat else f_s f * u (i - 1)%nat + f_c f * u i.
(** bodies of revolution can only be shifted along their axis *)
Definition suits (f : frame) (c : strain_cond A) : Prop :=
  match c with Axisymmetric => f_c f = 1 /\ f_s f = 0 /\ f_lam f = 1 /\ f_tx f = 0 | _ => True end.
(** [b] is [a] in another place *)
Record moved (f : frame) (a b : elas A) : Prop := {
  mv_nodes : Forall2 (fun p q => xy q = place f (xy p) /\ p_z q = p_z p) (ea_nodes a) (ea_nodes b);
  mv_elems : map e_ids (ea_elems a) = map e_ids (ea_elems b);
  mv_cond : ea_cond a = ea_cond b;
  mv_mat : ea_mat a = ea_mat b }.
(** the direction a support holds *)
Definition normal (k : constr A) : option (A * A) :=
  match k with XFixed => Some (1, 0) | YFixed => Some (0, 1) | AngleFixed th => Some (scos th, ssin th) | _ => None end.
Definition turned_support (f : frame) (k k' : constr A) : Prop :=
  (k = Free /\ k' = Free) \/ (k = XYFixed /\ k' = XYFixed) \/
  exists n, normal k = Some n /\ normal k' = Some (f_c f * n.1 - f_s f * n.2, f_s f * n.1 + f_c f * n.2).
End spec.
Global Arguments frame A : clear implicits.
Global Arguments Frame {A} _ _ _ _ _.

Section frame.
Context {A : arith} (OL : ord_laws A).
Let FL : field_laws A := ol_field A OL.
Add Field Afield68 : (fl_field A FL).
Local Open Scope arith_scope.
Context (f : frame A) (Hf : is_frame f).
Local Notation c := (f_c f). Local Notation s := (f_s f). Local Notation lam := (f_lam f).

Lemma turn_even u n : turn f u (n * 2) = c * u (n * 2)%nat - s * u (n * 2 + 1)%nat.
Proof. unfold turn. assert (Nat.even (n * 2) = true) as -> by (rewrite Nat.mul_comm; apply Nat.even_spec; now exists n). reflexivity. Qed.
Lemma turn_odd u n : turn f u (n * 2 + 1) = s * u (n * 2)%nat + c * u (n * 2 + 1)%nat.
Proof.
  unfold turn. assert (Nat.even (n * 2 + 1) = false) as ->.
  { rewrite <- Nat.negb_odd. replace (n * 2 + 1)%nat with (2 * n + 1)%nat by lia. rewrite (proj2 (Nat.odd_spec _)); [reflexivity|]. now exists n. }
  now rewrite Nat.add_sub.
Qed.
Lemma loc_turn e u i : (i < 6)%nat -> loc e (turn f u) i = turn f (loc e u) i.
Proof.
  intros Hi.
  assert (E : forall n, turn f u (to_dof (n, 0%nat)) = c * u (to_dof (n, 0%nat)) - s * u (to_dof (n, 1%nat))).
  { intros n. unfold to_dof. cbn [fst snd]. rewrite Nat.add_0_r. apply turn_even. }
  assert (O : forall n, turn f u (to_dof (n, 1%nat)) = s * u (to_dof (n, 0%nat)) + c * u (to_dof (n, 1%nat))).
  { intros n. unfold to_dof. cbn [fst snd]. rewrite Nat.add_0_r. apply turn_odd. }
  destruct i as [|[|[|[|[|[|i]]]]]]; [exact (E _)|exact (O _)|exact (E _)|exact (O _)|exact (E _)|exact (O _)|lia].
Qed.
(** turning back *)
Definition back : frame A := Frame c (0 - s) lam 0 0.
Lemma turn_back u i : turn f (turn back u) i = u i.
Proof.
  destruct Hf as [H1 _]. destruct (Nat.even i) eqn:E.
  - apply Nat.even_spec in E as (n & ->). replace (2 * n)%nat with (n * 2)%nat by lia. rewrite turn_even.
    unfold turn. replace (Nat.even (n * 2 + 1)) with false; [|symmetry; rewrite <- Nat.negb_odd, (proj2 (Nat.odd_spec _)); [reflexivity|exists n; lia]].
    replace (Nat.even (n * 2)) with true by (symmetry; apply Nat.even_spec; exists n; lia). rewrite Nat.add_sub. unfold back. cbn [f_c f_s].
    transitivity ((c * c + s * s) * u (n * 2)%nat); [ring|]. rewrite H1. ring.
  - rewrite <- Nat.negb_odd in E. apply negb_false_iff, Nat.odd_spec in E as (n & ->). replace (2 * n + 1)%nat with (n * 2 + 1)%nat by lia. rewrite turn_odd.
    unfold turn. replace (Nat.even (n * 2 + 1)) with false; [|symmetry; rewrite <- Nat.negb_odd, (proj2 (Nat.odd_spec _)); [reflexivity|exists n; lia]].
    replace (Nat.even (n * 2)) with true by (symmetry; apply Nat.even_spec; exists n; lia). rewrite Nat.add_sub. unfold back. cbn [f_c f_s].
    transitivity ((c * c + s * s) * u (n * 2 + 1)%nat); [ring|]. rewrite H1. ring.
Qed.
Lemma bigsum_pairs n (g : nat -> A) : bigsum (n * 2) g = bigsum n (fun k => g (k * 2)%nat + g (k * 2 + 1)%nat).
Proof.
  induction n as [|n IH]; [reflexivity|]. change (S n * 2)%nat with (S (S (n * 2))). cbn [bigsum]. rewrite IH.
  replace (n * 2 + 1)%nat with (S (n * 2)) by lia. ring.
Qed.
Lemma turn_work n (u v : nat -> A) : work (n * 2) (turn f u) (turn f v) = work (n * 2) u v.
Proof.
  destruct Hf as [H1 _]. unfold work. rewrite !bigsum_pairs. apply bigsum_ext. intros k _. rewrite !turn_even, !turn_odd.
  transitivity ((c * c + s * s) * (u (k * 2)%nat * v (k * 2)%nat + u (k * 2 + 1)%nat * v (k * 2 + 1)%nat)); [ring|]. rewrite H1. ring.
Qed.
(** *** gradients and strains *)
Lemma j_in_place k p q w : j_in k (place f p).1 (place f q).1 (place f w).1 = lam * (c * j_in k p.1 q.1 w.1 - s * j_in k p.2 q.2 w.2) /\
  j_in k (place f p).2 (place f q).2 (place f w).2 = lam * (s * j_in k p.1 q.1 w.1 + c * j_in k p.2 q.2 w.2).
Proof. unfold j_in, place. cbn [fst snd]. destruct k; split; ring. Qed.
Lemma det_place p q w : det_c (place f p) (place f q) (place f w) = lam * lam * det_c p q w.
Proof.
  destruct Hf as [H1 _]. unfold det_c. destruct (j_in_place 0 p q w) as [-> ->]. destruct (j_in_place 1 p q w) as [-> ->].
  transitivity (lam * lam * (c * c + s * s) * (j_in 0 p.1 q.1 w.1 * j_in 1 p.2 q.2 w.2 - j_in 1 p.1 q.1 w.1 * j_in 0 p.2 q.2 w.2)); [ring|].
  rewrite H1. ring.
Qed.
Lemma grad_place p q w i : det_c p q w <> 0 ->
  hg_c 0 (place f p) (place f q) (place f w) i = (c * hg_c 0 p q w i - s * hg_c 1 p q w i) / lam /\
  hg_c 1 (place f p) (place f q) (place f w) i = (s * hg_c 0 p q w i + c * hg_c 1 p q w i) / lam.
Proof.
  intros Hd. destruct Hf as [_ Hl]. unfold hg_c. rewrite det_place. destruct (j_in_place 0 p q w) as [-> ->]. destruct (j_in_place 1 p q w) as [-> ->].
  set (d := det_c p q w) in *. destruct i as [|[|i]]; split; field; auto.
Qed.
Lemma strain_place p q w r t u : det_c p q w <> 0 ->
  let e k := strain (b_c p q w r t) u k in let e' k := strain (b_c (place f p) (place f q) (place f w) r t) (turn f u) k in
  e' 0%nat = (c * c * e 0%nat + s * s * e 1%nat - c * s * e 2%nat) / lam /\
  e' 1%nat = (s * s * e 0%nat + c * c * e 1%nat + c * s * e 2%nat) / lam /\
  e' 2%nat = ((1 + 1) * c * s * (e 0%nat - e 1%nat) + (c * c - s * s) * e 2%nat) / lam.
Proof.
  intros Hd. cbv zeta. destruct Hf as [_ Hl]. rewrite !strain_0 by exact FL. rewrite !strain_1 by exact FL. rewrite !strain_2 by exact FL.
  destruct (grad_place p q w 0 Hd) as [-> ->]. destruct (grad_place p q w 1 Hd) as [-> ->]. destruct (grad_place p q w 2 Hd) as [-> ->].
  unfold turn. cbn [Nat.even Nat.add Nat.sub]. split; [|split]; field; exact Hl.
Qed.
(** *** isotropy *)
Lemma energy_plane cond (m : material A) (x y : nat -> A) : match cond with Axisymmetric => False | _ => True end -> 1 - m_poisson m <> 0 ->
  exists k1 k2, energy 3 (c_c cond m) x y =
    k1 * ((x 0%nat + x 1%nat) * (y 0%nat + y 1%nat)) + k2 * ((x 0%nat - x 1%nat) * (y 0%nat - y 1%nat) + x 2%nat * y 2%nat) /\
    forall x y : nat -> A, energy 3 (c_c cond m) x y =
      k1 * ((x 0%nat + x 1%nat) * (y 0%nat + y 1%nat)) + k2 * ((x 0%nat - x 1%nat) * (y 0%nat - y 1%nat) + x 2%nat * y 2%nat).
Proof.
  intros Hc Hv. pose proof (two_neq OL) as H2.
  set (v := m_poisson m) in *. set (off := match cond with PlaneStress _ => v | _ => v / (1 - v) end).
  assert (G : forall x y : nat -> A, energy 3 (c_c cond m) x y =
     (1 + off) / (1 + 1) * c_scale cond m * ((x 0%nat + x 1%nat) * (y 0%nat + y 1%nat)) +
     (1 - off) / (1 + 1) * c_scale cond m * ((x 0%nat - x 1%nat) * (y 0%nat - y 1%nat) + x 2%nat * y 2%nat)).
  { intros x' y'. unfold energy, c_c. fold v. cbv [bigsum Nat.eqb orb]. change (s2 : A) with (1 + 1 : A). unfold off. generalize (c_scale cond m). intros z.
    destruct cond as [t|t| ]; [| |contradiction]; field; auto. }
  eexists _, _. split; [apply G|exact G].
Qed.
Lemma energy_turn cond m (x y x' y' : nat -> A) : match cond with Axisymmetric => False | _ => True end -> 1 - m_poisson m <> 0 ->
  x' 0%nat = (c * c * x 0%nat + s * s * x 1%nat - c * s * x 2%nat) / lam ->
  x' 1%nat = (s * s * x 0%nat + c * c * x 1%nat + c * s * x 2%nat) / lam ->
  x' 2%nat = ((1 + 1) * c * s * (x 0%nat - x 1%nat) + (c * c - s * s) * x 2%nat) / lam ->
  y' 0%nat = (c * c * y 0%nat + s * s * y 1%nat - c * s * y 2%nat) / lam ->
  y' 1%nat = (s * s * y 0%nat + c * c * y 1%nat + c * s * y 2%nat) / lam ->
  y' 2%nat = ((1 + 1) * c * s * (y 0%nat - y 1%nat) + (c * c - s * s) * y 2%nat) / lam ->
  lam * lam * energy 3 (c_c cond m) x' y' = energy 3 (c_c cond m) x y.
Proof.
  intros Hc Hv X0 X1 X2 Y0 Y1 Y2. destruct Hf as [H1 Hl]. destruct (energy_plane cond m x y Hc Hv) as (k1 & k2 & _ & G). rewrite !G.
  rewrite X0, X1, X2, Y0, Y1, Y2. clear X0 X1 X2 Y0 Y1 Y2 G.
  generalize (x 0%nat) (x 1%nat) (x 2%nat) (y 0%nat) (y 1%nat) (y 2%nat). intros x0 x1 x2 y0 y1 y2.
  set (n := c * c + s * s) in *.
  transitivity (k1 * (n * (x0 + x1) * (n * (y0 + y1))) + k2 * (n * n * ((x0 - x1) * (y0 - y1) + x2 * y2))); [unfold n; field; exact Hl|].
  rewrite H1. ring.
Qed.
Context (a b : elas A) (Hm : moved f a b) (Ha : ea_ok a) (Hb : ea_ok b) (Hs : suits f (ea_cond a)) (Hv : 1 - m_poisson (ea_mat a) <> 0)
  (Hd : forall e, e ∈ ea_elems a -> twice_area e <> 0).
Lemma moved_el k e : ea_elems a !! k = Some e -> exists e', ea_elems b !! k = Some e' /\ e_ids e' = e_ids e /\ e_cond e = e_cond e' /\ e_mat e = e_mat e' /\
  xy (e_pts e').1.1 = place f (xy (e_pts e).1.1) /\ xy (e_pts e').1.2 = place f (xy (e_pts e).1.2) /\ xy (e_pts e').2 = place f (xy (e_pts e).2).
Proof.
  intros Hk. pose proof (f_equal (fun l => l !! k) (mv_elems _ _ _ Hm)) as E. cbv beta in E. rewrite !list_lookup_fmap, Hk in E. cbn in E.
  destruct (ea_elems b !! k) as [e'|] eqn:Hk'; [|discriminate]. cbn in E. injection E as E. exists e'. split; [reflexivity|]. split; [congruence|].
  destruct (proj2 Ha e) as (_ & M & C & P0 & P1 & P2); [now apply elem_of_list_lookup_2 in Hk|].
  destruct (proj2 Hb e') as (_ & M' & C' & P0' & P1' & P2'); [now apply elem_of_list_lookup_2 in Hk'|].
  split; [rewrite C, C'; apply Hm|]. split; [rewrite M, M'; apply Hm|]. rewrite <- E in P0', P1', P2'.
  pose proof (proj1 (Forall2_lookup _ _ _) (mv_nodes _ _ _ Hm)) as N. split; [|split].
  - specialize (N (e_ids e).1.1). rewrite P0, P0' in N. inversion N as [? ? [? _]|]; assumption.
  - specialize (N (e_ids e).1.2). rewrite P1, P1' in N. inversion N as [? ? [? _]|]; assumption.
  - specialize (N (e_ids e).2). rewrite P2, P2' in N. inversion N as [? ? [? _]|]; assumption.
Qed.
Lemma moved_count : node_count a = node_count b.
Proof. exact (Forall2_length _ _ _ (mv_nodes _ _ _ Hm)). Qed.
Lemma turn_ext u v i : (forall j, u j = v j) -> turn f u i = turn f v i.
Proof. intros H. unfold turn. now rewrite !H. Qed.
Lemma el_form_ext g (u u' w w' : nat -> A) : (forall i, (i < 6)%nat -> u i = u' i) -> (forall i, (i < 6)%nat -> w i = w' i) -> el_form g u w = el_form g u' w'.
Proof. intros H1 H2. unfold el_form. apply bigsum_ext. intros i Hi. apply bigsum_ext. intros j Hj. now rewrite H1, H2. Qed.
Lemma at_samples_eq (g h : A -> A -> A) : (forall r t, g r t = h r t) -> at_samples g = at_samples h.
Proof. exact (at_samples_ext g h). Qed.
Lemma strain_ext B (u v : nat -> A) k : (forall i, u i = v i) -> strain B u k = strain B v k.
Proof. intros H. apply bigsum_ext. intros i _. now rewrite H. Qed.
Lemma el_form_moved k e e' u w : ea_elems a !! k = Some e -> ea_elems b !! k = Some e' ->
  el_form (K_c e') (loc e' (turn f u)) (loc e' (turn f w)) = el_form (K_c e) (loc e u) (loc e w).
Proof.
  intros Hk Hk'. destruct (moved_el k e Hk) as (e2 & Hk2 & Ei & Ec & Em & P0 & P1 & P2). assert (e2 = e') as -> by congruence. clear Hk2.
  assert (Hin : e ∈ ea_elems a) by (now apply elem_of_list_lookup_2 in Hk). pose proof (Hd e Hin) as Hde.
  destruct (proj2 Ha e Hin) as (_ & M & C & _).
  assert (L : forall x i, loc e' x i = loc e x i) by (intros x i; unfold loc, e_dof, e_id_list; now rewrite Ei).
  rewrite (el_form_ext _ _ (turn f (loc e u)) _ (turn f (loc e w))) by (intros i Hi; rewrite L; now apply loc_turn).
  rewrite !(K_form FL). apply at_samples_eq. intros r t. unfold mats_c. cbn [em_det em_th]. rewrite P0, P1, P2, <- Ec, <- Em.
  set (p := xy (e_pts e).1.1) in *. set (q := xy (e_pts e).1.2) in *. set (w' := xy (e_pts e).2) in *.
  assert (Hdc : det_c p q w' <> 0) by (rewrite (det_area FL); exact Hde). rewrite det_place.
  destruct (strain_place p q w' r t (loc e u) Hdc) as (X0 & X1 & X2). destruct (strain_place p q w' r t (loc e w) Hdc) as (Y0 & Y1 & Y2).
  destruct (e_cond e) as [th|th| ] eqn:Ece.
  - cbn [vec_len th_c]. rewrite <- (energy_turn (PlaneStrain th) (e_mat e) _ _ _ _ I ltac:(now rewrite M) X0 X1 X2 Y0 Y1 Y2). ring.
  - cbn [vec_len th_c]. rewrite <- (energy_turn (PlaneStress th) (e_mat e) _ _ _ _ I ltac:(now rewrite M) X0 X1 X2 Y0 Y1 Y2). ring.
  - rewrite <- C in Hs. destruct Hs as (Hc1 & Hs1 & Hl1 & Ht1). cbn [vec_len th_c].
    assert (Q : forall z, (place f z).1 = z.1) by (intros z; unfold place; cbn [fst]; rewrite Hc1, Hs1, Hl1, Ht1; ring).
    rewrite !Q, Hl1.
    assert (T : forall x i, turn f x i = x i) by (intros x i; unfold turn; rewrite Hc1, Hs1; destruct (Nat.even i); ring).
    assert (Z3 : forall x, strain (b_c (place f p) (place f q) (place f w') r t) (turn f x) 3 = strain (b_c p q w' r t) x 3).
    { intros x. rewrite !(strain_3 FL), !Q, !T. reflexivity. }
    pose proof (Z3 (loc e u)) as X3. pose proof (Z3 (loc e w)) as Y3. rewrite Hc1, Hs1, Hl1 in X0, X1, X2, Y0, Y1, Y2.
    assert (one : (1 : A) <> 0) by (destruct Hf as [_ Hl]; now rewrite Hl1 in Hl).
    assert (S : forall (x y : nat -> A) k z1 z2, (z1 + z2 - 0 * y k) / 1 = z1 + z2 :> A) by (intros; field; exact one).
    unfold energy. cbn [bigsum]. rewrite X0, X1, X2, X3, Y0, Y1, Y2, Y3. field. exact one.
Qed.
Lemma form_moved K K' u w : ea_calc_k a = Ret K -> ea_calc_k b = Ret K' ->
  work (node_count b * 2) (mv (node_count b * 2) (el K') (turn f u)) (turn f w) = work (node_count a * 2) (mv (node_count a * 2) (el K) u) w.
Proof.
  intros EK EK'. destruct (assembled_k FL a Ha) as (K1 & E1 & _ & _ & V). assert (K1 = K) as -> by congruence.
  destruct (assembled_k FL b Hb) as (K1 & E2 & _ & _ & V'). assert (K1 = K') as -> by congruence.
  assert (G : forall n (K : dict A) g (u w : nat -> A), (forall i j, el K i j = g i j) ->
     work n (mv n (el K) u) w = bigsum n (fun i => bigsum n (fun j => w i * g i j * u j))).
  { intros n K0 g u0 w0 Hg. unfold work, mv. apply bigsum_ext. intros i _. rewrite <- (bigsum_scale_r FL). apply bigsum_ext. intros j _. rewrite Hg. ring. }
  rewrite (G _ _ _ _ _ V), (G _ _ _ _ _ V'). rewrite (assembled_form FL a K_c _ _ Ha), (assembled_form FL b K_c _ _ Hb). f_equal.
  assert (HH : Forall2 (fun e e' => el_form (K_c e') (loc e' (turn f w)) (loc e' (turn f u)) = el_form (K_c e) (loc e w) (loc e u)) (ea_elems a) (ea_elems b)).
  { apply Forall2_same_length_lookup. split.
    - pose proof (f_equal length (mv_elems _ _ _ Hm)) as E. now rewrite !map_length in E.
    - intros k e e' Hk Hk'. exact (el_form_moved k e e' w u Hk Hk'). }
  clear - HH. induction HH as [|e e' l l' He _ IH]; [reflexivity|]. cbn [map]. now rewrite He, IH.
Qed.
Lemma respects_turn : Forall2 (turned_support f) (ea_cons a) (ea_cons b) -> forall v, respects (ea_cons b) (turn f v) <-> respects (ea_cons a) v.
Proof.
  intros HF v. destruct Hf as [H1 _].
  assert (one : forall n k k', turned_support f k k' ->
     (match k' with
      | Free => True | XFixed => turn f v (n * 2)%nat = 0 | YFixed => turn f v (n * 2 + 1)%nat = 0
      | XYFixed => turn f v (n * 2)%nat = 0 /\ turn f v (n * 2 + 1)%nat = 0
      | AngleFixed th => scos th * turn f v (n * 2)%nat + ssin th * turn f v (n * 2 + 1)%nat = 0 end <->
      match k with
      | Free => True | XFixed => v (n * 2)%nat = 0 | YFixed => v (n * 2 + 1)%nat = 0
      | XYFixed => v (n * 2)%nat = 0 /\ v (n * 2 + 1)%nat = 0
      | AngleFixed th => scos th * v (n * 2)%nat + ssin th * v (n * 2 + 1)%nat = 0 end)).
  { intros n k k' Hk. rewrite turn_even, turn_odd. set (x := v (n * 2)%nat). set (y := v (n * 2 + 1)%nat).
    destruct Hk as [[-> ->]|[[-> ->]|(d & Hn & Hn')]]; [tauto| |].
    - split; [|intros [-> ->]; split; ring]. intros [E1 E2]. split.
      + transitivity ((c * c + s * s) * x); [rewrite H1; ring|]. transitivity (c * (c * x - s * y) + s * (s * x + c * y)); [ring|]. rewrite E1, E2. ring.
      + transitivity ((c * c + s * s) * y); [rewrite H1; ring|]. transitivity (c * (s * x + c * y) - s * (c * x - s * y)); [ring|]. rewrite E1, E2. ring.
    - assert (G : forall k (d : A * A) (x y : A), normal k = Some d ->
         (match k with Free => True | XFixed => x = 0 | YFixed => y = 0 | XYFixed => x = 0 /\ y = 0 | AngleFixed th => scos th * x + ssin th * y = 0 end
          <-> d.1 * x + d.2 * y = 0)).
      { clear - FL. intros k d x y H. destruct k; try discriminate; injection H as <-; cbn [fst snd]; [| |tauto].
        - replace (1 * x + 0 * y) with x by ring. tauto.
        - replace (0 * x + 1 * y) with y by ring. tauto. }
      rewrite (G k' _ (c * x - s * y) (s * x + c * y) Hn'), (G k _ x y Hn). cbn [fst snd].
      replace ((c * d.1 - s * d.2) * (c * x - s * y) + (s * d.1 + c * d.2) * (s * x + c * y)) with ((c * c + s * s) * (d.1 * x + d.2 * y)) by ring.
      rewrite H1. replace (1 * (d.1 * x + d.2 * y)) with (d.1 * x + d.2 * y) by ring. tauto. }
  split; intros H n k Hk.
  - destruct (Forall2_lookup_l _ _ _ _ _ HF Hk) as (k' & Hk' & Ht). apply (one n k k' Ht). exact (H n k' Hk').
  - destruct (Forall2_lookup_r _ _ _ _ _ HF Hk) as (k' & Hk' & Ht). apply (one n k' k Ht). exact (H n k' Hk').
Qed.
End frame.
(** *** loads *)
Section loads.
Context {A : arith} (FL : field_laws A).
Add Field Afield69 : (fl_field A FL).
Local Open Scope arith_scope.
Context (f : frame A) (Hf : is_frame f).
Local Notation c := (f_c f). Local Notation s := (f_s f).

Definition set2 (r : list A) (n : nat) (x y : A) : out (list A) := r ← set r (n * 2)%nat x; set r (n * 2 + 1)%nat y.
Definition turned_list (r r' : list A) : Prop := length r = length r' /\ forall n,
  vel r' (n * 2) = c * vel r (n * 2) - s * vel r (n * 2 + 1) /\ vel r' (n * 2 + 1) = s * vel r (n * 2) + c * vel r (n * 2 + 1).
Lemma set_iff (l : list A) i x y : set l i x = Ret y <-> (i < length l)%nat /\ y = <[i := x]> l.
Proof.
  unfold set. destruct (l !! i) eqn:E.
  - split; [injection 1 as <-; split; [now apply lookup_lt_Some in E|reflexivity]|intros [_ ->]; reflexivity].
  - split; [discriminate|]. intros [H _]. apply lookup_ge_None in E. lia.
Qed.
Lemma vel_insert (l : list A) i j x : vel (<[i := x]> l) j = if decide (i = j /\ (j < length l)%nat) then x else vel l j.
Proof.
  unfold vel. rewrite !nth_lookup. destruct (decide (i = j /\ (j < length l)%nat)) as [[-> H]|H].
  - now rewrite list_lookup_insert.
  - destruct (decide (i = j)) as [->|Hne]; [|now rewrite list_lookup_insert_ne].
    rewrite !lookup_ge_None_2; [reflexivity|lia|rewrite insert_length; lia].
Qed.
Lemma set2_ret r n x y r1 : set2 r n x y = Ret r1 -> (n * 2 + 1 < length r)%nat /\ length r1 = length r /\
  forall i, vel r1 i = if decide (i = n * 2)%nat then x else if decide (i = n * 2 + 1)%nat then y else vel r i.
Proof.
  unfold set2. intros E. apply bind_ret_inv in E as (r0 & E0 & E). apply set_iff in E0 as [H0 ->]. apply set_iff in E as [H1 ->].
  rewrite insert_length in H1. split; [exact H1|]. split; [now rewrite !insert_length|]. intros i. rewrite !vel_insert, insert_length.
  repeat case_decide; try reflexivity; try lia.
Qed.
Lemma set2_lt r n x y : (n * 2 + 1 < length r)%nat -> exists r1, set2 r n x y = Ret r1.
Proof.
  intros H. eexists. unfold set2. rewrite set_lookup by lia. cbn [mbind out_bind]. rewrite set_lookup by (rewrite insert_length; lia). reflexivity.
Qed.
Lemma set2_turned r r' n x y r1 : turned_list r r' -> set2 r n x y = Ret r1 ->
  exists r1', set2 r' n (c * x - s * y) (s * x + c * y) = Ret r1' /\ turned_list r1 r1'.
Proof.
  intros [Hl Hr] E. apply set2_ret in E as (H1 & L1 & V1). destruct (set2_lt r' n (c * x - s * y) (s * x + c * y)) as (r1' & E'); [now rewrite <- Hl|].
  exists r1'. split; [exact E'|]. apply set2_ret in E' as (_ & L1' & V1'). split; [congruence|]. intros k. rewrite !V1, !V1'.
  destruct (decide (k = n)) as [->|Hne].
  - repeat case_decide; try lia. split; reflexivity.
  - repeat case_decide; try lia. apply Hr.
Qed.

Definition turned_force (F F' : point A) : Prop :=
  p_n F' = p_n F /\ p_x F' = c * p_x F - s * p_y F /\ p_y F' = s * p_x F + c * p_y F.
Lemma conc_set2 (nF : nat * point A) r r1 : conc_step nF r = Ret r1 <-> (2 <= p_n nF.2)%nat /\ set2 r nF.1 (p_x nF.2) (p_y nF.2) = Ret r1.
Proof.
  destruct nF as [n F]. unfold conc_step, set2. change (range 0 2) with [0; 1]%nat. cbn [foldM fst snd]. unfold to_dof. cbn [fst snd]. rewrite Nat.add_0_r.
  unfold pt_idx. destruct (le_lt_dec 2 (p_n F)) as [H2|H2].
  - rewrite (proj2 (Nat.leb_gt (p_n F) 0)), (proj2 (Nat.leb_gt (p_n F) 1)) by lia. cbn [mbind out_bind].
    destruct (set r (n * 2)%nat (p_x F)) as [y| | |]; cbn [mbind out_bind]; [|split; [discriminate|intros [_ E]; discriminate]..].
    destruct (set y (n * 2 + 1)%nat (p_y F)) as [z| | |]; cbn [mbind out_bind]; intuition congruence.
  - rewrite (proj2 (Nat.leb_le (p_n F) 1)) by lia. split; [|intros [H _]; lia]. intros E. apply bind_ret_inv in E as (y & _ & E). discriminate.
Qed.
Lemma conc_turned oc oc' : Forall2 (fun x y => y.1 = x.1 /\ turned_force x.2 y.2) oc oc' -> forall r r' r1, turned_list r r' ->
  foldM conc_step oc r = Ret r1 -> exists r1', foldM conc_step oc' r' = Ret r1' /\ turned_list r1 r1'.
Proof.
  induction 1 as [|[n F] [n' F'] oc oc' [Hn (H1 & H2 & H3)] _ IH]; intros r r' r1 Ht E; cbn [foldM] in *.
  - injection E as <-. eauto.
  - cbn [fst snd] in *. subst n'. apply bind_ret_inv in E as (r2 & E2 & E). apply conc_set2 in E2 as [Hd E2]. cbn [fst snd] in *.
    destruct (set2_turned r r' n _ _ r2 Ht E2) as (r2' & E2' & Ht2). rewrite <- H2, <- H3 in E2'.
    assert (E3 : conc_step (n, F') r' = Ret r2') by (apply conc_set2; cbn [fst snd]; split; [lia|exact E2']). rewrite E3. cbn [mbind out_bind].
    exact (IH r2 r2' r1 Ht2 E).
Qed.
(** the six entries an element receives, two per corner *)
Definition corner_loads (e : element A) (x y : nat -> A) : list ((nat * nat) * A) :=
  map (fun i => (e_dof e i, if Nat.even i then x (i / 2)%nat else y (i / 2)%nat)) (seq 0 6).
Lemma fold_corners e x y r : foldM (fun iv res => set res (to_dof iv.1) iv.2) (corner_loads e x y) r =
  (r ← set2 r (e_ids e).1.1 (x 0%nat) (y 0%nat); r ← set2 r (e_ids e).1.2 (x 1%nat) (y 1%nat); set2 r (e_ids e).2 (x 2%nat) (y 2%nat)).
Proof.
  unfold corner_loads. cbn [map seq foldM fst snd].
  assert (E0 : forall n, to_dof (n, 0%nat) = (n * 2)%nat) by (intros n; unfold to_dof; cbn; lia).
  assert (E1 : forall n, to_dof (n, 1%nat) = (n * 2 + 1)%nat) by reflexivity.
  change (e_dof e 0) with ((e_ids e).1.1, 0%nat). change (e_dof e 1) with ((e_ids e).1.1, 1%nat).
  change (e_dof e 2) with ((e_ids e).1.2, 0%nat). change (e_dof e 3) with ((e_ids e).1.2, 1%nat).
  change (e_dof e 4) with ((e_ids e).2, 0%nat). change (e_dof e 5) with ((e_ids e).2, 1%nat). rewrite !E0, !E1.
  cbn [Nat.even]. change (0 / 2)%nat with 0%nat. change (1 / 2)%nat with 0%nat. change (2 / 2)%nat with 1%nat. change (3 / 2)%nat with 1%nat.
  change (4 / 2)%nat with 2%nat. change (5 / 2)%nat with 2%nat. unfold set2.
  destruct (set r _ (x 0%nat)) as [r1| | |]; cbn [mbind out_bind]; try reflexivity.
  destruct (set r1 _ (y 0%nat)) as [r2| | |]; cbn [mbind out_bind]; try reflexivity.
  destruct (set r2 _ (x 1%nat)) as [r3| | |]; cbn [mbind out_bind]; try reflexivity.
  destruct (set r3 _ (y 1%nat)) as [r4| | |]; cbn [mbind out_bind]; try reflexivity.
  destruct (set r4 _ (x 2%nat)) as [r5| | |]; cbn [mbind out_bind]; try reflexivity.
  destruct (set r5 _ (y 2%nat)) as [r6| | |]; reflexivity.
Qed.
Lemma corners_turned e e' x y r r' r1 : e_ids e' = e_ids e -> turned_list r r' ->
  foldM (fun iv res => set res (to_dof iv.1) iv.2) (corner_loads e x y) r = Ret r1 ->
  exists r1', foldM (fun iv res => set res (to_dof iv.1) iv.2) (corner_loads e' (fun k => c * x k - s * y k) (fun k => s * x k + c * y k)) r' = Ret r1' /\
    turned_list r1 r1'.
Proof.
  intros Hi Ht. rewrite !fold_corners, Hi. intros E. apply bind_ret_inv in E as (r2 & E2 & E). apply bind_ret_inv in E as (r3 & E3 & E).
  destruct (set2_turned _ _ _ _ _ _ Ht E2) as (r2' & E2' & Ht2). destruct (set2_turned _ _ _ _ _ _ Ht2 E3) as (r3' & E3' & Ht3).
  destruct (set2_turned _ _ _ _ _ _ Ht3 E) as (r4' & E4' & Ht4). rewrite E2'. cbn [mbind out_bind]. rewrite E3'. cbn [mbind out_bind]. eauto.
Qed.
Definition line_len (p q : point A) : A := ssqrt (ssq (p_x p - p_x q) + ssq (p_y p - p_y q) + ssq (p_z p - p_z q)).
Definition share (e : element A) (m n : nat) (L v : A) (k : nat) : A :=
  if ((nth k (e_id_list e) 0 =? m) || (nth k (e_id_list e) 0 =? n))%nat then v * L / (1 + 1) else 0.
Lemma int_corners (e : element A) m n F : (1 + 1 : A) <> 0 -> planar e -> e_ids_nodup e -> p_n F = 2%nat -> m ∈ e_id_list e -> n ∈ e_id_list e -> m <> n ->
  ssqrt 1 <> 0 :> A -> ssqrt (1 + 1) <> 0 :> A ->
  exists p q, e_node e m = Some p /\ e_node e n = Some q /\
    int_f_l e (m, n) F = Ret (Some (corner_loads e (share e m n (line_len p q) (p_x F)) (share e m n (line_len p q) (p_y F)))).
Proof.
  intros two Hp Hn HF Hm Hn' Hne Q1 Q2. destruct (int_f_l_ret FL two e m n F Hp Hn HF Hm Hn' Hne Q1 Q2) as (p & q & l & Ep & Eq & El & Hl & Hv).
  exists p, q. split; [exact Ep|]. split; [exact Eq|]. rewrite El. do 2 f_equal.
  unfold corner_loads. apply list_eq. intros i. pose proof (f_equal (fun l => l !! i) Hl) as Hi. cbv beta in Hi. rewrite !list_lookup_fmap in Hi.
  rewrite list_lookup_fmap. destruct (seq 0 6 !! i) as [j|] eqn:Hj; cbn [fmap option_fmap option_map] in *.
  - destruct (l !! i) as [[nd v]|] eqn:Ei; cbn in Hi; [|discriminate]. injection Hi as ->. apply lookup_seq in Hj as [-> Hj]. cbn [Nat.add].
    apply elem_of_list_lookup_2 in Ei. unfold e_dof in *. specialize (Hv _ _ _ Ei). rewrite Hv. f_equal. f_equal. unfold share, line_len.
    destruct i as [|[|[|[|[|[|i]]]]]]; [..|lia]; reflexivity.
  - destruct (l !! i); [discriminate|reflexivity].
Qed.
End loads.
Section lines.
Context {A : arith} (OL : ord_laws A).
Let FL : field_laws A := ol_field A OL.
Add Field Afield71 : (fl_field A FL).
Local Open Scope arith_scope.
Context (f : frame A) (Hf : is_frame f) (Hl : f_lam f = 1) (SQ : ssqrt (1 : A) <> 0 /\ ssqrt (1 + 1 : A) <> 0).
Context (a b : elas A) (Hm : moved f a b) (Ha : ea_ok a) (Hb : ea_ok b) (Hd : forall e, e ∈ ea_elems a -> twice_area e <> 0).
Local Notation c := (f_c f). Local Notation s := (f_s f).
Lemma distinct_nodup e : distinct_ids (e_ids e) -> e_ids_nodup (A := A) e.
Proof.
  intros (H1 & H2 & H3). unfold e_ids_nodup, e_id_list. repeat constructor; rewrite ?elem_of_cons, ?elem_of_nil; intuition.
Qed.
Lemma corner_moved e e' k p p' : el_of a e -> el_of b e' -> e_ids e' = e_ids e -> e_pt_list e !! k = Some p -> e_pt_list e' !! k = Some p' ->
  xy p' = place f (xy p) /\ p_z p' = p_z p.
Proof.
  intros (_ & _ & _ & P0 & P1 & P2) (_ & _ & _ & P0' & P1' & P2') Ei Hp Hp'. rewrite Ei in P0', P1', P2'.
  pose proof (proj1 (Forall2_lookup _ _ _) (mv_nodes _ _ _ Hm)) as N. destruct k as [|[|[|k]]]; [| | |discriminate]; cbn in Hp, Hp'; injection Hp as <-; injection Hp' as <-.
  - specialize (N (e_ids e).1.1). rewrite P0, P0' in N. now inversion N.
  - specialize (N (e_ids e).1.2). rewrite P1, P1' in N. now inversion N.
  - specialize (N (e_ids e).2). rewrite P2, P2' in N. now inversion N.
Qed.
Lemma len_moved (p q p' q' : point A) : xy p' = place f (xy p) -> p_z p' = p_z p -> xy q' = place f (xy q) -> p_z q' = p_z q -> line_len p' q' = line_len p q.
Proof.
  intros Ep Zp Eq Zq. unfold place, ElemProofs.xy in *. cbn [fst snd] in *. injection Ep as Xp Yp. injection Eq as Xq Yq. unfold line_len. f_equal.
  rewrite Xp, Yp, Xq, Yq, Zp, Zq, Hl. destruct Hf as [H1 _]. unfold ssq.
  transitivity ((c * c + s * s) * ((p_x p - p_x q) * (p_x p - p_x q) + (p_y p - p_y q) * (p_y p - p_y q)) + (p_z p - p_z q) * (p_z p - p_z q)); [ring|].
  rewrite H1. ring.
Qed.
Lemma line_turned ef ef' r r' r1 : ef'.1 = ef.1 -> turned_force f ef.2 ef'.2 -> turned_list f r r' ->
  line_step (ea_elems a) ef r = Ret r1 -> exists r1', line_step (ea_elems b) ef' r' = Ret r1' /\ turned_list f r1 r1'.
Proof.
  destruct ef as [[m n] F], ef' as [[m' n'] F']. cbn [fst snd]. intros [= -> ->] (N1 & X1 & Y1). unfold line_step. cbn [fst snd].
  assert (HH : Forall2 (fun e e' => el_of a e /\ el_of b e' /\ e_ids e' = e_ids e /\ twice_area e <> 0) (ea_elems a) (ea_elems b)).
  { apply Forall2_same_length_lookup. split.
    - pose proof (f_equal length (mv_elems _ _ _ Hm)) as E. now rewrite !map_length in E.
    - intros k e e' Hk Hk'. destruct (moved_el f a b Hm Ha Hb k e Hk) as (e2 & Hk2 & Ei & _). assert (e2 = e') as -> by congruence.
      apply elem_of_list_lookup_2 in Hk. apply elem_of_list_lookup_2 in Hk'. split; [now apply Ha|]. split; [now apply Hb|]. split; [exact Ei|now apply Hd]. }
  clear Hd. revert r r' r1. induction HH as [|e e' els els' (He & He' & Ei & Hde) _ IH]; intros r r' r1 Ht E; cbn [foldM] in *.
  - injection E as <-. eauto.
  - apply bind_ret_inv in E as (r2 & E2 & E).
    assert (G : exists r2', (if nodes_connect e' m n then o ← int_f_l e' (m, n) F'; l ← unwrap o; foldM (fun iv res => set res (to_dof iv.1) iv.2) l r' else Ret r') = Ret r2' /\
       turned_list f r2 r2').
    { assert (C : nodes_connect e' m n = nodes_connect e m n) by (unfold nodes_connect; now rewrite Ei). rewrite C.
      destruct (nodes_connect e m n) eqn:Hc; [|injection E2 as <-; eauto].
      pose proof (distinct_nodup e (area_distinct FL a e He Hde)) as Hnd.
      assert (Hnd' : e_ids_nodup e') by (unfold e_ids_nodup, e_id_list in *; now rewrite Ei).
      pose proof Hc as Hc2. apply (proj1 (connect_iff e m n Hnd)) in Hc2 as (M1 & M2 & M3).
      apply bind_ret_inv in E2 as (o & Eo & E2).
      assert (HF : p_n F = 2%nat).
      { unfold int_f_l in Eo. cbn [fst snd] in Eo. rewrite Hc in Eo. cbn [negb] in Eo. apply bind_ret_inv in Eo as (? & Ea & _). unfold assert_ in Ea.
        destruct (Nat.eqb_spec (p_n F) 2); [assumption|discriminate]. }
      assert (P1 : lts 0 (1 : A)) by exact (sz_pos OL 1). assert (P2 : lts 0 (1 + 1 : A)) by exact (two_pos OL).
      destruct SQ as [Q1 Q2].
      destruct (int_corners FL e m n F (two_neq OL) (proj1 He) Hnd HF M1 M2 M3 Q1 Q2) as (p & q & Ep & Eq & Ei1).
      assert (Eid : e_id_list e' = e_id_list e) by (unfold e_id_list; now rewrite Ei).
      destruct (int_corners FL e' m n F' (two_neq OL) (proj1 He') Hnd' ltac:(congruence) ltac:(now rewrite Eid) ltac:(now rewrite Eid) M3 Q1 Q2) as (p' & q' & Ep' & Eq' & Ei2).
      assert (El : line_len p' q' = line_len p q).
      { destruct (node_at e m Hnd M1) as (k1 & K1 & T1 & _ & U1). destruct (node_at e n Hnd M2) as (k2 & K2 & T2 & _ & U2).
        destruct (node_at e' m Hnd' ltac:(now rewrite Eid)) as (k1' & K1' & T1' & _ & U1'). destruct (node_at e' n Hnd' ltac:(now rewrite Eid)) as (k2' & K2' & T2' & _ & U2').
        assert (k1' = k1) as ->. { apply (NoDup_nth (e_id_list e) 0%nat); [now apply NoDup_ListNoDup|exact K1'|exact K1|]. rewrite <- Eid at 1. congruence. }
        assert (k2' = k2) as ->. { apply (NoDup_nth (e_id_list e) 0%nat); [now apply NoDup_ListNoDup|exact K2'|exact K2|]. rewrite <- Eid at 1. congruence. }
        rewrite Ep in U1. rewrite Eq in U2. rewrite Ep' in U1'. rewrite Eq' in U2'.
        destruct (corner_moved e e' k1 p p' He He' Ei (eq_sym U1) (eq_sym U1')) as [? ?]. destruct (corner_moved e e' k2 q q' He He' Ei (eq_sym U2) (eq_sym U2')) as [? ?].
        now apply len_moved. }
      rewrite Eo in Ei1. injection Ei1 as ->. cbn [unwrap mbind out_bind] in E2.
      destruct (corners_turned f e e' _ _ r r' r2 Ei Ht E2) as (r2' & E2' & Ht2). exists r2'. split; [|exact Ht2].
      rewrite Ei2. cbn [unwrap mbind out_bind]. rewrite <- E2'. f_equal. unfold corner_loads. apply map_ext. intros i. f_equal.
      unfold share. rewrite Eid, El, X1, Y1. destruct (Nat.even i); case_match; try ring; field; exact (two_neq OL). }
    destruct G as (r2' & E2' & Ht2). rewrite E2'. cbn [mbind out_bind]. exact (IH r2 r2' r1 Ht2 E).
Qed.
Lemma load_turned oc ol oc' ol' r : Forall2 (fun x y => y.1 = x.1 /\ turned_force f x.2 y.2) oc oc' ->
  Forall2 (fun x y => y.1 = x.1 /\ turned_force f x.2 y.2) ol ol' -> calc_load a oc ol = Ret r ->
  exists r', calc_load b oc' ol' = Ret r' /\ forall i, vel r' i = turn f (vel r) i.
Proof.
  intros Hoc Hol E. unfold calc_load in *. apply bind_ret_inv in E as (r1 & E1 & E). rewrite <- (moved_count f a b Hm).
  assert (T0 : turned_list f (replicate (node_count a * 2) 0) (replicate (node_count a * 2) 0)).
  { split; [reflexivity|]. intros n. assert (Z : forall i, vel (replicate (node_count a * 2) (0 : A)) i = 0).
    { intros i. unfold vel. rewrite nth_lookup. destruct (replicate _ _ !! i) eqn:Ei; [|reflexivity]. now apply lookup_replicate in Ei as [-> _]. }
    rewrite !Z. split; ring. }
  destruct (conc_turned f oc oc' Hoc _ _ r1 T0 E1) as (r1' & E1' & T1). rewrite E1'. cbn [mbind out_bind]. clear E1 E1' T0 Hoc.
  assert (G : exists r', foldM (line_step (ea_elems b)) ol' r1' = Ret r' /\ turned_list f r r').
  { revert r1 r1' T1 E. induction Hol as [|x y ol ol' [H1 H2] _ IH]; intros r1 r1' T1 E; cbn [foldM] in *.
    - injection E as <-. eauto.
    - apply bind_ret_inv in E as (r2 & E2 & E). destruct (line_turned x y r1 r1' r2 H1 H2 T1 E2) as (r2' & E2' & T2). rewrite E2'. cbn [mbind out_bind]. eauto. }
  destruct G as (r' & E' & _ & T). exists r'. split; [exact E'|]. intros i. destruct (Nat.even i) eqn:Ev.
  - apply Nat.even_spec in Ev as (n & ->). replace (2 * n)%nat with (n * 2)%nat by lia. rewrite turn_even. apply T.
  - rewrite <- Nat.negb_odd in Ev. apply negb_false_iff, Nat.odd_spec in Ev as (n & ->). replace (2 * n + 1)%nat with (n * 2 + 1)%nat by lia. rewrite turn_odd. apply T.
Qed.
End lines.
Section top.
Context {A : arith} (OL : ord_laws A) (Trig : forall th : A, sadd (smul (scos th) (scos th)) (smul (ssin th) (ssin th)) = s1).
Let FL : field_laws A := ol_field A OL.
Add Field Afield70 : (fl_field A FL).
Local Open Scope arith_scope.
Lemma moved_solution (f : frame A) (h : hashes A) name (a : elas A) oc ol disp (h' : hashes A) name' (b : elas A) oc' ol' disp' r r' :
  is_frame f -> computed h name a oc ol disp -> computed h' name' b oc' ol' disp' -> moved f a b -> suits f (ea_cond a) ->
  1 - m_poisson (ea_mat a) <> 0 -> (forall e, e ∈ ea_elems a -> twice_area e <> 0) ->
  Forall2 (turned_support f) (ea_cons a) (ea_cons b) -> calc_load a oc ol = Ret r -> calc_load b oc' ol' = Ret r' ->
  (forall i, (i < node_count a * 2)%nat -> vel r' i = turn f (vel r) i) ->
  forall i, (i < node_count a * 2)%nat -> flat_disp disp' i = turn f (flat_disp disp) i.
Proof.
  intros Hf Hc Hc' Hm Hs Hv Hd HF Lr Lr' Hr.
  pose proof (ea_built_ok a (proj1 (proj2 Hc))) as Ha. pose proof (ea_built_ok b (proj1 (proj2 Hc'))) as Hb.
  destruct (sol_facts OL Trig _ _ _ _ _ _ Hc) as (K & r1 & EK & Er & Sy & R & E & U & _). assert (r1 = r) as -> by congruence.
  destruct (sol_facts OL Trig _ _ _ _ _ _ Hc') as (K' & r1 & EK' & Er' & Sy' & R' & E' & U' & _). assert (r1 = r') as -> by congruence.
  intros i Hi. rewrite (moved_count f a b Hm) in Hi. symmetry. revert i Hi. apply (U' (turn f (flat_disp disp))).
  - exact (proj2 (respects_turn OL f Hf a b HF _) R).
  - intros v Hv'. set (w := turn (back f) v).
    assert (Ew : forall i, v i = turn f w i) by (intros i; symmetry; now apply (turn_back OL f Hf)).
    assert (Hw : respects (ea_cons a) w).
    { apply (proj1 (respects_turn OL f Hf a b HF w)). intros n k Hk. specialize (Hv' n k Hk). now rewrite <- !Ew. }
    transitivity (work (node_count b * 2) (mv (node_count b * 2) (el K') (turn f (flat_disp disp))) (turn f w) - work (node_count b * 2) (vel r') (turn f w)).
    { unfold work. rewrite <- (bigsum_sub FL). apply bigsum_ext. intros i _. rewrite <- !Ew. ring. }
    rewrite (form_moved OL f Hf a b Hm Ha Hb Hs Hv Hd K K' _ _ EK EK'), (eq_work OL _ _ _ _ _ _ E Hw).
    rewrite <- (moved_count f a b Hm). rewrite (work_ext _ (vel r') (turn f (vel r)) (turn f w) (turn f w) Hr (fun _ _ => eq_refl)).
    rewrite (turn_work OL f Hf). ring.
Qed.
End top.

(** *** a shifted body has the stresses of the body *)
Section shift.
Context {A : arith} (OL : ord_laws A).
Let FL : field_laws A := ol_field A OL.
Add Field Afield72 : (fl_field A FL).
Local Open Scope arith_scope.
Context (f : frame A) (Hf : is_frame f) (Hc : f_c f = 1) (Hs : f_s f = 0) (Hl : f_lam f = 1).
Context (a b : elas A) (Hm : moved f a b) (Ha : ea_ok a) (Hb : ea_ok b) (Hx : suits f (ea_cond a)).
Lemma j_shift k p q w : j_in k (place f p).1 (place f q).1 (place f w).1 = j_in k p.1 q.1 w.1 /\
  j_in k (place f p).2 (place f q).2 (place f w).2 = j_in k p.2 q.2 w.2.
Proof. unfold j_in, place. cbn [fst snd]. rewrite Hc, Hs, Hl. destruct k; split; ring. Qed.
Lemma rm_ext R C (g h : nat -> nat -> A) : (forall i j, (i < R)%nat -> (j < C)%nat -> g i j = h i j) -> rm_list R C g = rm_list R C h.
Proof.
  intros H. apply list_eq. intros k. destruct (decide (k < R * C)%nat) as [Hk|Hk].
  - assert (C <> 0)%nat by lia. rewrite (Nat.div_mod k C) by assumption.
    assert (k / C < R)%nat by (apply Nat.div_lt_upper_bound; lia). assert (k mod C < C)%nat by (now apply Nat.mod_upper_bound).
    rewrite !rm_list_lookup by assumption. f_equal. now apply H.
  - rewrite !lookup_ge_None_2; [reflexivity|rewrite rm_list_length; lia..].
Qed.
Lemma stresses_shift k e e' disps : ea_elems a !! k = Some e -> ea_elems b !! k = Some e' -> e_stresses e' disps = e_stresses e disps.
Proof.
  intros Hk Hk'. destruct (moved_el f a b Hm Ha Hb k e Hk) as (e2 & Hk2 & Ei & Ec & Em & P0 & P1 & P2). assert (e2 = e') as -> by congruence. clear Hk2.
  apply elem_of_list_lookup_2 in Hk. apply elem_of_list_lookup_2 in Hk'. destruct (proj2 Ha e Hk) as (Hp & _ & Hcond & _). destruct (proj2 Hb e' Hk') as (Hp' & _).
  unfold e_stresses.
  assert (G : forall n, node_natural e' n = node_natural e n) by (intros n; unfold node_natural; now rewrite Ei).
  assert (M : forall r t z, get_isopar_mats e' (Pt 2 r t z) = get_isopar_mats e (Pt 2 r t z)).
  { intros r t z. rewrite !mats_ret by assumption. f_equal. unfold mats_c. rewrite P0, P1, P2, <- Ec.
    set (p := xy (e_pts e).1.1). set (q := xy (e_pts e).1.2). set (w := xy (e_pts e).2).
    assert (D : det_c (place f p) (place f q) (place f w) = det_c p q w).
    { unfold det_c. destruct (j_shift 0 p q w) as [-> ->]. destruct (j_shift 1 p q w) as [-> ->]. reflexivity. }
    assert (H : forall k i, hg_c k (place f p) (place f q) (place f w) i = hg_c k p q w i).
    { intros k0 i. unfold hg_c. rewrite D. destruct (j_shift 0 p q w) as [-> ->]. destruct (j_shift 1 p q w) as [-> ->]. reflexivity. }
    assert (X : e_cond e = Axisymmetric -> forall z, (place f z).1 = z.1).
    { intros Ea z0. rewrite <- Hcond, Ea in Hx. destruct Hx as (_ & _ & _ & Ht). unfold place. cbn [fst]. rewrite Hc, Hs, Hl, Ht. ring. }
    f_equal.
    - f_equal. apply rm_ext. intros i j Hi Hj. unfold b_c. destruct i as [|[|[|i]]]; rewrite ?H; try reflexivity.
      destruct (e_cond e); cbn [vec_len] in Hi; try lia. rewrite !X by reflexivity. reflexivity.
    - unfold j_c. destruct (j_shift 0 p q w) as [-> ->]. destruct (j_shift 1 p q w) as [-> ->]. reflexivity.
    - unfold ji_c. rewrite D. destruct (j_shift 0 p q w) as [-> ->]. destruct (j_shift 1 p q w) as [-> ->]. reflexivity.
    - exact D.
    - unfold th_c. destruct (e_cond e); try reflexivity. rewrite !X by reflexivity. reflexivity. }
  rewrite <- Ec, <- Em. assert (Eid : e_id_list e' = e_id_list e) by (unfold e_id_list; now rewrite Ei). rewrite Eid.
  destruct (mapM_out _ (e_id_list e)) as [us| | |]; cbn [mbind out_bind]; try reflexivity.
  destruct (col_vec (concat us)) as [u| | |]; cbn [mbind out_bind]; try reflexivity.
  destruct (build_c (e_cond e) (e_mat e)) as [C| | |]; cbn [mbind out_bind]; try reflexivity.
  assert (E : forall n, (p ← unwrap (node_natural e' n); m ← get_isopar_mats e' p; st ← mmul (M3 := lm A) C (em_b m); st ← mmul (M3 := lm A) st u; x ← st_from_vector st; Ret (n, x)) =
    (p ← unwrap (node_natural e n); m ← get_isopar_mats e p; st ← mmul (M3 := lm A) C (em_b m); st ← mmul (M3 := lm A) st u; x ← st_from_vector st; Ret (n, x))).
  { intros n. rewrite G. destruct (node_natural e n) as [p|] eqn:En; [|reflexivity]. cbn [unwrap mbind out_bind].
    assert (exists r t z, p = Pt 2 r t z) as (r & t & z & ->); [|now rewrite M].
    unfold node_natural in En. destruct (e_ids e) as [[x y] z]. repeat (destruct (_ =? _)%nat; [injection En as <-; unfold pt2; eauto|]). discriminate. }
  clear Eid. induction (e_id_list e) as [|n l IH]; [reflexivity|]. cbn [mapM_out]. rewrite E, IH. reflexivity.
Qed.
Lemma mises_shift disp : ea_von_mises b disp = ea_von_mises a disp.
Proof.
  unfold ea_von_mises, ea_stresses. rewrite <- (moved_count f a b Hm). f_equal. f_equal.
  assert (HH : Forall2 (fun e e' => forall disps, e_stresses e' disps = e_stresses (A := A) e disps) (ea_elems a) (ea_elems b)).
  { apply Forall2_same_length_lookup. split.
    - pose proof (f_equal length (mv_elems _ _ _ Hm)) as E. now rewrite !map_length in E.
    - intros k e e' Hk Hk' disps. exact (stresses_shift k e e' disps Hk Hk'). }
  generalize (replicate (node_count a) (@average_new (stress A))). induction HH as [|e e' l l' He _ IH]; intros av; [reflexivity|]. cbn [foldM]. rewrite He.
  destruct (e_stresses e (idx disp)) as [x| | |]; cbn [mbind out_bind]; try reflexivity.
  destruct (foldM _ x av) as [y| | |]; cbn [mbind out_bind]; try reflexivity. apply IH.
Qed.
End shift.
Section together.
Context {A : arith} (OL : ord_laws A) (Trig : forall th : A, sadd (smul (scos th) (scos th)) (smul (ssin th) (ssin th)) = s1).
Let FL : field_laws A := ol_field A OL.
Add Field Afield73 : (fl_field A FL).
Local Open Scope arith_scope.
Context (f : frame A) (h : hashes A) (name : option text) (a : elas A) (oc : list (nat * point A)) (ol : list (nat * nat * point A)) (disp : list (point A)).
Context (h' : hashes A) (name' : option text) (b : elas A) (oc' : list (nat * point A)) (ol' : list (nat * nat * point A)) (disp' : list (point A)).
Lemma turned_study : ssqrt (1 : A) <> 0 /\ ssqrt (1 + 1 : A) <> 0 -> is_frame f -> f_lam f = 1 -> computed h name a oc ol disp -> computed h' name' b oc' ol' disp' -> moved f a b -> suits f (ea_cond a) ->
  1 - m_poisson (ea_mat a) <> 0 -> (forall e, e ∈ ea_elems a -> twice_area e <> 0) ->
  Forall2 (turned_support f) (ea_cons a) (ea_cons b) ->
  Forall2 (fun x y => y.1 = x.1 /\ turned_force f x.2 y.2) oc oc' -> Forall2 (fun x y => y.1 = x.1 /\ turned_force f x.2 y.2) ol ol' ->
  forall i, (i < node_count a * 2)%nat -> flat_disp disp' i = turn f (flat_disp disp) i.
Proof.
  intros SQ Hf Hl Hc Hc' Hm Hs Hv Hd HF Hoc Hol.
  pose proof (ea_built_ok a (proj1 (proj2 Hc))) as Ha. pose proof (ea_built_ok b (proj1 (proj2 Hc'))) as Hb.
  destruct (sol_facts OL Trig _ _ _ _ _ _ Hc) as (K & r & EK & Er & _).
  destruct (load_turned OL f Hf Hl SQ a b Hm Ha Hb Hd oc ol oc' ol' r Hoc Hol Er) as (r' & Er' & T).
  exact (moved_solution OL Trig f h name a oc ol disp h' name' b oc' ol' disp' r r' Hf Hc Hc' Hm Hs Hv Hd HF Er Er' (fun i _ => T i)).
Qed.
Lemma turn_id u i : f_c f = 1 -> f_s f = 0 -> turn f u i = u i.
Proof. intros E1 E2. unfold turn. rewrite E1, E2. destruct (Nat.even i); ring. Qed.
Lemma shifted_study r r' : f_c f = 1 -> f_s f = 0 -> f_lam f = 1 -> computed h name a oc ol disp -> computed h' name' b oc' ol' disp' -> moved f a b -> suits f (ea_cond a) ->
  1 - m_poisson (ea_mat a) <> 0 -> (forall e, e ∈ ea_elems a -> twice_area e <> 0) ->
  ea_cons b = ea_cons a -> calc_load a oc ol = Ret r -> calc_load b oc' ol' = Ret r' -> (forall i, (i < node_count a * 2)%nat -> vel r' i = vel r i) ->
  disp' = disp /\ ea_von_mises b disp' = ea_von_mises a disp.
Proof.
  intros E1 E2 E3 Hc Hc' Hm Hs Hv Hd HF Er Er' Hr.
  pose proof (ea_built_ok a (proj1 (proj2 Hc))) as Ha. pose proof (ea_built_ok b (proj1 (proj2 Hc'))) as Hb.
  assert (Hf : is_frame f). { split; [rewrite E1, E2; ring|]. rewrite E3. exact (pos_neq OL _ (sz_pos OL 1)). }
  assert (T : forall i, (i < node_count a * 2)%nat -> flat_disp disp' i = flat_disp disp i).
  { intros i Hi. rewrite <- (turn_id (flat_disp disp) i E1 E2). revert i Hi.
    apply (moved_solution OL Trig f h name a oc ol disp h' name' b oc' ol' disp' r r' Hf Hc Hc' Hm Hs Hv Hd); [|exact Er|exact Er'|].
    - rewrite HF. clear - E1 E2 FL. induction (ea_cons a) as [|k l IH]; constructor; [|exact IH]. unfold turned_support.
      assert (N : forall n : A * A, n = (f_c f * n.1 - f_s f * n.2, f_s f * n.1 + f_c f * n.2)).
      { intros [n1 n2]. rewrite E1, E2. cbn [fst snd]. f_equal; ring. }
      destruct k; [now left|right; right|right; right|now right; left|right; right]; (eexists; split; [reflexivity|]; cbn [normal]; f_equal; apply N).
    - intros i Hi. rewrite (turn_id _ _ E1 E2). now apply Hr. }
  assert (D : disp' = disp).
  { destruct Hc as (_ & _ & _ & so & _ & E). destruct Hc' as (_ & _ & _ & so' & _ & E').
    destruct (calc_disp_planar _ _ _ _ _ _ Ha E) as (u & ->). destruct (calc_disp_planar _ _ _ _ _ _ Hb E') as (u' & ->).
    rewrite <- (moved_count f a b Hm) in *. apply map_ext_in. intros n Hin. apply in_seq in Hin.
    assert (G : forall i, (i < node_count a * 2)%nat -> u' i = u i). { intros i Hi. specialize (T i Hi). now rewrite !flat_disp_of in T by exact Hi. }
    unfold disp_of. rewrite !G by lia. reflexivity. }
  split; [exact D|]. rewrite D. exact (mises_shift OL f E1 E2 E3 a b Hm Ha Hb Hs disp).
Qed.
End together.
