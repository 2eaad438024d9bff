(** Balanced stresses determine the result: the converse of [virtual_work], and affine states of
    the whole body (C137). *)
From Coq Require Import Ascii String.
From Verif Require Export VirtualProofs.
From Verif Require Import CliProofs CliMesh CliStudy.
From Verif Require Import Cli.
Local Close Scope string_scope.
Local Open Scope nat_scope.
Local Open Scope list_scope.
Local Notation xy := ElemProofs.xy.

(** *** spec *)
Section spec.
Context {A : arith}.
Local Open Scope arith_scope.
(** in every displacement the supports allow, the stresses do the work of the load vector *)
Definition in_balance (a : elas A) (sg : element A -> A * A * A) (r : list A) : Prop :=
  forall v g, respects (ea_cons a) v -> (forall e, e ∈ ea_elems a -> linear_on e v (g e)) ->
    ssum (map (fun e => virtual (thickness_of (ea_cond a)) e (sg e) (g e)) (ea_elems a)) = work (node_count a * 2) (vel r) v.
(** the stresses of the affine field with coefficients [u], [v] under the material matrix [C] *)
Definition hooke (C : lm A) (u v : A * A * A) : A * A * A :=
  let s i := el C i 0%nat * u.1.2 + el C i 1%nat * v.2 + el C i 2%nat * (u.2 + v.1.2) in (s 0%nat, s 1%nat, s 2%nat).
End spec.

Section balance.
Context {A : arith} (OL : ord_laws A) (Trig : forall th : A, sadd (smul (scos th) (scos th)) (smul (ssin th) (ssin th)) = s1).
Let FL : field_laws A := ol_field A OL.
Add Field Afield86 : (fl_field A FL).
Local Open Scope arith_scope.
Definition slope (p q w : point A) (f0 f1 f2 : A) : A * A * A :=
  let d := (p_x q - p_x p) * (p_y w - p_y p) - (p_x w - p_x p) * (p_y q - p_y p) in
  let hx := ((f1 - f0) * (p_y w - p_y p) - (f2 - f0) * (p_y q - p_y p)) / d in
  let hy := ((p_x q - p_x p) * (f2 - f0) - (p_x w - p_x p) * (f1 - f0)) / d in
  (f0 - hx * p_x p - hy * p_y p, hx, hy).
Definition field_of (e : element A) (v : nat -> A) : (A * A * A) * (A * A * A) :=
  let '(x, y, z) := e_ids e in let '(p, q, w) := e_pts e in
  (slope p q w (v (x * 2)%nat) (v (y * 2)%nat) (v (z * 2)%nat), slope p q w (v (x * 2 + 1)%nat) (v (y * 2 + 1)%nat) (v (z * 2 + 1)%nat)).
Lemma slope_ok p q w f0 f1 f2 (h := slope p q w f0 f1 f2) : (p_x q - p_x p) * (p_y w - p_y p) - (p_x w - p_x p) * (p_y q - p_y p) <> 0 ->
  f0 = h.1.1 + h.1.2 * p_x p + h.2 * p_y p /\ f1 = h.1.1 + h.1.2 * p_x q + h.2 * p_y q /\ f2 = h.1.1 + h.1.2 * p_x w + h.2 * p_y w.
Proof.
  intros D. unfold h, slope. cbn [fst snd]. set (d := _ - _ * (p_y q - p_y p)) in *.
  set (hx := ((f1 - f0) * (p_y w - p_y p) - (f2 - f0) * (p_y q - p_y p)) / d). set (hy := ((p_x q - p_x p) * (f2 - f0) - (p_x w - p_x p) * (f1 - f0)) / d).
  split; [ring|]. split; unfold hx, hy; field_simplify_eq; try exact D; unfold d; ring.
Qed.
Lemma field_linear e v : twice_area e <> 0 -> linear_on e v (field_of e v).
Proof.
  unfold linear_on, field_of, twice_area. destruct (e_ids e) as [[x y] z]. destruct (e_pts e) as [[p q] w]. cbn [fst snd]. intros D.
  destruct (slope_ok p q w (v (x * 2)%nat) (v (y * 2)%nat) (v (z * 2)%nat) D) as (X0 & X1 & X2).
  destruct (slope_ok p q w (v (x * 2 + 1)%nat) (v (y * 2 + 1)%nat) (v (z * 2 + 1)%nat) D) as (Y0 & Y1 & Y2).
  intros n r Hn. unfold affine. cbn [fst snd].
  repeat (apply elem_of_cons in Hn as [Hn|Hn]; [injection Hn as -> ->; auto|]). now apply elem_of_nil in Hn.
Qed.
Lemma as_stress_inj (x y : A * A * A) : as_stress x = as_stress y -> x = y.
Proof. destruct x as [[x0 x1] x2], y as [[y0 y1] y2]. unfold as_stress. cbn [fst snd]. now intros [= -> -> ->]. Qed.

Lemma balance_unique (h : hashes A) name (a : elas A) oc ol disp r u sg : computed h name a oc ol disp -> TensorProofs.plane (ea_cond a) ->
  (forall e, e ∈ ea_elems a -> twice_area e <> 0) -> calc_load a oc ol = Ret r ->
  respects (ea_cons a) u ->
  (forall e, e ∈ ea_elems a -> e_stresses e (idx (map (disp_of u) (seq 0 (node_count a)))) = Ret (map (fun n => (n, as_stress (sg e))) (e_id_list e))) ->
  in_balance a sg r -> disp = map (disp_of u) (seq 0 (node_count a)).
Proof.
  intros Hc Hp Hd Lr Hu Hs Hb. pose proof (ea_built_ok a (proj1 (proj2 Hc))) as Ha.
  destruct (sol_facts OL Trig _ _ _ _ _ _ Hc) as (K & r1 & EK & Er & _ & _ & _ & U & _). assert (r1 = r) as -> by congruence.
  destruct Hc as (_ & _ & _ & so & _ & Ed). destruct (calc_disp_planar _ _ _ _ _ _ Ha Ed) as (w & ->).
  assert (S : forall e, e ∈ ea_elems a -> sig_el e u = sg e).
  { intros e He. pose proof (Hs e He) as H. rewrite (el_stress OL a Ha Hp Hd e u He) in H.
    assert (RI : forall (X : Type) (x y : X), Ret x = Ret y -> x = y) by (intros X x y [=]; assumption). apply RI in H.
    apply (f_equal (fun l => match l with x :: _ => x.2 | [] => as_stress (sg e) end)) in H. unfold e_id_list in H. destruct (e_ids e) as [[x y] z]. cbn [map snd] in H. now apply as_stress_inj. }
  assert (E : in_equilibrium (node_count a * 2) (el K) (vel r) (ea_cons a) u).
  { intros v Hv. assert (Hg : forall e, e ∈ ea_elems a -> linear_on e v (field_of e v)) by (intros e He; apply field_linear, Hd, He).
    pose proof (virtual_sum OL a Ha Hp Hd K u v (fun e => field_of e v) EK Hg) as V. pose proof (Hb v (fun e => field_of e v) Hv Hg) as B.
    assert (W : work (node_count a * 2) (mv (node_count a * 2) (el K) u) v = work (node_count a * 2) (vel r) v).
    { rewrite V, <- B. f_equal. apply map_ext_in. intros e He. apply elem_of_list_In in He. now rewrite (S e He). }
    transitivity (work (node_count a * 2) (mv (node_count a * 2) (el K) u) v - work (node_count a * 2) (vel r) v); [|rewrite W; ring].
    unfold work. rewrite <- (bigsum_sub FL). apply bigsum_ext. intros i _. ring. }
  apply map_ext_in. intros n Hn. apply in_seq in Hn. unfold disp_of.
  rewrite (U u Hu E (n * 2)%nat), (U u Hu E (n * 2 + 1)%nat) by lia. rewrite !flat_disp_of by lia. reflexivity.
Qed.
(** an affine state *)
Lemma hooke_stress c (m : material A) C u v p : TensorProofs.plane c -> build_c c m = Ret C -> lin_stress c m u v p = as_stress (hooke C u v).
Proof.
  intros Hp HC. assert (V : forall i, (i < 3)%nat -> bigsum 3 (fun l => c_c c m i l * lin_strain u v p l) = el C i 0%nat * u.1.2 + el C i 1%nat * v.2 + el C i 2%nat * (u.2 + v.1.2)).
  { intros i Hi. rewrite build_c_ret in HC. injection HC as <-. assert (vec_len c = 3%nat) as -> by (destruct c; [reflexivity..|contradiction]).
    rewrite !rm_lm_el by lia. cbn [bigsum lin_strain]. ring. }
  unfold lin_stress, as_stress, hooke. destruct c; [| |contradiction]; cbn [cond_kind vec_len]; cbv zeta; cbn [fst snd];
    rewrite <- !V by lia; reflexivity.
Qed.
Lemma pt_of_flat (d : list (point A)) : (forall p, p ∈ d -> p = pt2 (p_x p) (p_y p)) -> d = map (disp_of (flat_disp d)) (seq 0 (length d)).
Proof.
  intros Hd. apply list_eq. intros i. rewrite list_lookup_fmap. destruct (d !! i) as [p|] eqn:E.
  - rewrite lookup_seq_lt by (now apply lookup_lt_Some in E). cbn. f_equal. unfold disp_of, flat_disp.
    rewrite Nat.div_mul, Nat.mod_mul by lia. replace (i * 2 + 1)%nat with (1 + i * 2)%nat by lia. rewrite Nat.div_add, Nat.mod_add by lia. change (1 / 2)%nat with 0%nat. change (1 mod 2)%nat with 1%nat. cbn [Nat.add].
    rewrite E. cbn [comp]. apply Hd. apply elem_of_list_lookup. eauto.
  - rewrite lookup_seq_ge by (now apply lookup_ge_None in E). reflexivity.
Qed.
Lemma affine_state (h : hashes A) name (a : elas A) oc ol disp r C u v : computed h name a oc ol disp -> TensorProofs.plane (ea_cond a) ->
  (forall e, e ∈ ea_elems a -> twice_area e <> 0) -> calc_load a oc ol = Ret r -> build_c (ea_cond a) (ea_mat a) = Ret C ->
  respects (ea_cons a) (flat_disp (map (lin_disp u v) (ea_nodes a))) -> in_balance a (fun _ => hooke C u v) r ->
  disp = map (lin_disp u v) (ea_nodes a).
Proof.
  intros Hc Hp Hd Lr HC Hr Hb. pose proof (ea_built_ok a (proj1 (proj2 Hc))) as Ha. set (d := map (lin_disp u v) (ea_nodes a)) in *.
  assert (D : d = map (disp_of (flat_disp d)) (seq 0 (node_count a))).
  { replace (node_count a) with (length d) by (unfold d; now rewrite map_length). apply pt_of_flat. unfold d. intros p Hq. apply elem_of_list_fmap in Hq as (q & -> & _). reflexivity. }
  rewrite D. apply (balance_unique h name a oc ol disp r _ (fun _ => hooke C u v) Hc Hp Hd Lr Hr); [|exact Hb].
  intros e He. rewrite <- D. pose proof (proj2 Ha e He) as Ho. pose proof (area_distinct FL a e Ho (Hd e He)) as Hds. destruct Ho as (P & M & Cn & H0 & H1 & H2).
  rewrite (e_stresses_lin FL e u v _ P Hds (Hd e He)).
  - rewrite M, Cn. f_equal. unfold e_id_list. destruct (e_ids e) as [[x y] z]. cbn [map nth]. rewrite !(hooke_stress _ _ C u v _ Hp HC). reflexivity.
  - intros j Hj. unfold idx, d, e_id_list, corner_pt. destruct (e_ids e) as [[x y] z]. destruct (e_pts e) as [[p q] w]. cbn [fst snd] in *.
    destruct j as [|[|[|j]]]; [| | |lia]; cbn [nth]; rewrite list_lookup_fmap; rewrite ?H0, ?H1, ?H2; reflexivity.
Qed.
End balance.
