(** The stresses reported for the elements are in balance with the loads. *)
From Coq Require Import Ascii String.
From Verif Require Export TensorProofs VibProofs.
From Verif Require Import CliProofs CliMesh CliStudy.
From Verif Require Import Cli.
Local Close Scope string_scope.
Local Open Scope nat_scope.
Local Open Scope list_scope.
Local Notation xy := ElemProofs.xy.

(** *** spec *)
Section spec.
Context {A : arith}.
Local Open Scope arith_scope.
(** the values of [v] at the corners of [e] are those of an affine field *)
Definition linear_on (e : element A) (v : nat -> A) (g : (A * A * A) * (A * A * A)) : Prop :=
  forall n p, (n, p) ∈ [((e_ids e).1.1, (e_pts e).1.1); ((e_ids e).1.2, (e_pts e).1.2); ((e_ids e).2, (e_pts e).2)] ->
    v (n * 2)%nat = (affine g.1 g.2 (p_x p) (p_y p)).1 /\ v (n * 2 + 1)%nat = (affine g.1 g.2 (p_x p) (p_y p)).2.
Definition thickness_of (k : strain_cond A) : A := match k with PlaneStress t | PlaneStrain t => t | Axisymmetric => 1 end.
(** (sx, sy, txy) working on the strains of the field: over the area, through the thickness *)
Definition virtual (t : A) (e : element A) (sg : A * A * A) (g : (A * A * A) * (A * A * A)) : A :=
  twice_area e / (1 + 1) * t * (sg.1.1 * g.1.1.2 + sg.1.2 * g.2.2 + sg.2 * (g.1.2 + g.2.1.2)).
End spec.

Section virtual.
Context {A : arith} (OL : ord_laws A).
Let FL : field_laws A := ol_field A OL.
Add Field Afield85 : (fl_field A FL).
Local Open Scope arith_scope.
Lemma strain_const p q w r t r' t' (u : nat -> A) k : (k < 3)%nat -> strain (b_c p q w r t) u k = strain (b_c p q w r' t') u k.
Proof. intros Hk. destruct k as [|[|[|k]]]; [rewrite !(strain_0 FL)|rewrite !(strain_1 FL)|rewrite !(strain_2 FL)|lia]; reflexivity. Qed.
Definition sig_el (e : element A) (u : nat -> A) : A * A * A :=
  (sig_c e (disp_list (disp_of u) (e_ids e)) 0 0 0, sig_c e (disp_list (disp_of u) (e_ids e)) 0 0 1, sig_c e (disp_list (disp_of u) (e_ids e)) 0 0 2).
Lemma sig_const (e : element A) us r t i : TensorProofs.plane (e_cond e) -> sig_c e us r t i = sig_c e us 0 0 i.
Proof.
  intros Hp. rewrite !(sig_strain FL). apply bigsum_ext. intros l Hl. f_equal. apply strain_const. destruct (e_cond e); [exact Hl..|contradiction].
Qed.
Lemma loc_disp (e : element A) (u : nat -> A) i : (i < 6)%nat -> vel (disp_list (disp_of u) (e_ids e)) i = loc e u i.
Proof.
  intros Hi. unfold disp_list, loc, e_dof, e_id_list, to_dof. destruct (e_ids e) as [[x y] z]. 
  do 6 (destruct i as [|i]; [cbn; rewrite ?Nat.add_0_r; reflexivity|]). lia.
Qed.
Lemma linear_nodal (e : element A) v g i : linear_on e v g -> (i < 6)%nat -> loc e v i = nodal (affine g.1 g.2) (xy (e_pts e).1.1) (xy (e_pts e).1.2) (xy (e_pts e).2) i.
Proof.
  intros H Hi. unfold linear_on in H. unfold loc, e_dof, e_id_list, to_dof. destruct (e_ids e) as [[x y] z]. destruct (e_pts e) as [[p q] w]. cbn [fst snd] in *.
  destruct (H x p) as [X0 X1]; [rewrite !elem_of_cons; auto|]. destruct (H y q) as [Y0 Y1]; [rewrite !elem_of_cons; auto|]. destruct (H z w) as [Z0 Z1]; [rewrite !elem_of_cons; auto|].
  destruct i as [|[|[|[|[|[|i]]]]]]; [| | | | | |lia]; cbn [Nat.div Nat.modulo Nat.divmod fst snd nth Nat.sub nodal xy]; rewrite ?Nat.add_0_r; assumption.
Qed.
Lemma virtual_el (e : element A) (u v : nat -> A) g : TensorProofs.plane (e_cond e) -> twice_area e <> 0 -> linear_on e v g ->
  el_form (K_c e) (loc e v) (loc e u) = virtual (thickness_of (e_cond e)) e (sig_el e u) g.
Proof.
  intros Hp Hd Hl. rewrite (K_form FL). set (p := xy (e_pts e).1.1). set (q := xy (e_pts e).1.2). set (w := xy (e_pts e).2).
  assert (Hdc : det_c p q w <> 0) by (rewrite (det_area FL); exact Hd).
  destruct (strain_affine FL g.1 g.2 p q w 0 0 Hdc) as (H0 & H1 & H2 & _).
  assert (N : vec_len (e_cond e) = 3%nat) by (destruct (e_cond e); [reflexivity..|contradiction]).
  assert (V : forall r t k, strain (b_c p q w r t) (loc e v) k = strain (b_c p q w r t) (nodal (affine g.1 g.2) p q w) k).
  { intros r t k. apply bigsum_ext. intros j Hj. now rewrite (linear_nodal e v g j Hl Hj). }
  assert (U : forall r t k, strain (b_c p q w r t) (loc e u) k = strain (b_c p q w r t) (vel (disp_list (disp_of u) (e_ids e))) k).
  { intros r t k. apply bigsum_ext. intros j Hj. now rewrite loc_disp. }
  transitivity (at_samples (A := A) (fun _ _ => twice_area e * thickness_of (e_cond e) *
    ((sig_el e u).1.1 * g.1.1.2 + (sig_el e u).1.2 * g.2.2 + (sig_el e u).2 * (g.1.2 + g.2.1.2)))).
  - apply at_samples_ext. intros r t. unfold mats_c. cbn [em_det em_th]. fold p q w. rewrite (det_area FL). f_equal.
    { f_equal. destruct (e_cond e); [reflexivity..|contradiction]. }
    unfold energy, sig_el. cbn [fst snd]. rewrite !(sig_strain FL). fold p q w. rewrite N.
    rewrite <- H0, <- H1, <- H2. cbn [bigsum]. rewrite !V, !U.
    rewrite !(strain_const p q w r t 0 0) by lia.
    pose proof (c_sym (e_cond e) (e_mat e)) as S. rewrite (S 1%nat 0%nat), (S 2%nat 0%nat), (S 2%nat 1%nat). ring.
  - unfold at_samples, virtual. pose proof (two_neq OL) as N2.
    set (m := _ + _ + (sig_el e u).2 * _). assert (S6 : (sz 6 : A) = (1 + 1) * (1 + (1 + 1))) by reflexivity. rewrite S6. field. exact (conj N2 (pos_neq OL _ (sz_pos OL 6))).
Qed.
Context (a : elas A) (Ha : ea_ok a) (Hp : TensorProofs.plane (ea_cond a)) (Hd : forall e, e ∈ ea_elems a -> twice_area e <> 0).
Lemma virtual_sum K (u v : nat -> A) g : ea_calc_k a = Ret K -> (forall e, e ∈ ea_elems a -> linear_on e v (g e)) ->
  work (node_count a * 2) (mv (node_count a * 2) (el K) u) v = ssum (map (fun e => virtual (thickness_of (ea_cond a)) e (sig_el e u) (g e)) (ea_elems a)).
Proof.
  intros EK Hg. destruct (assembled_k FL a Ha) as (K1 & E1 & _ & _ & V). assert (K1 = K) as -> by congruence.
  rewrite (work_form OL). transitivity (ssum (map (fun e => el_form (K_c e) (loc e v) (loc e u)) (ea_elems a))).
  - rewrite <- (assembled_form FL a K_c _ _ Ha). apply bigsum_ext. intros i _. apply bigsum_ext. intros j _. now rewrite V.
  - f_equal. apply map_ext_in. intros e He. apply elem_of_list_In in He. destruct (proj2 Ha e He) as (_ & _ & C & _). rewrite <- C.
    apply virtual_el; [now rewrite C|now apply Hd|now apply Hg].
Qed.
Definition as_stress (x : A * A * A) : stress A := Stress Plane [x.1.1; x.1.2; x.2; 0; 0; 0].
Lemma el_stress e u : e ∈ ea_elems a ->
  e_stresses e (idx (map (disp_of u) (seq 0 (node_count a)))) = Ret (map (fun n => (n, as_stress (sig_el e u))) (e_id_list e)).
Proof.
  intros He. pose proof (proj2 Ha e He) as Ho. pose proof (area_distinct FL a e Ho (Hd e He)) as Hds. destruct Ho as (P & M & C & H0 & H1 & H2).
  assert (Hid : forall n, n ∈ e_id_list e -> (n < node_count a)%nat).
  { apply lookup_lt_Some in H0, H1, H2. unfold e_id_list. intros n Hn. destruct (e_ids e) as [[x y] z]. cbn [fst snd] in *. change (length (ea_nodes a)) with (node_count a) in *.
    repeat (apply elem_of_cons in Hn as [->|Hn]; [assumption|]). now apply elem_of_nil in Hn. }
  rewrite (e_stresses_ret e _ (disp_of u) P Hds).
  - assert (Q : forall r t, pad6 (vec_len (e_cond e)) (sig_c e (disp_list (disp_of u) (e_ids e)) r t) = st_data (as_stress (sig_el e u))).
    { intros r t. rewrite (pad6_ext _ _ (sig_c e (disp_list (disp_of u) (e_ids e)) 0 0)) by (intros i _; apply sig_const; now rewrite C).
      rewrite C. destruct (ea_cond a); [reflexivity..|contradiction]. }
    f_equal. cbn [map]. rewrite !Q. assert (cond_kind (e_cond e) = Plane) as -> by (rewrite C; destruct (ea_cond a); [reflexivity..|contradiction]). reflexivity.
  - intros n Hn. split; [|reflexivity]. unfold idx. rewrite list_lookup_fmap, lookup_seq_lt by (now apply Hid). reflexivity.
Qed.
(** every field is affine on a triangle *)
Lemma linear_exists e v : e ∈ ea_elems a -> exists g, linear_on e v g.
Proof.
  intros He. pose proof (Hd e He) as D. unfold linear_on. destruct (e_ids e) as [[x y] z]. unfold twice_area in D. destruct (e_pts e) as [[p q] w]. cbn [fst snd] in *.
  assert (G : forall f0 f1 f2 : A, exists h : A * A * A, f0 = h.1.1 + h.1.2 * p_x p + h.2 * p_y p /\ f1 = h.1.1 + h.1.2 * p_x q + h.2 * p_y q /\ f2 = h.1.1 + h.1.2 * p_x w + h.2 * p_y w).
  { intros f0 f1 f2. set (d := (p_x q - p_x p) * (p_y w - p_y p) - (p_x w - p_x p) * (p_y q - p_y p)) in *.
    set (hx := ((f1 - f0) * (p_y w - p_y p) - (f2 - f0) * (p_y q - p_y p)) / d). set (hy := ((p_x q - p_x p) * (f2 - f0) - (p_x w - p_x p) * (f1 - f0)) / d).
    exists (f0 - hx * p_x p - hy * p_y p, hx, hy). cbn [fst snd]. split; [ring|]. split; unfold hx, hy; field_simplify_eq; try exact D; unfold d; ring. }
  destruct (G (v (x * 2)%nat) (v (y * 2)%nat) (v (z * 2)%nat)) as (gx & X0 & X1 & X2). destruct (G (v (x * 2 + 1)%nat) (v (y * 2 + 1)%nat) (v (z * 2 + 1)%nat)) as (gy & Y0 & Y1 & Y2).
  exists (gx, gy). intros n r Hn. unfold affine. cbn [fst snd].
  repeat (apply elem_of_cons in Hn as [Hn|Hn]; [injection Hn as -> ->; auto|]). now apply elem_of_nil in Hn.
Qed.
End virtual.

Section study.
Context {A : arith} (OL : ord_laws A) (Trig : forall th : A, sadd (smul (scos th) (scos th)) (smul (ssin th) (ssin th)) = s1).
Local Open Scope arith_scope.
Lemma virtual_work (h : hashes A) name (a : elas A) oc ol disp r : computed h name a oc ol disp -> TensorProofs.plane (ea_cond a) ->
  (forall e, e ∈ ea_elems a -> twice_area e <> 0) -> calc_load a oc ol = Ret r ->
  exists sg : element A -> A * A * A,
    (forall e, e ∈ ea_elems a -> e_stresses e (idx disp) = Ret (map (fun n => (n, as_stress (sg e))) (e_id_list e))) /\
    (forall v g, respects (ea_cons a) v -> (forall e, e ∈ ea_elems a -> linear_on e v (g e)) ->
       ssum (map (fun e => virtual (thickness_of (ea_cond a)) e (sg e) (g e)) (ea_elems a)) = work (node_count a * 2) (vel r) v).
Proof.
  intros Hc Hp Hd Lr. pose proof (ea_built_ok a (proj1 (proj2 Hc))) as Ha.
  destruct (sol_facts OL Trig _ _ _ _ _ _ Hc) as (K & r1 & EK & Er & _ & R & E & _). assert (r1 = r) as -> by congruence.
  destruct Hc as (_ & _ & _ & so & _ & Ed). destruct (calc_disp_planar _ _ _ _ _ _ Ha Ed) as (u & ->).
  exists (fun e => sig_el e u). split; [intros e He; exact (el_stress OL a Ha Hp Hd e u He)|].
  intros v g Hv Hg. rewrite <- (virtual_sum OL a Ha Hp Hd K u v g EK Hg). rewrite <- (eq_work OL _ _ _ _ _ _ E Hv).
  unfold work, mv. apply bigsum_ext. intros i Hi. f_equal. apply bigsum_ext. intros j Hj. now rewrite flat_disp_of by exact Hj.
Qed.
End study.
