(** Mass totals, interpolation, element acceptance, unknown numbering, concentrated loads. *)
From Verif Require Export ElemLoad.

Section mass.
Context {A : arith} (FL : field_laws A).
Add Field Afield38 : (fl_field A FL).
Local Open Scope arith_scope.

(** resultant of the inertia forces in direction [d] under a unit acceleration in direction [d] *)
Definition mass_dir (d : nat) (l : contribs A) : A :=
  ssum (map (fun t => if ((t.1.1.2 =? d) && (t.1.2.2 =? d))%nat then t.2 else 0) l).

Context (two : (1 + 1 : A) <> 0) (three : (1 + (1 + 1) : A) <> 0).

Lemma six : (1 + 1) * (1 + (1 + 1)) <> 0 :> A.
Proof. intros Z. apply two. transitivity ((1 + 1) * (1 + (1 + 1)) / (1 + (1 + 1)) : A); [field; exact three|]. rewrite Z. field. exact three. Qed.

Lemma mass_total e d : (d < 2)%nat ->
  mass_dir d (el_list M_c e) = m_density (e_mat e) / (1 + 1) *
    match e_cond e with
    | PlaneStrain t | PlaneStress t => t
    | Axisymmetric => (p_x (e_pts e).1.1 + p_x (e_pts e).1.2 + p_x (e_pts e).2) / (1 + (1 + 1))
    end.
Proof.
  intros Hd. unfold mass_dir, el_list. rewrite map_rm, (ssum_rm FL).
  set (G := fun th : A -> A -> A => at_samples (fun r s => m_density (e_mat e) * th r s)).
  transitivity (G (fun r s => em_th (mats_c e r s))).
  - unfold G, M_c, at_samples, m_int, e_dof. cbn [fst snd].
    set (th0 := em_th _). set (th1 := em_th _). set (th2 := em_th _).
    destruct d as [|[|d]]; [| |lia];
    cbv [bigsum hm_c h_c Nat.div Nat.divmod Nat.modulo Nat.sub Nat.eqb andb fst snd];
    set (i6 := 1 / sz 6); set (ro := m_density (e_mat e)); generalize (tri_a (A := A)), (tri_b (A := A)); intros r s; ring.
  - unfold G, at_samples, mats_c. cbn [em_th]. unfold th_c. pose proof six as H6.
    change (sz 6) with ((1 + 1) * (1 + (1 + 1)) : A).
    destruct (e_cond e) as [t|t| ].
    + field. auto.
    + field. auto.
    + rewrite !(coord_lin FL). unfold tri_a, tri_b, xy. cbn [fst]. change s2 with (1 + 1 : A).
      change (sz 6) with ((1 + 1) * (1 + (1 + 1)) : A). change (sz 3) with (1 + (1 + 1) : A).
      field. auto.
Qed.

(** interpolation: the displacement read off at natural coordinates (r, s) *)
Lemma interp e r s k (u : nat -> A) : (k < 2)%nat ->
  bigsum 6 (fun i => el (em_h (mats_c e r s)) k i * u i) =
  (1 - r - s) * u k + r * u (2 + k)%nat + s * u (4 + k)%nat.
Proof.
  intros Hk. unfold mats_c. cbn [em_h].
  rewrite (bigsum_ext _ (fun i => hm_c r s k i * u i)) by (intros i Hi; now rewrite rm_lm_el).
  destruct k as [|[|k]]; [| |lia];
    cbv [bigsum hm_c h_c Nat.div Nat.divmod Nat.modulo Nat.sub Nat.eqb fst snd Nat.add]; ring.
Qed.
End mass.

(** ** element acceptance *)
Section accept.
Context {A : arith}.
Local Open Scope arith_scope.

Definition e_det (e : element A) : A := det_c (xy (e_pts e).1.1) (xy (e_pts e).1.2) (xy (e_pts e).2).

Lemma jacobian_ret (e : element A) c : planar e -> scmp (e_det e) (e_det e) = Some c ->
  jacobian_ratio e = Ret (e_det e / e_det e).
Proof.
  intros Hp Hc. unfold jacobian_ratio, tri_samples, pt2. cbn [mapM_out fst snd].
  rewrite !(mats_ret e _ _ _ Hp). cbn [mbind out_bind]. unfold mats_c. cbn [em_det].
  fold (e_det e). cbn [max_by min_by foldM]. unfold cmp_unwrap. rewrite !Hc. cbn [unwrap mbind out_bind].
  assert (E1 : match c with Gt => e_det e | _ => e_det e end = e_det e) by now destruct c.
  rewrite !E1, Hc. cbn [unwrap mbind out_bind].
  rewrite !E1. now destruct (sltb _ _).
Qed.

Lemma add_element_ret (a : elas A) d e c : build_element a d = Ret e -> planar e ->
  scmp (e_det e) (e_det e) = Some c -> sltb (e_det e / e_det e) 0 = false ->
  exists a', add_element a d = Ret a' /\ ea_elems a' = ea_elems a ++ [e].
Proof.
  intros He Hp Hc Hd. unfold add_element. rewrite He. cbn [mbind out_bind].
  rewrite (jacobian_ret e c Hp Hc). cbn [mbind out_bind]. rewrite Hd. eexists. split; reflexivity.
Qed.

Lemma add_element_refuses (a : elas A) d : (forall e, build_element a d = Ret e -> ~ planar e) ->
  forall a', add_element a d <> Ret a'.
Proof.
  intros H a' E. unfold add_element in E. apply bind_ret_inv in E as (e & Ee & E).
  apply bind_ret_inv in E as (j & Ej & _). exact (H e Ee (jacobian_planar e j Ej)).
Qed.

Lemma build_element_inv (a : elas A) d e : build_element a d = Ret e -> e = El d (e_pts e) (ea_mat a) (ea_cond a) /\
  ea_nodes a !! d.1.1 = Some (e_pts e).1.1 /\ ea_nodes a !! d.1.2 = Some (e_pts e).1.2 /\ ea_nodes a !! d.2 = Some (e_pts e).2.
Proof.
  unfold build_element, ea_node. intros E.
  apply bind_ret_inv in E as (p0 & E0 & E). apply bind_ret_inv in E as (p1 & E1 & E).
  apply bind_ret_inv in E as (p2 & E2 & E). injection E as <-. cbn.
  apply idx_inv in E0, E1, E2. auto.
Qed.
End accept.

Section accept_ord.
Context {A : arith} (OL : ord_laws A).
Let FL : field_laws A := ol_field A OL.
Add Field Afield39 : (fl_field A FL).
Local Open Scope arith_scope.

Lemma scmp_refl (x : A) : exists c, scmp x x = Some c.
Proof. destruct (scmp_spec OL x x) as (c & H & _). eauto. Qed.

(** every triangle of three plane nodes that is not degenerate is accepted, whatever its orientation *)
Lemma add_element_accepts (a : elas A) d p q w :
  ea_nodes a !! d.1.1 = Some p -> ea_nodes a !! d.1.2 = Some q -> ea_nodes a !! d.2 = Some w ->
  p_n p = 2%nat -> p_n q = 2%nat -> p_n w = 2%nat ->
  (p_x q - p_x p) * (p_y w - p_y p) - (p_x w - p_x p) * (p_y q - p_y p) <> 0 ->
  exists a', add_element a d = Ret a' /\ ea_elems a' = ea_elems a ++ [El d (p, q, w) (ea_mat a) (ea_cond a)].
Proof.
  intros Hp Hq Hw Np Nq Nw Hd.
  assert (Eb : build_element a d = Ret (El d (p, q, w) (ea_mat a) (ea_cond a))).
  { unfold build_element, ea_node, idx. rewrite Hp, Hq, Hw. reflexivity. }
  set (e := El d (p, q, w) (ea_mat a) (ea_cond a)) in *.
  assert (Hdet : e_det e <> 0) by (unfold e_det; rewrite (det_area FL); exact Hd).
  destruct (scmp_refl (e_det e)) as (c & Hc).
  apply (add_element_ret a d e c Eb); [repeat split; assumption|exact Hc|].
  rewrite (div_self FL _ Hdet). apply (lts_les OL), (one_pos OL).
Qed.
End accept_ord.

(** ** numbering of the unknowns *)
Lemma to_dof_inj n d m k : d < 2 -> k < 2 -> to_dof (n, d) = to_dof (m, k) -> n = m /\ d = k.
Proof. unfold to_dof. cbn. lia. Qed.
Lemma to_dof_surj N i : i < N * 2 -> exists n d, n < N /\ d < 2 /\ to_dof (n, d) = i.
Proof.
  intros H. exists (i / 2), (i mod 2). unfold to_dof. cbn [fst snd].
  pose proof (Nat.div_mod i 2 ltac:(lia)). pose proof (Nat.mod_upper_bound i 2 ltac:(lia)). lia.
Qed.

(** ** concentrated loads *)
Section conc.
Context {A : arith}.

Definition comp (p : point A) (d : nat) : A := match d with 0 => p_x p | _ => p_y p end.

Lemma conc_step_ret n (f : point A) res : p_n f = 2 -> n * 2 + 1 < length res ->
  exists res', conc_step (n, f) res = Ret res' /\ length res' = length res /\
    forall i, res' !! i = if i =? n * 2 then Some (p_x f) else if i =? n * 2 + 1 then Some (p_y f) else res !! i.
Proof.
  destruct f as [nf fx fy fz]. cbn. intros -> Hl. unfold conc_step. cbn [range Nat.sub seq foldM].
  cbn [snd fst]. change (pt_idx (Pt 2 fx fy fz) 0) with (Ret fx). change (pt_idx (Pt 2 fx fy fz) 1) with (Ret fy).
  cbn [mbind out_bind snd fst to_dof]. unfold to_dof. cbn [fst snd].
  rewrite Nat.add_0_r. unfold set.
  destruct (res !! (n * 2)) as [x0|] eqn:E0; [|apply lookup_ge_None_1 in E0; lia]. cbn [mbind out_bind].
  fold (@insert nat A (list A) _ (n * 2) fx res).
  destruct (<[n * 2:=fx]> res !! (n * 2 + 1)) as [x1|] eqn:E1;
    [|apply lookup_ge_None_1 in E1; rewrite insert_length in E1; lia]. cbn [mbind out_bind].
  eexists. split; [reflexivity|]. split; [now rewrite !insert_length|].
  intros i. destruct (Nat.eqb_spec i (n * 2)) as [->|H0].
  - rewrite list_lookup_insert_ne by lia. now rewrite list_lookup_insert by lia.
  - destruct (Nat.eqb_spec i (n * 2 + 1)) as [->|H1].
    + rewrite list_lookup_insert by (rewrite insert_length; lia). reflexivity.
    + now rewrite !list_lookup_insert_ne by lia.
Qed.

Lemma conc_fold (l : list (nat * point A)) : forall res, NoDup l.*1 ->
  (forall n f, (n, f) ∈ l -> p_n f = 2 /\ n * 2 + 1 < length res) ->
  exists res', foldM conc_step l res = Ret res' /\ length res' = length res /\
    (forall n f d, (n, f) ∈ l -> d < 2 -> res' !! (n * 2 + d) = Some (comp f d)) /\
    (forall n d, n ∉ l.*1 -> d < 2 -> res' !! (n * 2 + d) = res !! (n * 2 + d)).
Proof.
  induction l as [|[n f] l IH]; intros res Hnd Hl; cbn [foldM].
  { exists res. split; [reflexivity|]. split; [reflexivity|]. split; [intros n f d Hin; now apply elem_of_nil in Hin|reflexivity]. }
  cbn in Hnd. apply NoDup_cons in Hnd as [Hn Hnd].
  destruct (Hl n f ltac:(left)) as [Hf Hb].
  destruct (conc_step_ret n f res Hf Hb) as (r1 & E1 & L1 & V1). rewrite E1. cbn [mbind out_bind].
  destruct (IH r1 Hnd) as (r2 & E2 & L2 & V2 & V3).
  { intros m g Hin. rewrite L1. apply Hl. now right. }
  exists r2. split; [exact E2|]. split; [congruence|]. split.
  - intros m g d Hin Hd. apply elem_of_cons in Hin as [Heq|Hin].
    + injection Heq as -> ->. rewrite V3, V1 by assumption. destruct d as [|[|d]]; [| |lia].
      * now rewrite Nat.add_0_r, Nat.eqb_refl.
      * rewrite Nat.eqb_refl. destruct (Nat.eqb_spec (n * 2 + 1) (n * 2)); [lia|reflexivity].
    + now apply V2.
  - intros m d Hm Hd. cbn in Hm. apply not_elem_of_cons in Hm as [Hne Hm].
    rewrite V3, V1 by assumption.
    destruct (Nat.eqb_spec (m * 2 + d) (n * 2)); [lia|]. destruct (Nat.eqb_spec (m * 2 + d) (n * 2 + 1)); [lia|reflexivity].
Qed.

Lemma load_conc (a : elas A) oc : ea_line a = ∅ -> oc ≡ₚ map_to_list (ea_conc a) ->
  (forall n f, ea_conc a !! n = Some f -> n < node_count a /\ p_n f = 2) ->
  exists res, calc_load a oc [] = Ret res /\ length res = node_count a * 2 /\
    forall n d, n < node_count a -> d < 2 ->
      res !! (n * 2 + d) = Some (match ea_conc a !! n with Some f => comp f d | None => s0 end).
Proof.
  intros _ Ho Hb. unfold calc_load.
  destruct (conc_fold oc (replicate (node_count a * 2) s0)) as (res & E & L & V1 & V2).
  - rewrite Ho. apply NoDup_fst_map_to_list.
  - intros n f Hin. rewrite Ho in Hin. apply elem_of_map_to_list in Hin. destruct (Hb n f Hin).
    rewrite replicate_length. lia.
  - rewrite E. cbn [mbind out_bind foldM]. rewrite replicate_length in L.
    exists res. split; [reflexivity|]. split; [exact L|]. intros n d Hn Hd.
    destruct (ea_conc a !! n) as [f|] eqn:Ef.
    + apply V1; [|exact Hd]. rewrite Ho. now apply elem_of_map_to_list.
    + rewrite V2 by (try exact Hd; rewrite Ho; intros Hin; apply elem_of_list_fmap in Hin as ([m g] & -> & Hin);
        apply elem_of_map_to_list in Hin; cbn in Ef; congruence).
      apply lookup_replicate. split; [reflexivity|lia].
Qed.
End conc.

Section mix.
Context {A : arith} (FL : field_laws A).
Add Field Afield44 : (fl_field A FL).
Local Open Scope arith_scope.
Lemma affine_mix (ux uy : A * A * A) (p q w : A * A) (r s : A) k : (k < 2)%nat ->
  (1 - r - s) * nodal (affine ux uy) p q w k + r * nodal (affine ux uy) p q w (2 + k)%nat + s * nodal (affine ux uy) p q w (4 + k)%nat =
  (let v := affine ux uy ((1 - r - s) * p.1 + r * q.1 + s * w.1) ((1 - r - s) * p.2 + r * q.2 + s * w.2) in
   if (k =? 0)%nat then v.1 else v.2).
Proof. intros Hk. destruct k as [|[|k]]; [| |lia]; cbv [nodal affine fst snd Nat.eqb Nat.add]; ring. Qed.
End mix.
