(** Pictures of outlines, and a triangle at a given vertex. *)
From Verif Require Export Unused SideProofs.

Section proofs.
Context {A : arith} (g : geo A).
Implicit Types st : plane A.

Lemma one_at_found st u v e : MeshProofs.mesh_ok g st -> one_at st u v = Some e ->
  t_tris st !! (u, e.1) = Some e.2.
Proof.
  intros Hm E. unfold one_at in E. destruct (t_tris st !! (u, v)) as [w|] eqn:E1; [injection E as <-; exact E1|].
  destruct (t_tris st !! (v, u)) as [w|] eqn:E2; [|discriminate]. injection E as <-. cbn [fst snd].
  destruct (to_only _ _ (mo_tab _ _ Hm) _ _ _ E2) as (t & Ht & Hf). destruct (to_found _ _ (mo_tab _ _ Hm) t Hf) as (H1 & H2 & H3).
  apply in_rots in Ht as [->|[->| ->]]; cbn [fst snd] in *; assumption.
Qed.
Lemma one_at_none st u v : one_at st u v = None -> t_tris st !! (u, v) = None /\ t_tris st !! (v, u) = None.
Proof. unfold one_at. destruct (t_tris st !! (u, v)); [discriminate|]. destruct (t_tris st !! (v, u)); [discriminate|]. auto. Qed.

Lemma search_found st u l : forall r, fold_left (fun r v => match r with Some e => Some e | None => one_at st u v end) l r =
  match r with Some e => Some e | None => fold_left (fun r v => match r with Some e => Some e | None => one_at st u v end) l None end.
Proof. induction l as [|v l IH]; intros r; cbn; [now destruct r|]. rewrite IH. destruct r as [e|]; [reflexivity|]. now rewrite (IH (one_at st u v)). Qed.
Lemma search_inv st u l e : fold_left (fun r v => match r with Some e => Some e | None => one_at st u v end) l None = Some e -> exists v, v ∈ l /\ one_at st u v = Some e.
Proof.
  induction l as [|v l IH]; cbn; [discriminate|]. rewrite search_found. destruct (one_at st u v) as [e'|] eqn:E.
  - intros [= ->]. exists v. split; [left|exact E].
  - intros H. destruct (IH H) as (v' & Hv & H'). exists v'. split; [now right|exact H'].
Qed.
Lemma search_none st u l : fold_left (fun r v => match r with Some e => Some e | None => one_at st u v end) l None = None -> forall v, v ∈ l -> one_at st u v = None.
Proof.
  induction l as [|v l IH]; cbn; intros H x Hx; [now apply elem_of_nil in Hx|]. rewrite search_found in H. destruct (one_at st u v) as [e'|] eqn:E; [discriminate|].
  apply elem_of_cons in Hx as [->|Hx]; [exact E|now apply IH].
Qed.

Lemma adjacent_one_spec st u : mesh_state g st ->
  match adjacent_one st u with
  | Some e => exists t, is_Some (t_full st !! t) /\ t ∈ tri_rots (u, e.1, e.2)
  | None => forall t, is_Some (t_full st !! t) -> u <> t.1.1 /\ u <> t.1.2 /\ u <> t.2
  end.
Proof.
  intros Hst. destruct (state_inv g st Hst) as [base Hi]. pose proof (pi_mesh _ _ _ Hi) as Hm.
  assert (G : forall v e, one_at st u v = Some e -> exists t, is_Some (t_full st !! t) /\ t ∈ tri_rots (u, e.1, e.2)).
  { intros v e E. apply one_at_found in E; [|exact Hm]. destruct (to_only _ _ (mo_tab _ _ Hm) _ _ _ E) as (t & Ht & Hf). eauto. }
  unfold adjacent_one. destruct (match t_rec st !! u with Some v => one_at st u v | None => None end) as [e|] eqn:E.
  - destruct (t_rec st !! u) as [v|]; [|discriminate]. exact (G v e E).
  - destruct (fold_left _ _ _) as [e|] eqn:F.
    + apply search_inv in F as (v & _ & F). exact (G v e F).
    + pose proof (search_none st u _ F) as N. intros [[a b] c] Ht. cbn [fst snd].
      destruct (to_found _ _ (mo_tab _ _ Hm) _ Ht) as (H1 & H2 & H3). cbn [fst snd] in H1, H2, H3.
      destruct (state_known g st Hst _ _ _ H1) as (Ka & Kb & Kc).
      split; [|split]; intros ->.
      * destruct (one_at_none _ _ _ (N b Kb)) as [X _]. congruence.
      * destruct (one_at_none _ _ _ (N c Kc)) as [X _]. congruence.
      * destruct (one_at_none _ _ _ (N a Ka)) as [X _]. congruence.
Qed.

Lemma outline_picture b polys ord : bd_built g b polys -> ord ≡ₚ elements (b_set b) -> b_verts b <> [] ->
  exists v es, bd_visualize ord b = Ret v /\ vz_points v = map (fun u => xy_pt (vget b u)) (b_verts b) /\ vz_tris v = None /\
    vz_edges v = match es with [] => None | _ => Some es end /\ NoDup es /\
    forall i j, (i, j) ∈ es <-> exists p q, b_verts b !! i = Some p /\ b_verts b !! j = Some q /\ (p, q) ∈ b_set b.
Proof.
  intros Hb Ho Hne. destruct (bd_built_inv g b polys Hb) as (base & cs & Hi & _). pose proof (bi_distinct _ _ _ Hi) as Hd.
  set (lk := list_to_map (rev (zip (b_verts b) (seq 0 (length (b_verts b))))) : gmap vertex nat).
  assert (Hlk : forall v i, lk !! v = Some i <-> b_verts b !! i = Some v) by (intros v i; now apply lookup_zip_spec).
  assert (Hin : forall s, s ∈ ord <-> s ∈ b_set b) by (intros s; rewrite Ho; apply elem_of_elements).
  assert (Hv : forall s, s ∈ ord -> s.1 ∈ b_verts b /\ s.2 ∈ b_verts b).
  { intros s Hs. apply Hin, (bi_set _ _ _ Hi) in Hs. split; apply (bi_stored _ _ _ Hi).
    - rewrite <- edges_fst. now apply elem_of_list_fmap_1.
    - rewrite <- edges_snd. now apply elem_of_list_fmap_1. }
  assert (Hes : exists es, mapM_out (fun s : edge => i ← unwrap (lk !! s.1); j ← unwrap (lk !! s.2); Ret (i, j)) ord = Ret es /\
    Forall2 (fun (s ij : nat * nat) => b_verts b !! ij.1 = Some s.1 /\ b_verts b !! ij.2 = Some s.2) ord es).
  { clear Ho Hin. induction ord as [|s l IH]; [exists []; auto|]. destruct IH as (es & E & HF); [intros x Hx; apply Hv; now right|].
    destruct (Hv s ltac:(left)) as [H1 H2]. apply elem_of_list_lookup in H1 as [i H1], H2 as [j H2]. exists ((i, j) :: es). cbn [mapM_out].
    rewrite (proj2 (Hlk _ _) H1), (proj2 (Hlk _ _) H2). cbn [unwrap mbind out_bind]. rewrite E. cbn [mbind out_bind]. split; [reflexivity|]. constructor; auto. }
  destruct Hes as (es & E & HF). unfold bd_visualize. fold lk. rewrite E. cbn [mbind out_bind].
  assert (Hnew : exists v, vis_new (map (fun u => xy_pt (vget b u)) (b_verts b)) = Ret v /\ vz_points v = map (fun u => xy_pt (vget b u)) (b_verts b) /\ vz_tris v = None).
  { destruct (b_verts b) as [|v0 vs]; [congruence|]. unfold vis_new. cbn [map].
    change (idx (xy_pt (vget b v0) :: map (fun u : nat => xy_pt (vget b u)) vs) 0) with (Ret (xy_pt (vget b v0))). cbn [mbind out_bind].
    match goal with |- context [existsb ?f ?l] => assert (X : existsb f l = false) end; [|rewrite X; eauto].
    cbn. clear. induction vs as [|v vs IH]; [reflexivity|exact IH]. }
  destruct Hnew as (v & Ev & Hp & Ht). rewrite Ev. cbn [mbind out_bind]. exists (set_edges v es), es. split; [reflexivity|].
  split; [exact Hp|]. split; [exact Ht|]. split; [reflexivity|]. split.
  - assert (Hnd : NoDup ord) by (rewrite Ho; apply NoDup_elements). clear -HF Hnd Hd. apply NoDup_alt. intros k k' ij Hk Hk'.
    destruct (Forall2_lookup_r _ _ _ _ _ HF Hk) as (s & Hs & H1 & H2). destruct (Forall2_lookup_r _ _ _ _ _ HF Hk') as (s' & Hs' & H1' & H2').
    assert (s = s') as <- by (destruct s, s'; cbn in *; congruence). exact (NoDup_lookup _ _ _ _ Hnd Hs Hs').
  - intros i j. split.
    + intros Hij. apply elem_of_list_lookup in Hij as [k Hk]. destruct (Forall2_lookup_r _ _ _ _ _ HF Hk) as ([p q] & Hl & H1 & H2). exists p, q.
      split; [exact H1|]. split; [exact H2|]. apply Hin. now apply elem_of_list_lookup_2 in Hl.
    + intros (p & q & Hi' & Hj' & Hpq). apply Hin, elem_of_list_lookup in Hpq as [k Hk]. destruct (Forall2_lookup_l _ _ _ _ _ HF Hk) as ([i' j'] & Hl & H1 & H2). cbn in *.
      rewrite (NoDup_lookup _ _ _ _ Hd Hi' H1), (NoDup_lookup _ _ _ _ Hd Hj' H2). now apply elem_of_list_lookup_2 in Hl.
Qed.
Lemma outline_empty ord (b : bound A) : b_verts b = [] -> bd_visualize ord b = Panic.
Proof.
  intros H. unfold bd_visualize. rewrite H. cbn [map zip zip_with rev list_to_map].
  assert (E : forall l, mapM_out (fun s : edge => i ← unwrap ((∅ : gmap nat nat) !! s.1); j ← unwrap ((∅ : gmap nat nat) !! s.2); Ret (i, j)) l = Panic \/
    mapM_out (fun s : edge => i ← unwrap ((∅ : gmap nat nat) !! s.1); j ← unwrap ((∅ : gmap nat nat) !! s.2); Ret (i, j)) l = Ret []).
  { intros [|s l]; [now right|left]. cbn [mapM_out]. now rewrite lookup_empty. }
  destruct (E ord) as [E'|E']; cbn in E' |- *; rewrite E'; reflexivity.
Qed.
End proofs.
