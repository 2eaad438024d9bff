(** Stresses of elements and assemblages: the constitutive law applied to the strains. *)
From Verif Require Export StressVec.

Section patch.
Context {A : arith}.
Implicit Types e : element A.
Local Open Scope arith_scope.

Definition cond_kind (c : strain_cond A) : stress_type := match c with Axisymmetric => AxiSym | _ => Plane end.
Definition pad6 (n : nat) (f : nat -> A) : list A := take 6 (map f (seq 0 n) ++ replicate 6 s0).

Lemma st_vec (c : strain_cond A) (v : lm A) : lm_wf v -> mshape v = (vec_len c, 1)%nat ->
  st_from_vector v = Ret (Stress (cond_kind c) (pad6 (vec_len c) (fun i => el v i 0))).
Proof.
  intros W Hs. apply (st_from_vector_ret v _ _ _ W Hs). split; [now right|].
  destruct c; split; reflexivity.
Qed.

(** natural coordinates of the corners *)
Definition corner (k : nat) : A * A := match k with 0%nat => (0, 0) | 1%nat => (1, 0) | _ => (0, 1) end.
Definition sig_c e (us : list A) (r s : A) (i : nat) : A :=
  bigsum 6 (fun j => bigsum (vec_len (e_cond e)) (fun l => c_c (e_cond e) (e_mat e) i l *
    b_c (xy (e_pts e).1.1) (xy (e_pts e).1.2) (xy (e_pts e).2) r s l j) * vel us j).

Lemma pad6_ext n (f g : nat -> A) : (forall i, (i < n)%nat -> f i = g i) -> pad6 n f = pad6 n g.
Proof. intros H. unfold pad6. do 2 f_equal. apply map_ext_in. intros i Hi. apply in_seq in Hi. apply H. lia. Qed.

Lemma one_node e us u (r s z : A) (n : nat) : planar e -> col_vec (M := lm A) us = Ret u -> length us = 6%nat ->
  (m ← get_isopar_mats e (Pt 2 r s z);
   st ← mmul (M3 := lm A) (LM (vec_len (e_cond e)) (vec_len (e_cond e)) true
              (rm_list (vec_len (e_cond e)) (vec_len (e_cond e)) (c_c (e_cond e) (e_mat e)))) (em_b m);
   st ← mmul (M3 := lm A) st u; s ← st_from_vector st; Ret (n, s)) =
  Ret (n, Stress (cond_kind (e_cond e)) (pad6 (vec_len (e_cond e)) (sig_c e us r s))).
Proof.
  intros Hp Eu Lu. rewrite (mats_ret e r s z Hp). cbn [mbind out_bind].
  destruct (col_vec_ret us) as (u' & Eu' & Wu & Su & Vu). assert (u' = u) as -> by congruence. rewrite Lu in *.
  change (em_b (mats_c e r s)) with (LM (vec_len (e_cond e)) 6 true (rm_list (vec_len (e_cond e)) 6 (b_c (xy (e_pts e).1.1) (xy (e_pts e).1.2) (xy (e_pts e).2) r s))).
  unfold sig_c. set (B := b_c _ _ _ r s). set (N := vec_len (e_cond e)). set (C := c_c (e_cond e) (e_mat e)).
  set (cm := LM N N true (rm_list N N C)). set (bm := LM N 6 true (rm_list N 6 B)).
  assert (Wb : lm_wf bm) by apply rm_lm_wf. assert (Wc : lm_wf cm) by apply rm_lm_wf.
  destruct (mmul_spec _ _ lm_laws _ _ lm_laws cm bm Wc Wb) as [H1 _].
  destruct (H1 eq_refl) as (m1 & E1 & W1 & S1 & V1). rewrite E1. cbn [mbind out_bind].
  destruct (mmul_spec _ _ lm_laws _ _ lm_laws m1 u W1 Wu) as [H2 _].
  destruct H2 as (m2 & E2 & W2 & S2 & V2); [rewrite S1, Su; reflexivity|]. rewrite E2. cbn [mbind out_bind].
  rewrite S1, Su in *. cbn [fst snd mshape lm_like cm bm lm_r lm_c] in *.
  rewrite (st_vec (e_cond e) m2 W2 S2). cbn [mbind out_bind]. do 3 f_equal. apply pad6_ext. intros i Hi.
  rewrite V2 by (exact Hi || lia). apply bigsum_ext. intros j Hj. rewrite Vu by exact Hj. f_equal.
  rewrite V1 by (exact Hi || exact Hj). apply bigsum_ext. intros l Hl. unfold cm, bm. now rewrite !rm_lm_el.
Qed.

Definition disp_list (d : nat -> point A) (ids : nat * nat * nat) : list A :=
  [p_x (d ids.1.1); p_y (d ids.1.1); p_x (d ids.1.2); p_y (d ids.1.2); p_x (d ids.2); p_y (d ids.2)].
Definition distinct_ids (ids : nat * nat * nat) : Prop := ids.1.1 <> ids.1.2 /\ ids.1.1 <> ids.2 /\ ids.1.2 <> ids.2.

Lemma e_stresses_ret e (disps : nat -> out (point A)) d : planar e -> distinct_ids (e_ids e) ->
  (forall n, n ∈ e_id_list e -> disps n = Ret (d n) /\ p_n (d n) = 2%nat) ->
  e_stresses e disps = Ret (map (fun k => (nth k (e_id_list e) 0%nat,
    Stress (cond_kind (e_cond e)) (pad6 (vec_len (e_cond e)) (sig_c e (disp_list d (e_ids e)) (corner k).1 (corner k).2)))) [0; 1; 2]%nat).
Proof.
  intros Hp Hd Hn. unfold e_stresses.
  assert (E : mapM_out (fun n => x ← disps n; mapM_out (pt_idx x) (range 0%nat 2)) (e_id_list e) =
    Ret (map (fun n => [p_x (d n); p_y (d n)]) (e_id_list e))).
  { assert (G : forall n, n ∈ e_id_list e -> (x ← disps n; mapM_out (pt_idx x) (range 0%nat 2)) = Ret [p_x (d n); p_y (d n)]).
    { intros n Hin. destruct (Hn n Hin) as [-> H2]. cbn [mbind out_bind]. destruct (d n) as [k x y z]. cbn in H2. subst. reflexivity. }
    revert G. generalize (e_id_list e). clear. induction l as [|n l IH]; intros G; [reflexivity|].
    cbn [mapM_out map]. rewrite G by left. cbn [mbind out_bind]. rewrite IH; [reflexivity|]. intros m Hm. apply G. now right. }
  rewrite E. cbn [mbind out_bind].
  change (concat (map (fun n => [p_x (d n); p_y (d n)]) (e_id_list e))) with (disp_list d (e_ids e)).
  destruct (col_vec_ret (disp_list d (e_ids e))) as (u & Eu & _). rewrite Eu. cbn [mbind out_bind].
  rewrite build_c_ret. cbn [mbind out_bind].
  destruct e as [[[i0 i1] i2] pts mat cond]. destruct Hd as (D1 & D2 & D3). cbn in D1, D2, D3.
  set (e := El (i0, i1, i2) pts mat cond) in *. unfold e_id_list. cbn [e_ids e fst snd mapM_out map nth].
  assert (N0 : node_natural e i0 = Some (pt2 0 0)) by (cbn; now rewrite Nat.eqb_refl).
  assert (N1 : node_natural e i1 = Some (pt2 1 0)) by (cbn; rewrite (proj2 (Nat.eqb_neq i1 i0)) by congruence; now rewrite Nat.eqb_refl).
  assert (N2 : node_natural e i2 = Some (pt2 0 1)).
  { cbn. rewrite (proj2 (Nat.eqb_neq i2 i0)), (proj2 (Nat.eqb_neq i2 i1)) by congruence. now rewrite Nat.eqb_refl. }
  rewrite N0, N1, N2. cbn [unwrap]. unfold pt2.
  pose proof (fun r s => one_node e (disp_list d (i0, i1, i2)) u r s 0) as G.
  cbn [mbind out_bind] in *. 
  rewrite (G 0 0 i0 Hp Eu eq_refl), (G 1 0 i1 Hp Eu eq_refl), (G 0 1 i2 Hp Eu eq_refl). reflexivity.
Qed.
End patch.

(** ** the stress of a linear displacement field *)
Section field.
Context {A : arith} (FL : field_laws A).
Add Field Afield57 : (fl_field A FL).
Local Open Scope arith_scope.
Implicit Types e : element A.

(** strains at [p] of the displacement field with components [a.1.1 + a.1.2 x + a.2 y] and
    [b.1.1 + b.1.2 x + b.2 y]: two stretches, shear, hoop *)
Definition lin_strain (a b : A * A * A) (p : A * A) (k : nat) : A :=
  match k with
  | 0%nat => a.1.2 | 1%nat => b.2 | 2%nat => a.2 + b.1.2
  | _ => (a.1.1 + a.1.2 * p.1 + a.2 * p.2) / p.1
  end.
Definition lin_disp (a b : A * A * A) (p : point A) : point A :=
  pt2 (a.1.1 + a.1.2 * p_x p + a.2 * p_y p) (b.1.1 + b.1.2 * p_x p + b.2 * p_y p).
Definition lin_stress (c : strain_cond A) (m : material A) (a b : A * A * A) (p : A * A) : stress A :=
  Stress (cond_kind c) (pad6 (vec_len c) (fun i => bigsum (vec_len c) (fun l => c_c c m i l * lin_strain a b p l))).

Lemma sig_strain e us r s i : sig_c e us r s i =
  bigsum (vec_len (e_cond e)) (fun l => c_c (e_cond e) (e_mat e) i l *
    strain (b_c (xy (e_pts e).1.1) (xy (e_pts e).1.2) (xy (e_pts e).2) r s) (vel us) l).
Proof.
  unfold sig_c, strain. set (B := b_c _ _ _ r s). set (N := vec_len _).
  transitivity (bigsum 6 (fun j => bigsum N (fun l => c_c (e_cond e) (e_mat e) i l * B l j * vel us j))).
  { apply bigsum_ext. intros j _. now rewrite (bigsum_scale_r FL). }
  rewrite (bigsum_swap FL). apply bigsum_ext. intros l _. rewrite <- (bigsum_scale_l FL). apply bigsum_ext. intros j _. ring.
Qed.

Definition twice_area e : A :=
  (p_x (e_pts e).1.2 - p_x (e_pts e).1.1) * (p_y (e_pts e).2 - p_y (e_pts e).1.1) -
  (p_x (e_pts e).2 - p_x (e_pts e).1.1) * (p_y (e_pts e).1.2 - p_y (e_pts e).1.1).
Definition corner_pt e (k : nat) : point A := match k with 0%nat => (e_pts e).1.1 | 1%nat => (e_pts e).1.2 | _ => (e_pts e).2 end.

Lemma corner_at e k : (k < 3)%nat ->
  coord_c (corner k).1 (corner k).2 (xy (e_pts e).1.1).1 (xy (e_pts e).1.2).1 (xy (e_pts e).2).1 = p_x (corner_pt e k) /\
  coord_c (corner k).1 (corner k).2 (xy (e_pts e).1.1).2 (xy (e_pts e).1.2).2 (xy (e_pts e).2).2 = p_y (corner_pt e k).
Proof.
  intros Hk. rewrite !(coord_lin FL). unfold xy.
  destruct k as [|[|[|k]]]; [| | |lia]; cbn [corner corner_pt fst snd]; split; ring.
Qed.

Lemma sig_lin e a b d k i : twice_area e <> 0 -> (k < 3)%nat ->
  (forall j, (j < 3)%nat -> d (nth j (e_id_list e) 0%nat) = lin_disp a b (corner_pt e j)) ->
  sig_c e (disp_list d (e_ids e)) (corner k).1 (corner k).2 i =
  bigsum (vec_len (e_cond e)) (fun l => c_c (e_cond e) (e_mat e) i l * lin_strain a b (xy (corner_pt e k)) l).
Proof.
  intros Ha Hk Hd. rewrite sig_strain. apply bigsum_ext. intros l Hl. f_equal.
  pose proof (Hd 0%nat ltac:(lia)) as D0. pose proof (Hd 1%nat ltac:(lia)) as D1. pose proof (Hd 2%nat ltac:(lia)) as D2. clear Hd.
  unfold e_id_list in D0, D1, D2. cbn [nth] in D0, D1, D2.
  set (p := xy (e_pts e).1.1). set (q := xy (e_pts e).1.2). set (w := xy (e_pts e).2).
  assert (Hdet : det_c p q w <> 0) by (rewrite (det_area FL); exact Ha).
  assert (U : forall l, strain (b_c p q w (corner k).1 (corner k).2) (vel (disp_list d (e_ids e))) l =
    strain (b_c p q w (corner k).1 (corner k).2) (nodal (affine a b) p q w) l).
  { intros l'. unfold strain. apply bigsum_ext. intros j Hj. f_equal. unfold disp_list, vel. rewrite D0, D1, D2.
    do 6 (destruct j as [|j]; [reflexivity|]). lia. }
  rewrite U. destruct (strain_affine FL a b p q w (corner k).1 (corner k).2 Hdet) as (S0 & S1 & S2 & S3).
  destruct (corner_at e k Hk) as [Cx Cy].
  assert (l < 4)%nat by (destruct (e_cond e); cbn in Hl; lia).
  destruct l as [|[|[|[|l]]]]; [exact S0|exact S1|exact S2| |lia].
  rewrite S3. unfold affine, lin_strain. cbn [fst snd]. unfold p, q, w. rewrite Cx, Cy. reflexivity.
Qed.

Lemma area_distinct a e : el_of a e -> twice_area e <> 0 -> distinct_ids (e_ids e).
Proof.
  intros (_ & _ & _ & H0 & H1 & H2) Ha. unfold distinct_ids, twice_area in *.
  repeat split; intros E; apply Ha; rewrite E in *;
    (rewrite H1 in H0 || rewrite H2 in H0 || rewrite H2 in H1); (injection H0 as -> || injection H1 as ->); ring.
Qed.

Lemma e_stresses_lin e a b (disps : nat -> out (point A)) : planar e -> distinct_ids (e_ids e) -> twice_area e <> 0 ->
  (forall j, (j < 3)%nat -> disps (nth j (e_id_list e) 0%nat) = Ret (lin_disp a b (corner_pt e j))) ->
  e_stresses e disps = Ret (map (fun k => (nth k (e_id_list e) 0%nat,
    lin_stress (e_cond e) (e_mat e) a b (xy (corner_pt e k)))) [0; 1; 2]%nat).
Proof.
  intros Hp Hi Ha Hd.
  set (d := fun n => match disps n with Ret x => x | _ => pt2 0 0 end).
  rewrite (e_stresses_ret e disps d Hp Hi).
  - f_equal. apply map_ext_in. intros k Hk. assert (k < 3)%nat by (cbn in Hk; lia). unfold lin_stress. do 2 f_equal.
    apply pad6_ext. intros i _. apply sig_lin; [exact Ha|assumption|]. intros j Hj. unfold d. now rewrite Hd.
  - intros n Hn. assert (exists j, (j < 3)%nat /\ n = nth j (e_id_list e) 0%nat) as (j & Hj & ->).
    { unfold e_id_list in *. rewrite !elem_of_cons, elem_of_nil in Hn.
      destruct Hn as [->|[->|[->|[]]]]; [exists 0%nat|exists 1%nat|exists 2%nat]; (split; [lia|reflexivity]). }
    unfold d. rewrite (Hd j Hj). split; reflexivity.
Qed.
End field.

(** ** meshes *)
Section mesh.
Context {A : arith} (OL : ord_laws A).
Let FL : field_laws A := ol_field A OL.
Add Field Afield58 : (fl_field A FL).
Local Open Scope arith_scope.

Lemma mean_const (x : A) n : mean (replicate (S n) x) = x.
Proof.
  induction n as [|n IH]; [apply (mean_one OL)|].
  replace (replicate (S (S n)) x) with (replicate (S n) x ++ [x]) by (symmetry; apply replicate_S_end).
  rewrite <- (mean_snoc OL) by discriminate. rewrite IH, replicate_length.
  pose proof (count_neq OL (S n)) as H. 
  assert (E : sz (Z.of_nat (S (S n))) = sz (Z.of_nat (S n)) + (1 : A)).
  { rewrite (Nat2Z.inj_succ (S n)), <- Z.add_1_r.
    exact (Ring_theory.morph_add (InitialRing.gen_phiZ_morph (Ring_theory.Eqsth A) (Ring_theory.Eq_ext _ _ _) (Field_theory.F_R (fl_field A FL))) (Z.of_nat (S n)) 1%Z). }
  rewrite E in *. field. exact H.
Qed.

(** folding states of one kind never panics *)
Lemma st_fold_ret N k (L : list (nat * stress A)) avs : Forall (fun p => p.1 < N /\ st_type p.2 = k)%nat L ->
  length avs = N -> Forall (fun v => forall m, av_avg v = Some m -> st_type m = k) avs ->
  exists avs', foldM (fun ns avs => v ← idx avs ns.1; v ← st_update v ns.2; set avs ns.1 v) L avs = Ret avs' /\
    length avs' = N /\ Forall (fun v => forall m, av_avg v = Some m -> st_type m = k) avs'.
Proof.
  revert avs. induction L as [|[n s] L IH]; intros avs HL Hl Hk; cbn [foldM]; [now exists avs|].
  apply Forall_cons in HL as [[Hn Hs] HL]. cbn [fst snd] in *.
  destruct (lookup_lt_is_Some_2 avs n) as [v Hv]; [lia|].
  unfold idx. rewrite Hv. cbn [unwrap mbind out_bind].
  assert (Hvk : forall m, av_avg v = Some m -> st_type m = k) by (exact (proj1 (Forall_lookup _ _) Hk n v Hv)).
  assert (exists w, st_update v s = Ret w /\ forall m, av_avg w = Some m -> st_type m = k) as (w & Ew & Hw).
  { unfold st_update. destruct (av_avg v) as [m|].
    - unfold st_add. cbn [st_type st_mul]. rewrite decide_True by (rewrite Hs; now apply Hvk). cbn [mbind out_bind].
      eexists. split; [reflexivity|]. cbn. intros m' [= <-]. cbn. now apply Hvk.
    - eexists. split; [reflexivity|]. cbn. now intros m' [= <-]. }
  rewrite Ew. cbn [mbind out_bind]. unfold set. rewrite Hv. cbn [mbind out_bind].
  apply IH; [exact HL|now rewrite insert_length|]. now apply Forall_insert.
Qed.

Definition touches (a : elas A) (n : nat) : Prop := exists e, e ∈ ea_elems a /\ n ∈ e_id_list e.

Lemma mesh_lin (a : elas A) u v disp : ea_built a ->
  (forall e, e ∈ ea_elems a -> twice_area e <> 0) -> disp = map (lin_disp u v) (ea_nodes a) ->
  exists res, ea_stresses a disp = Ret res /\ length res = node_count a /\
    forall n p, ea_nodes a !! n = Some p ->
      (touches a n -> exists s, res !! n = Some (Some s) /\ st_type s = cond_kind (ea_cond a) /\ length (st_data s) = 6%nat /\
        forall i, (i < 6)%nat -> nth i (st_data s) 0 = nth i (st_data (lin_stress (ea_cond a) (ea_mat a) u v (xy p))) 0) /\
      (~ touches a n -> res !! n = Some None).
Proof.
  intros Hb Hne Hdisp. pose proof (ea_built_ok a Hb) as [_ Hok].
  set (F := fun e : element A => map (fun k => (nth k (e_id_list e) 0%nat,
    lin_stress (ea_cond a) (ea_mat a) u v (xy (corner_pt e k)))) [0; 1; 2]%nat).
  assert (HF : forall e, e ∈ ea_elems a -> e_stresses e (idx disp) = Ret (F e)).
  { intros e He. pose proof (Hok e He) as Ho. pose proof Ho as (Hp & Hm & Hc & H0 & H1 & H2).
    rewrite (e_stresses_lin FL e u v (idx disp) Hp (area_distinct FL a e Ho (Hne e He)) (Hne e He)).
    - unfold F. now rewrite Hm, Hc.
    - intros j Hj. unfold idx. rewrite Hdisp, list_lookup_fmap. unfold e_id_list.
      destruct j as [|[|[|j]]]; [| | |lia]; cbn [nth corner_pt]; rewrite ?H0, ?H1, ?H2; reflexivity. }
  assert (Hin : forall e n s, e ∈ ea_elems a -> (n, s) ∈ F e ->
    n ∈ e_id_list e /\ exists p, ea_nodes a !! n = Some p /\ s = lin_stress (ea_cond a) (ea_mat a) u v (xy p)).
  { intros e n s He Hs. pose proof (Hok e He) as (_ & _ & _ & H0 & H1 & H2). unfold F in Hs. cbn [map] in Hs.
    rewrite !elem_of_cons, elem_of_nil in Hs. unfold e_id_list in *. cbn [nth corner_pt] in Hs.
    rewrite !elem_of_cons.
    destruct Hs as [E|[E|[E|[]]]]; injection E as -> ->; (split; [tauto|]); eexists; (split; [eassumption|reflexivity]). }
  assert (Hmap : mapM_out (fun e => e_stresses e (idx disp)) (ea_elems a) = Ret (map F (ea_elems a))).
  { revert HF. generalize (ea_elems a). induction l as [|e l IH]; intros HF; [reflexivity|]. cbn [mapM_out map].
    rewrite HF by left. cbn [mbind out_bind]. rewrite IH; [reflexivity|]. intros e' He'. apply HF. now right. }
  assert (Hret : exists res, ea_stresses a disp = Ret res).
  { unfold ea_stresses.
    enough (G : forall els avs, (forall e, e ∈ els -> e ∈ ea_elems a) -> length avs = node_count a ->
      Forall (fun v => forall m, av_avg v = Some m -> st_type m = cond_kind (ea_cond a)) avs ->
      exists avs', foldM (fun e avs => l ← e_stresses e (idx disp);
        foldM (fun ns avs => v ← idx avs ns.1; v ← st_update v ns.2; set avs ns.1 v) l avs) els avs = Ret avs').
    { destruct (G (ea_elems a) (replicate (node_count a) average_new)) as [avs' E].
      - auto.
      - apply replicate_length.
      - apply Forall_replicate. intros m Hm. discriminate.
      - rewrite E. eexists. reflexivity. }
    induction els as [|e els IH]; intros avs Hsub Hl Hk; cbn [foldM]; [now exists avs|].
    rewrite HF by (apply Hsub; left). cbn [mbind out_bind].
    destruct (st_fold_ret (node_count a) (cond_kind (ea_cond a)) (F e) avs) as (avs' & E & Hl' & Hk'); [|exact Hl|exact Hk|].
    - apply Forall_forall. intros [n s] Hs. destruct (Hin e n s) as (_ & p & Hp & ->); [apply Hsub; left|exact Hs|].
      split; [exact (lookup_lt_Some _ _ _ Hp)|reflexivity].
    - rewrite E. cbn [mbind out_bind]. apply IH; [|exact Hl'|exact Hk']. intros e' He'. apply Hsub. now right. }
  destruct Hret as [res Hres]. exists res. split; [exact Hres|].
  destruct (ea_stresses_mean OL a disp res Hres) as (Ls & EL & Hlen & H). rewrite Hmap in EL. injection EL as <-.
  split; [exact Hlen|]. intros n p Hp.
  destruct (lookup_lt_is_Some_2 res n) as [o Ho].
  { rewrite Hlen. exact (lookup_lt_Some _ _ _ Hp). }
  specialize (H n o Ho). set (AN := at_node n (concat (map F (ea_elems a)))) in *.
  assert (HAN : forall s, s ∈ AN <-> touches a n /\ s = lin_stress (ea_cond a) (ea_mat a) u v (xy p)).
  { intros s. unfold AN, at_node. rewrite elem_of_list_In, in_map_iff. split.
    - intros ([n' s'] & <- & Hf). apply filter_In in Hf as [Hf En]. apply Nat.eqb_eq in En. cbn [fst snd] in *. subst n'.
      apply in_concat in Hf as (l & Hl & Hf). apply in_map_iff in Hl as (e & <- & He).
      apply elem_of_list_In in He, Hf. destruct (Hin e n s' He Hf) as (Hi & p' & Hp' & ->).
      split; [now exists e|]. congruence.
    - intros [(e & He & Hi) ->].
      assert (exists k, (k < 3)%nat /\ n = nth k (e_id_list e) 0%nat /\ corner_pt e k = p) as (k & Hk & -> & Hcp).
      { pose proof (Hok e He) as (_ & _ & _ & H0 & H1 & H2). unfold e_id_list in *. rewrite !elem_of_cons, elem_of_nil in Hi.
        destruct Hi as [->|[->|[->|[]]]]; [exists 0%nat|exists 1%nat|exists 2%nat]; (split; [lia|]; split; [reflexivity|cbn; congruence]). }
      exists (nth k (e_id_list e) 0%nat, lin_stress (ea_cond a) (ea_mat a) u v (xy p)). split; [reflexivity|].
      apply filter_In. split; [|apply Nat.eqb_refl]. apply in_concat. exists (F e). split; [apply in_map; now apply elem_of_list_In|].
      unfold F. apply in_map_iff. exists k. rewrite Hcp. split; [reflexivity|].
      destruct k as [|[|[|k]]]; cbn; auto; lia. }
  split.
  - intros Ht. assert (Hs : lin_stress (ea_cond a) (ea_mat a) u v (xy p) ∈ AN) by now apply HAN.
    assert (Hrep : AN = replicate (length AN) (lin_stress (ea_cond a) (ea_mat a) u v (xy p))).
    { symmetry. apply replicate_as_elem_of. split; [reflexivity|]. intros s Hin'. now apply HAN in Hin' as [_ ->]. }
    destruct (length AN) as [|N] eqn:EN.
    { rewrite Hrep in Hs. now apply elem_of_nil in Hs. }
    rewrite Hrep in H. cbn [replicate] in H. destruct o as [s|]; [|contradiction].
    destruct H as (Ht' & L6 & Hc). exists s. split; [exact Ho|]. split; [symmetry; exact (Ht' _ (elem_of_list_here _ _))|]. split; [exact L6|].
    intros i Hi. specialize (Hc i Hi). unfold st_comp at 1 in Hc. rewrite Hc.
    change (lin_stress (ea_cond a) (ea_mat a) u v (xy p) :: replicate N (lin_stress (ea_cond a) (ea_mat a) u v (xy p)))
      with (replicate (S N) (lin_stress (ea_cond a) (ea_mat a) u v (xy p))).
    change (map (st_comp (A := A) i)) with (fmap (M := list) (st_comp (A := A) i)). rewrite fmap_replicate. apply mean_const.
  - intros Ht. destruct AN as [|s AN'].
    + destruct o; [contradiction|]. exact Ho.
    + exfalso. apply Ht. apply (HAN s). left.
Qed.
End mesh.

(** ** deformed shape *)
Section shape.
Context {A : arith}.
Local Open Scope arith_scope.
Lemma displaced_ret (a : elas A) disp k res : displaced_nodes a disp k = Ret res <->
  length res = (length (ea_nodes a) `min` length disp)%nat /\
  forall n p d, ea_nodes a !! n = Some p -> disp !! n = Some d ->
    p_n p = p_n d /\ res !! n = Some (Pt (p_n p) (p_x p + p_x d * k) (p_y p + p_y d * k) (p_z p + p_z d * k)).
Proof.
  unfold displaced_nodes. generalize (ea_nodes a). clear a. intros ns. revert disp res.
  induction ns as [|p ns IH]; intros disp res; cbn [zip_with mapM_out length Nat.min].
  - split; [injection 1 as <-; split; [reflexivity|intros n p d H; discriminate]|].
    intros [H _]. now apply nil_length_inv in H as ->.
  - destruct disp as [|d disp]; cbn [zip_with mapM_out length].
    + split; [injection 1 as <-; split; [reflexivity|intros n q d _ H; discriminate]|].
      intros [H _]. now apply nil_length_inv in H as ->.
    + cbn [fst snd].
      destruct (Nat.eqb_spec (p_n p) (p_n d)) as [E|E].
      * assert (Ha : pt_add p (pt_scale d k) = Ret (Pt (p_n p) (p_x p + p_x d * k) (p_y p + p_y d * k) (p_z p + p_z d * k))).
        { unfold pt_add. cbn [p_n pt_scale p_x p_y p_z]. now rewrite (proj2 (Nat.eqb_eq _ _) E). }
        rewrite Ha. cbn [mbind out_bind]. split.
        -- intros X. apply bind_ret_inv in X as (t & Et & X). injection X as <-. apply IH in Et as [Hl Ht].
           split; [cbn; now rewrite Hl|]. intros [|n] q c Hq Hc; cbn in Hq, Hc |- *; [injection Hq as <-; injection Hc as <-; now split|eauto].
        -- intros [Hl Ht]. destruct res as [|r res]; [discriminate|]. cbn in Hl. injection Hl as Hl.
           destruct (Ht 0%nat p d eq_refl eq_refl) as [_ [= ->]].
           rewrite (proj2 (IH disp res)); [reflexivity|]. split; [exact Hl|]. intros n q c Hq Hc. exact (Ht (S n) q c Hq Hc).
      * assert (Ha : pt_add p (pt_scale d k) = Panic).
        { unfold pt_add. cbn [p_n pt_scale]. now rewrite (proj2 (Nat.eqb_neq _ _) E). }
        rewrite Ha. split; [discriminate|]. intros [_ Ht]. destruct (Ht 0%nat p d eq_refl eq_refl) as [E' _]. contradiction.
Qed.
Lemma displaced_total (a : elas A) disp k :
  (forall n p d, ea_nodes a !! n = Some p -> disp !! n = Some d -> p_n p = p_n d) ->
  exists res, displaced_nodes a disp k = Ret res.
Proof.
  unfold displaced_nodes. generalize (ea_nodes a). clear a. intros ns. revert disp.
  induction ns as [|p ns IH]; intros disp H; [eexists; reflexivity|]. destruct disp as [|d disp]; [eexists; reflexivity|].
  cbn [zip_with mapM_out fst snd].
  destruct (IH disp) as [l El]; [intros n q c Hq Hc; exact (H (S n) q c Hq Hc)|].
  assert (Ha : exists x, pt_add p (pt_scale d k) = Ret x).
  { unfold pt_add. cbn [p_n pt_scale]. rewrite (proj2 (Nat.eqb_eq _ _) (H 0%nat p d eq_refl eq_refl)). eexists. reflexivity. }
  destruct Ha as [x Ex]. rewrite Ex. cbn [mbind out_bind]. rewrite El. eexists. reflexivity.
Qed.
End shape.

(** ** in terms of the constitutive matrix *)
Section top.
Context {A : arith}.
Local Open Scope arith_scope.

Lemma pad6_nth n (f : nat -> A) i : (i < 6)%nat -> nth i (pad6 n f) 0 = if (i <? n)%nat then f i else 0.
Proof.
  intros Hi. unfold pad6.
  rewrite nth_lookup, lookup_take by exact Hi. destruct (Nat.ltb_spec i n) as [H|H].
  - rewrite lookup_app_l by (rewrite map_length, seq_length; exact H).
    rewrite list_lookup_fmap, lookup_seq_lt by exact H. reflexivity.
  - rewrite lookup_app_r by (rewrite map_length, seq_length; exact H). rewrite map_length, seq_length.
    rewrite lookup_replicate_2 by lia. reflexivity.
Qed.
Lemma pad6_len n (f : nat -> A) : length (pad6 n f) = 6%nat.
Proof. unfold pad6. rewrite take_length, app_length, replicate_length. lia. Qed.

Lemma lin_stress_nth c (m : material A) u v p C i : build_c c m = Ret C -> (i < 6)%nat ->
  nth i (st_data (lin_stress c m u v p)) 0 =
  if (i <? vec_len c)%nat then bigsum (vec_len c) (fun l => el C i l * lin_strain u v p l) else 0.
Proof.
  intros HC Hi. unfold lin_stress. cbn [st_data]. rewrite pad6_nth by exact Hi.
  destruct (Nat.ltb_spec i (vec_len c)) as [H|H]; [|reflexivity].
  rewrite build_c_ret in HC. injection HC as <-. apply bigsum_ext. intros l Hl. now rewrite rm_lm_el.
Qed.

Lemma patch_element (FL : field_laws A) (e : element A) u v (disps : nat -> out (point A)) :
  planar e -> distinct_ids (e_ids e) -> twice_area e <> 0 ->
  (forall j, (j < 3)%nat -> disps (nth j (e_id_list e) 0%nat) = Ret (lin_disp u v (corner_pt e j))) ->
  exists C l, build_c (e_cond e) (e_mat e) = Ret C /\ e_stresses e disps = Ret l /\ length l = 3%nat /\
    forall k, (k < 3)%nat -> exists s, l !! k = Some (nth k (e_id_list e) 0%nat, s) /\
      st_type s = cond_kind (e_cond e) /\ length (st_data s) = 6%nat /\
      forall i, (i < 6)%nat -> nth i (st_data s) 0 =
        if (i <? vec_len (e_cond e))%nat
        then bigsum (vec_len (e_cond e)) (fun m => el C i m * lin_strain u v (xy (corner_pt e k)) m) else 0.
Proof.
  intros Hp Hi Ha Hd. eexists _, _. split; [apply build_c_ret|].
  split; [exact (e_stresses_lin FL e u v disps Hp Hi Ha Hd)|]. split; [reflexivity|]. intros k Hk.
  exists (lin_stress (e_cond e) (e_mat e) u v (xy (corner_pt e k))).
  split; [destruct k as [|[|[|k]]]; [reflexivity..|lia]|]. split; [reflexivity|]. split; [apply pad6_len|].
  intros i Hi'. apply lin_stress_nth; [apply build_c_ret|exact Hi'].
Qed.

Lemma patch_mesh (OL : ord_laws A) (a : elas A) u v : ea_built a ->
  (forall e, e ∈ ea_elems a -> twice_area e <> 0) ->
  exists C res, build_c (ea_cond a) (ea_mat a) = Ret C /\
    ea_stresses a (map (lin_disp u v) (ea_nodes a)) = Ret res /\ length res = node_count a /\
    forall n p, ea_nodes a !! n = Some p ->
      (touches a n -> exists s, res !! n = Some (Some s) /\ st_type s = cond_kind (ea_cond a) /\ length (st_data s) = 6%nat /\
        forall i, (i < 6)%nat -> nth i (st_data s) 0 =
          if (i <? vec_len (ea_cond a))%nat
          then bigsum (vec_len (ea_cond a)) (fun m => el C i m * lin_strain u v (xy p) m) else 0) /\
      (~ touches a n -> res !! n = Some None).
Proof.
  intros Hb Hne. destruct (mesh_lin OL a u v _ Hb Hne eq_refl) as (res & E & L & H).
  eexists _, res. split; [apply build_c_ret|]. split; [exact E|]. split; [exact L|]. intros n p Hp.
  destruct (H n p Hp) as [H1 H2]. split; [|exact H2]. intros Ht. destruct (H1 Ht) as (s & Hs & Ht' & L6 & Hc).
  exists s. split; [exact Hs|]. split; [exact Ht'|]. split; [exact L6|]. intros i Hi. rewrite (Hc i Hi).
  apply lin_stress_nth; [apply build_c_ret|exact Hi].
Qed.
End top.
