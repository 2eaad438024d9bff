(** Segment quadrature, edge loads, mass totals, element acceptance. *)
From Verif Require Export ElemPsd CholProofs.

(** ** the segment rule as a weighted sum *)
Section seg.
Context {A : arith}.
Local Open Scope arith_scope.

Definition seg_x (a b : point A) (t : A) : A := (p_x a + p_x b) / s2 + p_x b * t * (1 / s2) - p_x a * t * (1 / s2).
Definition seg_y (a b : point A) (t : A) : A := (p_y a + p_y b) / s2 + p_y b * t * (1 / s2) - p_y a * t * (1 / s2).
Definition seg_z (a b : point A) (t : A) : A := (p_z a + p_z b) / s2 + p_z b * t * (1 / s2) - p_z a * t * (1 / s2).
Lemma seg_point_ret (a b : point A) t : p_n a = 2%nat -> p_n b = 2%nat ->
  seg_point a b t = Ret (Pt 2 (seg_x a b t) (seg_y a b t) (seg_z a b t)).
Proof. destruct a, b. cbn. intros -> ->. reflexivity. Qed.
Lemma pt_dist_ret (a b : point A) : p_n a = 2%nat -> p_n b = 2%nat ->
  pt_dist a b = Ret (ssqrt (ssq (p_x a - p_x b) + ssq (p_y a - p_y b) + ssq (p_z a - p_z b))).
Proof. destruct a, b. cbn. intros -> ->. reflexivity. Qed.

Definition seg_sum (tab : list (A * A)) (g : A -> A) : A :=
  match tab with
  | [] => 0
  | (p0, w0) :: rest => fold_left (fun s pw => s + g pw.1 * pw.2) rest (g p0 * w0)
  end.

Lemma gauss_segment_ret (f : point A -> out (lm A)) (g : A -> nat -> nat -> A) a b order tab d R C :
  p_n a = 2%nat -> p_n b = 2%nat -> pt_dist a b = Ret d ->
  gauss_table order = Ret tab -> tab <> [] ->
  (forall t, exists m, f (Pt 2 (seg_x a b t) (seg_y a b t) (seg_z a b t)) = Ret m /\ lm_wf m /\ mshape m = (R, C) /\
     forall i j, (i < R)%nat -> (j < C)%nat -> el m i j = g t i j) ->
  exists m, gauss_segment_mat f a b order = Ret m /\ lm_wf m /\ mshape m = (R, C) /\
    forall i j, (i < R)%nat -> (j < C)%nat -> el m i j = seg_sum tab (fun t => g t i j) * (d / s2).
Proof.
  intros Ha Hb Hd Ht Hne Hf. unfold gauss_segment_mat. rewrite Hd, Ht. cbn [mbind out_bind].
  destruct tab as [|[p0 w0] rest]; [congruence|].
  rewrite seg_point_ret by assumption. cbn [mbind out_bind].
  destruct (Hf p0) as (m0 & E0 & W0 & S0 & V0). rewrite E0. cbn [mbind out_bind].
  assert (G : forall rest s (v : nat -> nat -> A), lm_wf s -> mshape s = (R, C) ->
     (forall i j, (i < R)%nat -> (j < C)%nat -> el s i j = v i j) ->
     exists m, foldM (fun pw s => q ← seg_point a b pw.1; t ← f q; add_ass s (lm_scale t pw.2)) rest s = Ret m /\
       lm_wf m /\ mshape m = (R, C) /\ forall i j, (i < R)%nat -> (j < C)%nat ->
         el m i j = fold_left (fun s pw => s + g pw.1 i j * pw.2) rest (v i j)).
  { clear rest Ht Hne. induction rest as [|[p w] rest IH]; intros s v Ws Ss Vs; cbn [foldM].
    - exists s. auto.
    - cbn [fst snd]. rewrite seg_point_ret by assumption. cbn [mbind out_bind].
      destruct (Hf p) as (m1 & E1 & W1 & S1 & V1). rewrite E1. cbn [mbind out_bind].
      destruct (add_ass_ret lm_wf _ lm_laws s (lm_scale m1 w) Ws (lm_scale_wf _ _ W1)) as (m2 & E2 & W2 & S2 & V2).
      { rewrite Ss. symmetry. exact S1. }
      { intros r c Hr Hc. unfold full_dom. now apply in_shape_true. }
      rewrite E2. cbn [mbind out_bind]. rewrite Ss in V2, S2. cbn in V2. injection S1 as S1a S1b.
      destruct (IH m2 (fun i j => v i j + g p i j * w) W2 S2) as (m & E & W & Sm & V).
      + intros i j Hi Hj. rewrite V2 by assumption. rewrite lm_scale_el by (try assumption; lia).
        now rewrite Vs, V1 by assumption.
      + exists m. rewrite E. auto. }
  destruct (G rest (lm_scale m0 w0) (fun i j => g p0 i j * w0) (lm_scale_wf _ _ W0) S0) as (m & E & W & Sm & V).
  { intros i j Hi Hj. injection S0 as S0a S0b. rewrite lm_scale_el by (try assumption; lia). now rewrite V0. }
  rewrite E. cbn [mbind out_bind]. eexists. split; [reflexivity|]. split; [now apply lm_scale_wf|].
  split; [exact Sm|]. intros i j Hi Hj. injection Sm as Sma Smb. rewrite lm_scale_el by (try assumption; lia).
  now rewrite V.
Qed.
End seg.

(** ** edge loads *)
Section edge.
Context {A : arith} (FL : field_laws A).
Add Field Afield37 : (fl_field A FL).
Local Open Scope arith_scope.
Context (two : (1 + 1 : A) <> 0).

Definition corner (k : nat) : point A :=
  match k with 0%nat => pt2 0 0 | 1%nat => pt2 1 0 | _ => pt2 0 1 end.

Lemma e_load_seg e (fx fy : A) (ka kb : nat) d : planar e -> (ka < 3)%nat -> (kb < 3)%nat -> ka <> kb ->
  pt_dist (corner ka) (corner kb) = Ret d ->
  exists m, gauss_segment_mat (fun q => m ← get_isopar_mats e q;
       mmul (lm_transpose (em_h m)) (LM 2 1 false [fx; fy])) (corner ka) (corner kb) 2 = Ret m /\
    lm_wf m /\ mshape m = (6, 1)%nat /\
    forall i, (i < 6)%nat -> el m i 0 =
      if ((i / 2 =? ka) || (i / 2 =? kb))%nat then (match (i mod 2)%nat with 0%nat => fx | _ => fy end) * d / (1 + 1) else 0.
Proof.
  intros Hp Ha Hb Hab Hd.
  set (F := fun k : nat => match k with 0%nat => fx | _ => fy end).
  destruct (gauss_segment_ret (fun q => m ← get_isopar_mats e q;
       mmul (lm_transpose (em_h m)) (LM 2 1 false [fx; fy]))
     (fun t i j => bigsum 2 (fun k => hm_c (seg_x (corner ka) (corner kb) t) (seg_y (corner ka) (corner kb) t) k i * F k))
     (corner ka) (corner kb) 2 [(slit (-577350269189626) (10 ^ 15), s1); (slit 577350269189626 (10 ^ 15), s1)] d 6 1)
    as (m & E & W & Sm & V).
  - destruct ka as [|[|[|ka]]]; reflexivity.
  - destruct kb as [|[|[|kb]]]; reflexivity.
  - exact Hd.
  - reflexivity.
  - discriminate.
  - intros t. rewrite mats_ret by exact Hp. cbn [mbind out_bind].
    set (H := hm_c (seg_x (corner ka) (corner kb) t) (seg_y (corner ka) (corner kb) t)).
    change (em_h (mats_c e _ _)) with (LM 2 6 true (rm_list 2 6 H)).
    set (hm := LM 2 6 true (rm_list 2 6 H)). set (fm := LM 2 1 false [fx; fy]).
    assert (Wh : lm_wf hm) by apply rm_lm_wf.
    assert (Wt : lm_wf (lm_transpose hm)) by now apply lm_transpose_wf.
    assert (Wf : lm_wf fm) by reflexivity.
    destruct (mmul_spec _ _ lm_laws _ _ lm_laws (lm_transpose hm) fm Wt Wf) as [H1 _].
    destruct (H1 eq_refl) as (m & E1 & W1 & S1 & V1).
    exists m. rewrite E1. split; [reflexivity|]. split; [exact W1|]. split; [exact S1|].
    intros i j Hi Hj. rewrite V1 by assumption. apply bigsum_ext. intros l Hl.
    change (l < 2)%nat in Hl. rewrite lm_transpose_el. unfold hm. rewrite rm_lm_el by assumption. f_equal.
    destruct j as [|j]; [|lia]. destruct l as [|[|l]]; [reflexivity|reflexivity|lia].
  - exists m. split; [exact E|]. split; [exact W|]. split; [exact Sm|]. intros i Hi. rewrite V by (assumption || lia).
    unfold seg_sum. cbn [fold_left fst snd].
    assert (Hn : slit (-577350269189626) (10 ^ 15) = - slit 577350269189626 (10 ^ 15) :> A).
    { unfold slit. change (sz (-577350269189626)) with (- sz 577350269189626 : A). rewrite !(div_def FL). ring. }
    rewrite Hn. generalize (slit (A := A) 577350269189626 (10 ^ 15)). intros t.
    unfold bigsum, hm_c, seg_x, seg_y, F. change s2 with (1 + 1 : A).
    clear V E W Sm Hd.
    destruct ka as [|[|[|ka]]]; [| | |lia]; (destruct kb as [|[|[|kb]]]; [| | |lia]); try congruence;
      (do 6 (destruct i as [|i]; [cbv [corner pt2 p_x p_y Nat.div Nat.divmod Nat.modulo fst snd Nat.sub Nat.eqb orb h_c]; field; exact two|]);
       lia).
Qed.

(** the position of a node in the element *)
Definition e_ids_nodup (e : element A) : Prop := NoDup (e_id_list e).

Lemma node_at e n : e_ids_nodup e -> n ∈ e_id_list e ->
  exists k, (k < 3)%nat /\ nth k (e_id_list e) 0%nat = n /\ node_natural e n = Some (corner k) /\
    e_node e n = e_pt_list e !! k.
Proof.
  destruct e as [[[x y] z] pts mat c]. unfold e_ids_nodup, e_id_list, node_natural, e_node, e_pt_list. cbn [e_ids e_pts fst snd].
  intros Hn Hin. apply NoDup_cons in Hn as [H1 Hn]. apply NoDup_cons in Hn as [H2 _].
  rewrite elem_of_list_In in H1, H2, Hin. cbn [In] in H1, H2, Hin.
  destruct Hin as [<-|[<-|[<-|[]]]]; [exists 0%nat|exists 1%nat|exists 2%nat];
    (split; [lia|]); (split; [reflexivity|]);
    repeat match goal with |- context [(?a =? ?b)%nat] => destruct (Nat.eqb_spec a b); [try (exfalso; intuition congruence)|try congruence] end;
    split; reflexivity.
Qed.

Lemma connect_iff e a b : e_ids_nodup e -> nodes_connect e a b = true <-> a ∈ e_id_list e /\ b ∈ e_id_list e /\ a <> b.
Proof.
  destruct e as [[[x y] z] pts mat c]. unfold e_ids_nodup, e_id_list, nodes_connect. cbn [e_ids fst snd existsb].
  intros Hn. apply NoDup_cons in Hn as [H1 Hn]. apply NoDup_cons in Hn as [H2 _].
  rewrite !elem_of_list_In in *. cbn [In] in *.
  rewrite !orb_true_iff, !andb_true_iff, !Nat.eqb_eq. 
  split.
  - intros [[-> ->]|[[-> ->]|[[-> ->]|[[-> ->]|[[-> ->]|[[-> ->]|H]]]]]]; [..|discriminate];
      (split; [tauto|]; split; [tauto|]; intros E; subst; tauto).
  - intros ([<-|[<-|[<-|[]]]] & [<-|[<-|[<-|[]]]] & Hab); tauto.
Qed.

Lemma int_f_l_ret e a b (f : point A) : planar e -> e_ids_nodup e -> p_n f = 2%nat ->
  a ∈ e_id_list e -> b ∈ e_id_list e -> a <> b ->
  ssqrt 1 <> 0 :> A -> ssqrt (1 + 1) <> 0 :> A ->
  exists pa pb l, e_node e a = Some pa /\ e_node e b = Some pb /\ int_f_l e (a, b) f = Ret (Some l) /\
    map fst l = map (e_dof e) (seq 0 6) /\
    forall n d v, ((n, d), v) ∈ l ->
      v = if ((n =? a) || (n =? b))%nat
          then (match d with 0%nat => p_x f | _ => p_y f end) *
               ssqrt (ssq (p_x pa - p_x pb) + ssq (p_y pa - p_y pb) + ssq (p_z pa - p_z pb)) / (1 + 1)
          else 0.
Proof.
  intros Hp Hn Hf Ha Hb Hab Q1 Q2.
  destruct (node_at e a Hn Ha) as (ka & Hka & Na & Ca & Pa).
  destruct (node_at e b Hn Hb) as (kb & Hkb & Nb & Cb & Pb).
  assert (Hk : ka <> kb) by congruence.
  assert (Hpa : exists pa, e_node e a = Some pa /\ p_n pa = 2%nat).
  { rewrite Pa. unfold e_pt_list. destruct Hp as (? & ? & ?). destruct ka as [|[|[|ka]]]; [| | |lia]; eauto. }
  assert (Hpb : exists pb, e_node e b = Some pb /\ p_n pb = 2%nat).
  { rewrite Pb. unfold e_pt_list. destruct Hp as (? & ? & ?). destruct kb as [|[|[|kb]]]; [| | |lia]; eauto. }
  destruct Hpa as (pa & Epa & Npa). destruct Hpb as (pb & Epb & Npb).
  assert (Hd : exists d, pt_dist (corner ka) (corner kb) = Ret d /\ d <> 0).
  { destruct ka as [|[|[|ka]]]; [| | |lia]; (destruct kb as [|[|[|kb]]]; [| | |lia]); try congruence;
      (eexists; split; [reflexivity|]); cbn; unfold pt_norm, ssq; cbn; intros Z;
      first [apply Q1; etransitivity; [|exact Z]; f_equal; ring | apply Q2; etransitivity; [|exact Z]; f_equal; ring]. }
  destruct Hd as (d & Ed & Hd).
  destruct f as [nf fx fy fz]. cbn in Hf. subst nf.
  destruct (e_load_seg e fx fy ka kb d Hp Hka Hkb Hk Ed) as (m & E & W & Sm & V).
  exists pa, pb. unfold int_f_l. cbn [fst snd p_n].
  rewrite (proj2 (connect_iff e a b Hn)) by tauto. cbn [negb].
  rewrite Ca, Cb, Epa, Epb.
  set (L := ssqrt (ssq (p_x pa - p_x pb) + ssq (p_y pa - p_y pb) + ssq (p_z pa - p_z pb))).
  assert (EL : pt_dist pa pb = Ret L) by now apply pt_dist_ret.
  set (res := lm_scale m (L / d)).
  assert (Wr : lm_wf res) by now apply lm_scale_wf.
  assert (Fl : flat res = Ret (rm_list 6 1 (el res))).
  { rewrite (flat_ret _ _ lm_laws res Wr). injection Sm as Sa Sb. cbn. now rewrite Sa, Sb. }
  exists (map (fun i => (e_dof e i, el res i 0)) (seq 0 6)).
  split; [reflexivity|]. split; [reflexivity|]. split; [|split].
  - change (pt_to_vec (Pt 2 fx fy fz)) with (Ret [fx; fy]).
    change (assert_ (2 =? 2)%nat) with (Ret tt). cbn [mbind out_bind unwrap].
    change (col_vec (M := lm A) [fx; fy]) with (Ret (LM 2 1 false [fx; fy])). cbn [mbind out_bind unwrap].
    rewrite E, Ed. cbn [mbind out_bind]. rewrite EL. cbn [mbind out_bind]. fold res. rewrite Fl. cbn [mbind out_bind].
    reflexivity.
  - now rewrite map_map.
  - intros n k v Hin. apply elem_of_list_In, in_map_iff in Hin as (i & Ei & Hi). apply in_seq in Hi.
    injection Ei as En Ek Ev. injection Sm as Sa Sb. 
    unfold res in Ev. rewrite lm_scale_el in Ev by (try exact W; lia). rewrite V in Ev by lia.
    assert (Hn3 : (i / 2 < 3)%nat) by (apply Nat.div_lt_upper_bound; lia).
    assert (Q : forall j t, (j < 3)%nat -> nth j (e_id_list e) 0%nat = t -> (n =? t)%nat = (i / 2 =? j)%nat).
    { intros j t Hj Ht. rewrite <- En, <- Ht. destruct (Nat.eqb_spec (i / 2) j) as [->|Hne]; [apply Nat.eqb_refl|].
      apply Nat.eqb_neq. intros Heq. apply Hne. apply (NoDup_nth (e_id_list e) 0%nat); [|exact Hn3|exact Hj|exact Heq].
      now apply NoDup_ListNoDup. }
    rewrite (Q ka a Hka Na), (Q kb b Hkb Nb). rewrite <- Ev, <- Ek. destruct ((i / 2 =? ka) || (i / 2 =? kb))%nat.
    + fold L. cbn [p_x p_y]. generalize (match (i mod 2)%nat with 0%nat => fx | _ => fy end). intros F. field. auto.
    + ring.
Qed.
End edge.
