(** Pictures, from the constructors to the image. *)
From Coq Require Import Reals Lra.
From Verif Require Export VisualProofs DenseProofs.
Local Close Scope R_scope.

Lemma concat_lookup {X} (C : nat) (rows : list (list X)) r c row : Forall (fun l => length l = C) rows ->
  rows !! r = Some row -> c < C -> concat rows !! (C * r + c) = row !! c.
Proof.
  intros H. revert r. induction H as [|l rows Hl H IH]; intros [|r] Hr Hc; try discriminate; cbn [concat].
  - injection Hr as ->. rewrite lookup_app_l by lia. f_equal. lia.
  - cbn in Hr. rewrite lookup_app_r by lia. rewrite <- (IH r Hr Hc). f_equal. lia.
Qed.
Section rows.
Context {A : arith}.
Lemma from_rows_ret (C : nat) (rows : list (list A)) : rows <> [] -> Forall (fun l => length l = C) rows ->
  exists m : lm A, from_rows rows = Ret m /\ lm_wf m /\ mshape m = (length rows, C) /\
    forall r c, r < length rows -> c < C -> el m r c = nth c (nth r rows []) s0.
Proof.
  intros N H. destruct rows as [|r0 rows]; [congruence|]. pose proof (proj1 (proj1 (Forall_cons _ _ _) H)) as H0.
  destruct (lm_from_flat_ret (length (r0 :: rows)) C (concat (r0 :: rows))) as (m & E & W & Sh & L).
  { clear -H. generalize dependent (r0 :: rows). clear. intros rows H. induction H as [|l rows Hl H IH]; [reflexivity|]. cbn [concat length]. rewrite app_length, Hl, IH. lia. }
  exists m. split; [|split; [exact W|]; split; [exact Sh|]].
  - unfold from_rows. rewrite (proj2 (forallb_forall _ _)).
    + cbn [assert_ mbind out_bind]. rewrite H0. exact E.
    + intros l Hl. apply Nat.eqb_eq. rewrite H0. apply elem_of_list_In in Hl. exact (proj1 (Forall_forall _ _) H _ Hl).
  - intros r c Hr Hc. destruct (lookup_lt_is_Some_2 _ _ Hr) as (row & Er). rewrite (nth_lookup_Some _ _ _ _ Er).
    symmetry. apply nth_lookup_Some. rewrite <- (concat_lookup C _ r c row H Er Hc). symmetry. now apply L.
Qed.
End rows.

Local Open Scope R_scope.
(** what a point is drawn as *)
Definition flat_pt (d : nat) (p : point R_arith) : R * R :=
  match d with
  | 1 => (p_x p, 0)
  | 2 => (p_x p, p_y p)
  | _ => let sx := sin (79 / 100) in let cx := cos (79 / 100) in let sy := sin (5 / 10) in let cy := cos (5 / 10) in
         (cy * p_x p + sy * p_z p, sx * sy * p_x p + cx * p_y p - sx * cy * p_z p)
  end.
Lemma rotation_R x y : exists m : lm R_arith, Visual.rotation_matrix (A := R_arith) x y = Ret m /\ lm_wf m /\ mshape m = (3, 3)%nat /\
  forall i j, (i < 3)%nat -> (j < 3)%nat -> el m i j =
    nth j (nth i [[cos y; 0; sin y]; [sin x * sin y; cos x; - (sin x * cos y)]; [- (cos x * sin y); sin x; cos x * cos y]] []) 0.
Proof.
  unfold Visual.rotation_matrix.
  destruct (from_rows_ret (A := R_arith) 3 [[1; 0; 0]; [0; cos x; - sin x]; [0; sin x; cos x]]) as (a & Ea & Wa & Sa & La); [discriminate|repeat constructor|].
  destruct (from_rows_ret (A := R_arith) 3 [[cos y; 0; sin y]; [0; 1; 0]; [- sin y; 0; cos y]]) as (b & Eb & Wb & Sb & Lb); [discriminate|repeat constructor|].
  cbn [scos ssin sneg s0 s1 R_arith] in *. change (carrier R_arith) with R in *. rewrite Ea. cbn [mbind out_bind]. rewrite Eb. cbn [mbind out_bind].
  destruct (mmul_spec (A := R_arith) _ _ (lm_laws (A := R_arith)) _ _ (lm_laws (A := R_arith)) a b Wa Wb) as [K _].
  rewrite Sa, Sb in K. destruct (K eq_refl) as (m & E & Wm & Sm & Lm). exists m. split; [exact E|]. split; [exact Wm|]. split; [exact Sm|].
  intros i j Hi Hj. cbn [fst snd] in Lm. rewrite Lm by (cbn; lia). cbn [bigsum]. rewrite !La, !Lb by (cbn; lia).
  do 3 (destruct i as [|i]; [do 3 (destruct j as [|j]; [cbn [nth sadd smul s0 R_arith]; req; ring|]); lia|]). lia.
Qed.
Lemma project3_R (ps : list (point R_arith)) : ps <> [] -> Forall (fun p => p_n p = 3%nat) ps ->
  project3 ps = Ret (map (flat_pt 3) ps).
Proof.
  intros N H. unfold project3. destruct (rotation_R (@slit R_arith 79 100) (@slit R_arith 5 10)) as (m & E & Wm & Sm & Lm). rewrite E. cbn [mbind out_bind].
  assert (F : exists q : lm R_arith, from_points_row ps = Ret q /\ lm_wf q /\ mshape q = (length ps, 3)%nat /\
     forall i p, ps !! i = Some p -> el q i 0 = p_x p /\ el q i 1 = p_y p /\ el q i 2 = p_z p).
  { destruct (from_rows_ret (A := R_arith) 3 (map (fun p : point R_arith => [p_x p; p_y p; p_z p]) ps)) as (q & Eq & Wq & Sq & Lq).
    { destruct ps; [congruence|discriminate]. } { apply Forall_forall. intros l Hl. apply elem_of_list_fmap in Hl as (p & -> & _). reflexivity. }
    exists q. split.
    - unfold from_points_row. destruct ps as [|p0 ps']; [congruence|]. rewrite (mapM_out_Ret _ (fun p : point R_arith => [p_x p; p_y p; p_z p])).
      + cbn [mbind out_bind]. exact Eq.
      + intros p Hp. pose proof (proj1 (Forall_forall _ _) H _ Hp) as Hn. pose proof (proj1 (proj1 (Forall_cons _ _ _) H)) as H0. rewrite Hn, H0. cbn [Nat.eqb negb].
        unfold pt_into_vec. rewrite Hn. unfold pt_idx. rewrite Hn. reflexivity.
    - split; [exact Wq|]. rewrite map_length in Sq. split; [exact Sq|]. intros i p Hi.
      assert (Hr : nth i (map (fun p : point R_arith => [p_x p; p_y p; p_z p]) ps) [] = [p_x p; p_y p; p_z p]).
      { apply nth_lookup_Some. change (map ?f ps) with (f <$> ps). rewrite list_lookup_fmap, Hi. reflexivity. }
      pose proof (lookup_lt_Some _ _ _ Hi). rewrite !Lq, Hr by (rewrite ?map_length; lia). auto. }
  destruct F as (q & Eq & Wq & Sq & Lq). rewrite Eq. cbn [mbind out_bind].
  assert (St : mshape (lm_transpose q) = (3, length ps)%nat) by (cbn in *; congruence). rewrite St. cbn [fst Nat.eqb negb].
  destruct (mmul_spec (A := R_arith) _ _ (lm_laws (A := R_arith)) _ _ (lm_laws (A := R_arith)) m (lm_transpose q) Wm (lm_transpose_wf q Wq)) as [K _].
  rewrite Sm, St in K. destruct (K eq_refl) as (t & Et & Wt & Stt & Lt). rewrite Et. cbn [mbind out_bind]. cbn [fst snd] in Stt, Lt.
  rewrite !(row_ret _ _ (lm_laws (A := R_arith))) by (auto; rewrite Stt; cbn; lia). rewrite Stt. cbn [mbind out_bind snd]. f_equal.
  apply list_eq. intros i. change (map (flat_pt 3) ps) with (flat_pt 3 <$> ps). rewrite list_lookup_fmap, lookup_zip_with. cbn [snd].
  change (map ?f (seq 0 (length ps))) with (f <$> seq 0 (length ps)). rewrite !list_lookup_fmap.
  destruct (ps !! i) as [p|] eqn:Hi.
  - pose proof (lookup_lt_Some _ _ _ Hi) as Hlt. rewrite lookup_seq_lt by exact Hlt. cbn [fmap option_fmap option_map mbind option_bind]. f_equal.
    destruct (Lq i p Hi) as (Q1 & Q2 & Q3). cbn [Nat.add]. rewrite !Lt by lia. cbn [bigsum]. rewrite !Lm, !lm_transpose_el, Q1, Q2, Q3 by lia.
    unfold slit. rewrite !sz_R. cbn [nth flat_pt sadd smul sdiv s0 R_arith]. f_equal; req; ring.
  - pose proof (lookup_ge_None_1 _ _ Hi). rewrite lookup_seq_ge by assumption. reflexivity.
Qed.
Lemma vis_project_R (v : visual R_arith) : vz_points v <> [] -> Forall (fun p => p_n p = vz_dim v) (vz_points v) ->
  (vz_dim v = 1 \/ vz_dim v = 2 \/ vz_dim v = 3)%nat -> vis_project v = Ret (map (flat_pt (vz_dim v)) (vz_points v)).
Proof.
  intros N H D. unfold vis_project. destruct D as [D|[D|D]]; rewrite D in *.
  - apply mapM_out_Ret. intros p Hp. pose proof (proj1 (Forall_forall _ _) H _ Hp) as Hn. cbv beta in Hn. unfold pt_idx. rewrite Hn. reflexivity.
  - apply mapM_out_Ret. intros p Hp. pose proof (proj1 (Forall_forall _ _) H _ Hp) as Hn. cbv beta in Hn. unfold pt_idx. rewrite Hn. reflexivity.
  - now apply project3_R.
Qed.
(** the drawn plane is a plane of a rotated space: distances are never stretched, and the
    missing depth accounts for the difference *)
Definition depth (p : point R_arith) : R :=
  let sx := sin (79 / 100) in let cx := cos (79 / 100) in let sy := sin (5 / 10) in let cy := cos (5 / 10) in
  - (cx * sy) * p_x p + sx * p_y p + cx * cy * p_z p.
Lemma flat_rigid (p q : point R_arith) :
  Rsqr (fst (flat_pt 3 p) - fst (flat_pt 3 q)) + Rsqr (snd (flat_pt 3 p) - snd (flat_pt 3 q)) + Rsqr (depth p - depth q) =
  Rsqr (p_x p - p_x q) + Rsqr (p_y p - p_y q) + Rsqr (p_z p - p_z q).
Proof.
  unfold flat_pt, depth. cbn [fst snd].
  pose proof (sin2_cos2 (79 / 100)) as Hx. pose proof (sin2_cos2 (5 / 10)) as Hy. unfold Rsqr in *.
  set (sx := sin (79 / 100)) in *. set (cx := cos (79 / 100)) in *. set (sy := sin (5 / 10)) in *. set (cy := cos (5 / 10)) in *.
  assert (Ex : sx * sx = 1 - cx * cx) by lra. assert (Ey : sy * sy = 1 - cy * cy) by lra.
  destruct p as [pn px py pz], q as [qn qx qy qz]. cbn [p_x p_y p_z]. change (carrier R_arith) with R in *.
  ring_simplify. replace (sx ^ 2) with (1 - cx * cx) by (rewrite <- Ex; ring). replace (sy ^ 2) with (1 - cy * cy) by (rewrite <- Ey; ring). ring.
Qed.

(** pictures obtainable through the public interface *)
Inductive made {A : arith} : visual A -> Prop :=
| made_new pts v : vis_new pts = Ret v -> made v
| made_add v pts c v' : made v -> Forall (fun p => p_n p = vz_dim v) pts -> (c < 4)%nat -> add_points v pts c = Ret v' -> made v'
| made_vals v vals v' : made v -> set_vals v vals = Ret v' -> made v'
| made_edges v es : made v -> made (set_edges v es)
| made_tris v ts : made v -> Forall (tri_ok (length (vz_points v))) ts -> made (set_triangles v ts).
Lemma made_inv {A : arith} (v : visual A) : made v ->
  drawable v /\ vz_points v <> [] /\ Forall (fun p => p_n p = vz_dim v) (vz_points v) /\ length (vz_colors v) = length (vz_points v).
Proof.
  induction 1 as [pts v E|v pts c v' H IH Hd Hc E|v vals v' H IH E|v es H IH|v ts H IH Ht].
  - unfold vis_new in E. apply bind_ret_inv in E as (p & Ep & E). destruct (existsb _ pts) eqn:Ex; [discriminate|]. injection E as <-. cbn [vz_points vz_dim vz_colors].
    split; [|split; [|split]].
    + split; cbn [vz_colors vz_tris vz_vals]; try discriminate. apply Forall_replicate. lia.
    + intros ->. discriminate.
    + apply Forall_forall. intros q Hq. destruct (Nat.eqb_spec (p_n q) (p_n p)) as [K|K]; [exact K|]. exfalso.
      apply not_true_iff_false in Ex. apply Ex, existsb_exists. exists q. split; [now apply elem_of_list_In|]. apply Nat.eqb_neq in K. now rewrite K.
    + apply replicate_length.
  - unfold add_points in E. destruct (vz_vals v) eqn:Ev; [discriminate|]. injection E as <-. cbn [vz_points vz_dim vz_colors].
    destruct IH as ([D1 D2 D3] & N & F & L). split; [|split; [|split]].
    + split; cbn [vz_colors vz_tris vz_vals vz_points].
      * apply Forall_app. split; [exact D1|apply Forall_replicate; exact Hc].
      * intros ts Hts. eapply Forall_impl; [exact (D2 ts Hts)|]. intros t (T1 & T2 & T3). rewrite app_length. unfold tri_ok. lia.
      * intros vals K. congruence.
    + destruct (vz_points v); [congruence|discriminate].
    + now apply Forall_app.
    + rewrite !app_length, replicate_length. lia.
  - destruct IH as ([D1 D2 D3] & N & F & L). unfold set_vals in E. destruct (negb _) eqn:El; [discriminate|]. apply negb_false_iff, Nat.eqb_eq in El.
    apply bind_ret_inv in E as (lo & _ & E). apply bind_ret_inv in E as (hi & _ & E). injection E as <-. cbn [vz_points vz_dim vz_colors].
    split; [|auto]. split; cbn; auto. intros vals' K. injection K as <-. now rewrite map_length.
  - destruct IH as ([D1 D2 D3] & N & F & L). split; [|auto]. split; auto.
  - destruct IH as ([D1 D2 D3] & N & F & L). split; [|auto]. split; auto. intros ts' K. cbn in K. cbn [vz_points set_triangles]. destruct ts; [discriminate|]. injection K as <-. exact Ht.
Qed.

Lemma picture_R (v : visual R_arith) size cm show p q :
  made v -> (vz_dim v = 1 \/ vz_dim v = 2 \/ vz_dim v = 3)%nat -> (25 <= size <= 2 ^ 31)%Z ->
  p ∈ vz_points v -> q ∈ vz_points v -> flat_pt (vz_dim v) p <> flat_pt (vz_dim v) q ->
  exists px s mx my,
    placed size (map (flat_pt (vz_dim v)) (vz_points v)) px s mx my /\
    draw R_raster size cm show v = Ret (all_px (default (hot_map R_raster) cm) show v px) /\
    Forall (fun pc => inside size pc.1) (all_px (default (hot_map R_raster) cm) show v px).
Proof.
  intros M D Hs Hp Hq Hpq. destruct (made_inv v M) as (Dr & N & F & L).
  pose proof (vis_project_R v N F D) as Ep.
  destruct (enpixel_R size (map (flat_pt (vz_dim v)) (vz_points v)) (flat_pt (vz_dim v) p) (flat_pt (vz_dim v) q)) as (px & s & mx & my & E & P).
  { lia. } { apply elem_of_list_fmap; eauto. } { apply elem_of_list_fmap; eauto. } { exact Hpq. }
  exists px, s, mx, my. split; [exact P|]. apply (draw_spec R_raster size cm show v _ px ltac:(lia) Dr Ep E).
  - rewrite (pl_len _ _ _ _ _ _ P). apply map_length.
  - apply (placed_margin size _ _ _ _ _ ltac:(lia) P).
Qed.

(** *** fills: the pixels of a triangle and their values *)
Lemma pix_cross (p q r : pix) : cross (A := R_arith) (pix_pt p) (pix_pt q) (pix_pt r) = IZR ((q.1 - p.1) * (r.2 - p.2) - (r.1 - p.1) * (q.2 - p.2)).
Proof.
  unfold cross, pix_pt, pt2. cbn [p_x p_y]. rewrite !sz_R. rewrite minus_IZR, !mult_IZR, !minus_IZR. cbn [ssub smul R_arith]. req. ring.
Qed.

(** a convex combination of the corners hits the pixel and blends the values *)
Definition blended (p q r z : pix) (v : R * R * R) (x : R) : Prop :=
  exists a b c, 0 <= a /\ 0 <= b /\ 0 <= c /\ a + b + c = 1 /\
    a * IZR p.1 + b * IZR q.1 + c * IZR r.1 = IZR z.1 /\ a * IZR p.2 + b * IZR q.2 + c * IZR r.2 = IZR z.2 /\
    x = a * fst (fst v) + b * snd (fst v) + c * snd v.
Lemma conv_box a b c x y w z : 0 <= a -> 0 <= b -> 0 <= c -> a + b + c = 1 -> a * IZR x + b * IZR y + c * IZR w = IZR z ->
  (Z.min (Z.min x y) w <= z <= Z.max (Z.max x y) w)%Z.
Proof.
  intros Ha Hb Hc Hs E. set (lo := Z.min (Z.min x y) w). set (hi := Z.max (Z.max x y) w).
  assert (IZR lo <= IZR x /\ IZR lo <= IZR y /\ IZR lo <= IZR w) as (L1 & L2 & L3) by (repeat split; apply IZR_le; lia).
  assert (IZR x <= IZR hi /\ IZR y <= IZR hi /\ IZR w <= IZR hi) as (H1 & H2 & H3) by (repeat split; apply IZR_le; lia).
  apply (Rmult_le_compat_l a) in L1, H1; try assumption. apply (Rmult_le_compat_l b) in L2, H2; try assumption. apply (Rmult_le_compat_l c) in L3, H3; try assumption.
  assert (El : IZR lo = a * IZR lo + b * IZR lo + c * IZR lo) by (rewrite <- !Rmult_plus_distr_r, Hs; ring).
  assert (Eh : IZR hi = a * IZR hi + b * IZR hi + c * IZR hi) by (rewrite <- !Rmult_plus_distr_r, Hs; ring).
  split; apply le_IZR; lra.
Qed.
Lemma les_R x y : les (A := R_arith) x y <-> x <= y.
Proof. exact (ltb_R_false y x). Qed.
Lemma fill_R (p q r : pix) (v : R * R * R) : ((q.1 - p.1) * (r.2 - p.2) - (r.1 - p.1) * (q.2 - p.2) <> 0)%Z ->
  exists l, triangle_interp (A := R_arith) (p, q, r) v = Ret l /\ (forall z x, (z, x) ∈ l <-> blended p q r z v x) /\ NoDup (map fst l).
Proof.
  intros Hc. eexists. split; [apply fill_spec|].
  assert (Hx : cross (A := R_arith) (pix_pt p) (pix_pt q) (pix_pt r) <> 0) by (rewrite pix_cross; now apply not_0_IZR).
  assert (W : forall z, exists a b c, weights (A := R_arith) p q r z = (a, b, c) /\ a + b + c = 1 /\
     a * IZR p.1 + b * IZR q.1 + c * IZR r.1 = IZR z.1 /\ a * IZR p.2 + b * IZR q.2 + c * IZR r.2 = IZR z.2).
  { intros z. destruct (bary_ret R_ord_laws (pix_pt z) (pix_pt p) (pix_pt q) (pix_pt r) eq_refl eq_refl eq_refl eq_refl Hx) as (a & b & c & E & K1 & K2 & K3).
    exists a, b, c. unfold weights. rewrite E. split; [reflexivity|]. cbn [pix_pt pt2 p_x p_y] in K2, K3. rewrite !sz_R in K2, K3. auto. }
  assert (U : forall z a b c a' b' c', a + b + c = 1 -> a * IZR p.1 + b * IZR q.1 + c * IZR r.1 = IZR z.1 -> a * IZR p.2 + b * IZR q.2 + c * IZR r.2 = IZR z.2 ->
     a' + b' + c' = 1 -> a' * IZR p.1 + b' * IZR q.1 + c' * IZR r.1 = IZR z.1 -> a' * IZR p.2 + b' * IZR q.2 + c' * IZR r.2 = IZR z.2 -> a = a' /\ b = b' /\ c = c').
  { intros z a b c a' b' c' S1 X1 Y1 S2 X2 Y2.
    apply (bary_unique R_ord_laws (pix_pt z) (pix_pt p) (pix_pt q) (pix_pt r) a b c a' b' c' Hx); cbn [pix_pt pt2 p_x p_y]; rewrite ?sz_R; assumption. }
  assert (C : forall z, covered (A := R_arith) p q r z = true <-> 0 <= fst (fst (weights (A := R_arith) p q r z)) <= 1 /\ 0 <= snd (fst (weights (A := R_arith) p q r z)) <= 1 /\ 0 <= snd (weights (A := R_arith) p q r z) <= 1).
  { intros z. unfold covered, in_unit. rewrite !andb_true_iff, !(sleb_les R_ord_laws), !les_R. cbn [s0 s1 R_arith]. tauto. }
  split.
  - intros z x. rewrite elem_of_list_In, in_map_iff. setoid_rewrite filter_In. setoid_rewrite C. split.
    + intros (z' & K & Hz & Hb). apply (f_equal fst) in K as K1. apply (f_equal snd) in K as K2. cbn [fst snd] in K1, K2. subst z'. subst x.
      destruct (W z) as (a & b & c & Ew & Hs & E1 & E2). rewrite Ew in *. cbn [fst snd] in Hb. exists a, b, c. repeat split; try tauto.
    + intros (a & b & c & Ha & Hb & Hcc & Hs & E1 & E2 & ->). exists z. destruct (W z) as (a' & b' & c' & Ew & Hs' & E1' & E2').
      destruct (U z a b c a' b' c' Hs E1 E2 Hs' E1' E2') as (<- & <- & <-). rewrite Ew. split; [reflexivity|]. cbn [fst snd]. split; [|lra].
      apply elem_of_list_In, tri_box_in. split; [apply (conv_box a b c)|apply (conv_box a b c)]; assumption.
  - rewrite map_map. cbn [fst]. rewrite map_id. apply NoDup_ListNoDup, List.NoDup_filter, NoDup_ListNoDup. unfold tri_box.
    assert (ZN : forall a b, NoDup (zrange a b)) by (intros a b; unfold zrange; apply NoDup_fmap_2; [intros i j; lia|apply NoDup_seq]).
    set (ys := zrange _ _). generalize (ZN (Z.min (Z.min p.1 q.1) r.1) (Z.max (Z.max p.1 q.1) r.1)). generalize (zrange (Z.min (Z.min p.1 q.1) r.1) (Z.max (Z.max p.1 q.1) r.1)).
    induction l as [|x xs IH]; intros Hn; cbn [map concat]; [constructor|]. apply NoDup_cons in Hn as [Hx' Hn]. apply NoDup_app. split; [|split; [|now apply IH]].
    + apply (NoDup_fmap_2 (fun y => (x, y))); apply ZN.
    + intros z Hz K. apply elem_of_list_fmap in Hz as (y & -> & _). apply elem_of_list_In, in_concat in K as (m & Hm & K). apply in_map_iff in Hm as (x' & <- & Hm). apply in_map_iff in K as (y' & [= -> _] & _).
      apply Hx'. now apply elem_of_list_In.
Qed.
Lemma blended_range p q r z v x lo hi : blended p q r z v x -> lo <= fst (fst v) <= hi -> lo <= snd (fst v) <= hi -> lo <= snd v <= hi -> lo <= x <= hi.
Proof.
  intros (a & b & c & Ha & Hb & Hc & Hs & _ & _ & ->) [L1 H1] [L2 H2] [L3 H3].
  apply (Rmult_le_compat_l a) in L1, H1; try assumption. apply (Rmult_le_compat_l b) in L2, H2; try assumption. apply (Rmult_le_compat_l c) in L3, H3; try assumption.
  assert (El : lo = a * lo + b * lo + c * lo) by (rewrite <- !Rmult_plus_distr_r, Hs; ring).
  assert (Eh : hi = a * hi + b * hi + c * hi) by (rewrite <- !Rmult_plus_distr_r, Hs; ring). lra.
Qed.
