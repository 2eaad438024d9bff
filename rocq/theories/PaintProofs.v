(** What a pixel of a finished picture shows, and what the colour maps tell apart. *)
From Coq Require Import Reals Lra Lia.
From Verif Require Export VisualTop.
Local Close Scope R_scope.
Local Open Scope nat_scope.

(** ** the image after a sequence of writes *)
(** BACK, color.rs:10 *)
Definition back_color : rgb := (50, 50, 50)%Z.
(** RgbImage::from_pixel and put_pixel of the image crate, visual/mod.rs:175, 187-217: the image
    as a function from pixels to colours *)
Definition paint (l : list (pix * rgb)) (f : pix -> rgb) : pix -> rgb :=
  fold_left (fun f pc z => if decide (z = pc.1) then pc.2 else f z) l f.

Lemma paint_app l1 l2 f : paint (l1 ++ l2) f = paint l2 (paint l1 f).
Proof. apply fold_left_app. Qed.
Lemma paint_skip l z : forall f, (forall c, (z, c) ∉ l) -> paint l f z = f z.
Proof.
  induction l as [|[p c] l IH]; intros f H; [reflexivity|]. change (paint ((p, c) :: l) f) with (paint l (fun z => if decide (z = p) then c else f z)).
  rewrite IH by (intros d Hd; apply (H d); now right). destruct (decide (z = p)) as [->|]; [|reflexivity]. exfalso. apply (H c). left.
Qed.
Lemma paint_same l z k : forall f, (forall c, (z, c) ∈ l -> c = k) -> (exists c, (z, c) ∈ l) \/ f z = k -> paint l f z = k.
Proof.
  induction l as [|[p c] l IH]; intros f H Hx.
  - destruct Hx as [(c & Hx)|Hx]; [now apply elem_of_nil in Hx|exact Hx].
  - change (paint ((p, c) :: l) f) with (paint l (fun z => if decide (z = p) then c else f z)). apply IH; [intros d Hd; apply H; now right|].
    destruct (decide (z = p)) as [->|Hp].
    + right. destruct (decide (p = p)); [|congruence]. apply H. left.
    + destruct Hx as [(d & Hd)|Hx].
      * apply elem_of_cons in Hd as [Hd|Hd]; [injection Hd as -> ->; contradiction|]. left. eauto.
      * right. exact Hx.
Qed.
Lemma in_concat_map {X Y} (h : X -> list Y) l (y : Y) : y ∈ concat (map h l) <-> exists i x, l !! i = Some x /\ y ∈ h x.
Proof.
  rewrite elem_of_list_In, in_concat. split.
  - intros (b & Hb & Hy). apply in_map_iff in Hb as (x & <- & Hx). apply elem_of_list_In, elem_of_list_lookup in Hx as (i & Hi). exists i, x. split; [exact Hi|now apply elem_of_list_In].
  - intros (i & x & Hi & Hy). exists (h x). split; [|now apply elem_of_list_In]. apply in_map. apply elem_of_list_In. now apply elem_of_list_lookup_2 in Hi.
Qed.
(** the last block that writes a pixel decides *)
Lemma paint_block {X} (h : X -> list (pix * rgb)) (l : list X) f z i x k : l !! i = Some x -> (forall c, (z, c) ∈ h x -> c = k) -> (exists c, (z, c) ∈ h x) ->
  (forall j y c, i < j -> l !! j = Some y -> (z, c) ∉ h y) -> paint (concat (map h l)) f z = k.
Proof.
  intros Hi Hk Hx Hl. rewrite <- (take_drop_middle l i x Hi). rewrite map_app, concat_app. cbn [map concat]. rewrite !paint_app. rewrite paint_skip.
  - apply paint_same; [exact Hk|now left].
  - intros c Hc. apply in_concat_map in Hc as (j & y & Hj & Hy). rewrite lookup_drop in Hj. apply (Hl (S i + j) y c); [lia|exact Hj|exact Hy].
Qed.

(** ** the layers of a picture *)
Section layers.
Context {A : arith}.
Definition near (z p : pix) : Prop := (Z.abs (z.1 - p.1) <= 1 /\ Z.abs (z.2 - p.2) <= 1)%Z.
Lemma dots_in size px cs z c : (size <= 2 ^ 32)%Z -> Forall (margin size) px -> (z, c) ∈ dots_px px cs -> exists p, p ∈ px /\ near z p.
Proof.
  intros Hs HM H. unfold dots_px in H. apply in_concat_map in H as (i & [p k] & Hi & H). apply elem_of_list_fmap in H as (w & E & Hw). injection E as -> ->.
  apply elem_of_list_lookup_2, elem_of_zip_l in Hi. exists p. split; [exact Hi|]. apply (dot_at_spec size p Hs (proj1 (Forall_forall _ _) HM _ Hi)). exact Hw.
Qed.
Lemma dots_layer size px cs f i w c k z : (size <= 2 ^ 32)%Z -> Forall (margin size) px -> px !! i = Some w -> cs !! i = Some c -> stdcol !! c = Some k ->
  near z w -> (forall j u, i < j -> px !! j = Some u -> ~ near z u) -> paint (dots_px px cs) f z = k.
Proof.
  intros Hs HM Hw Hc Hk Hn Hl. unfold dots_px. apply (paint_block _ _ _ _ i (w, c)).
  - apply lookup_zip_with_Some. exists w, c. auto.
  - intros d Hd. apply elem_of_list_fmap in Hd as (y & E & _). injection E as _ ->. cbn [snd]. exact (nth_lookup_Some _ _ _ _ Hk).
  - eexists. apply elem_of_list_fmap. exists z. split; [reflexivity|]. cbn [fst]. apply (dot_at_spec size w Hs); [|exact Hn]. apply (proj1 (Forall_forall _ _) HM). now apply elem_of_list_lookup_2 in Hw.
  - intros j [u d] e Hj Hu He. apply lookup_zip_with_Some in Hu as (u' & d' & E & Hu & _). injection E as <- <-. apply elem_of_list_fmap in He as (y & E & Hy). injection E as <- ->.
    apply (Hl j u Hj Hu). cbn [fst] in Hy. apply (dot_at_spec size u Hs) in Hy; [exact Hy|]. apply (proj1 (Forall_forall _ _) HM). now apply elem_of_list_lookup_2 in Hu.
Qed.
Lemma edges_in px es z c : (z, c) ∈ edge_px px es -> c = (0, 255, 0)%Z /\ exists a b o e, (a, b) ∈ es /\ px !! a = Some o /\ px !! b = Some e /\ z ∈ bres_line o e.
Proof.
  intros H. unfold edge_px in H. apply in_concat_map in H as (i & [a b] & Hi & H). cbn [fst snd] in H. destruct (px !! a) as [o|] eqn:Ea; [|now apply elem_of_nil in H]. destruct (px !! b) as [e|] eqn:Eb; [|now apply elem_of_nil in H].
  apply elem_of_list_fmap in H as (w & E & Hw). injection E as -> ->. split; [reflexivity|]. exists a, b, o, e. apply elem_of_list_lookup_2 in Hi. auto.
Qed.
Lemma edges_layer px es f z a b o e : (a, b) ∈ es -> px !! a = Some o -> px !! b = Some e -> z ∈ bres_line o e -> paint (edge_px px es) f z = (0, 255, 0)%Z.
Proof.
  intros H Ha Hb Hz. apply paint_same; [intros c Hc; apply edges_in in Hc; tauto|]. left. eexists. apply in_concat_map. apply elem_of_list_lookup in H as (i & Hi). exists i, (a, b). split; [exact Hi|].
  cbn [fst snd]. rewrite Ha, Hb. apply elem_of_list_fmap. exists z. split; [reflexivity|exact Hz].
Qed.
(** the values a triangle of the picture gives to its pixels *)
Definition filled (px : list pix) (vals : list A) (t : nat * nat * nat) (z : pix) (x : A) : Prop :=
  exists p q r a b c l, px !! t.1.1 = Some p /\ px !! t.1.2 = Some q /\ px !! t.2 = Some r /\ vals !! t.1.1 = Some a /\ vals !! t.1.2 = Some b /\ vals !! t.2 = Some c /\
    triangle_interp (p, q, r) (a, b, c) = Ret l /\ (z, x) ∈ l.
Definition tri_px (col : A -> rgb) (px : list pix) (vals : list A) (t : nat * nat * nat) : list (pix * rgb) :=
  match px !! t.1.1, px !! t.1.2, px !! t.2, vals !! t.1.1, vals !! t.1.2, vals !! t.2 with
  | Some p, Some q, Some r, Some a, Some b, Some c => map (fun z => (z, col (blend (weights p q r z) (a, b, c)))) (List.filter (covered (A := A) p q r) (tri_box p q r))
  | _, _, _, _, _, _ => []
  end.
Lemma tri_px_iff col px vals t z c : (z, c) ∈ tri_px col px vals t <-> exists x, filled px vals t z x /\ c = col x.
Proof.
  unfold tri_px. split.
  - destruct (px !! t.1.1) as [p|] eqn:E1; [|intros H; now apply elem_of_nil in H]. destruct (px !! t.1.2) as [q|] eqn:E2; [|intros H; now apply elem_of_nil in H]. destruct (px !! t.2) as [r|] eqn:E3; [|intros H; now apply elem_of_nil in H].
    destruct (vals !! t.1.1) as [a|] eqn:E4; [|intros H; now apply elem_of_nil in H]. destruct (vals !! t.1.2) as [b|] eqn:E5; [|intros H; now apply elem_of_nil in H]. destruct (vals !! t.2) as [d|] eqn:E6; [|intros H; now apply elem_of_nil in H].
    intros H. apply elem_of_list_fmap in H as (w & E & Hw). injection E as -> ->. exists (blend (weights p q r w) (a, b, d)). split; [|reflexivity].
    exists p, q, r, a, b, d. eexists. do 6 (split; [assumption|]). split; [apply fill_spec|]. apply elem_of_list_fmap. exists w. split; [reflexivity|exact Hw].
  - intros (x & (p & q & r & a & b & d & l & -> & -> & -> & -> & -> & -> & E & H) & ->). rewrite fill_spec in E. injection E as <-.
    apply elem_of_list_fmap in H as (w & E & Hw). injection E as -> ->. apply elem_of_list_fmap. exists w. split; [reflexivity|exact Hw].
Qed.
Lemma filled_once px vals t z x y : filled px vals t z x -> filled px vals t z y -> x = y.
Proof.
  intros (p & q & r & a & b & d & l & H1 & H2 & H3 & H4 & H5 & H6 & E & H) (p' & q' & r' & a' & b' & d' & l' & K1 & K2 & K3 & K4 & K5 & K6 & E' & H').
  rewrite H1 in K1. rewrite H2 in K2. rewrite H3 in K3. rewrite H4 in K4. rewrite H5 in K5. rewrite H6 in K6. injection K1 as <-. injection K2 as <-. injection K3 as <-. injection K4 as <-. injection K5 as <-. injection K6 as <-.
  rewrite E in E'. injection E' as <-. rewrite fill_spec in E. injection E as <-. apply elem_of_list_fmap in H as (w & E & _). injection E as -> ->. apply elem_of_list_fmap in H' as (w' & E & _). injection E as <- ->. reflexivity.
Qed.
Lemma fill_layer col px vals ts f i t z x : ts !! i = Some t -> filled px vals t z x -> (forall j u y, i < j -> ts !! j = Some u -> ~ filled px vals u z y) ->
  paint (fill_px col px vals ts) f z = col x.
Proof.
  intros Hi Hx Hl. change (fill_px col px vals ts) with (concat (map (tri_px col px vals) ts)). apply (paint_block _ _ _ _ i t); [exact Hi| | |].
  - intros c Hc. apply tri_px_iff in Hc as (y & Hy & ->). f_equal. exact (filled_once _ _ _ _ _ _ Hy Hx).
  - exists (col x). apply tri_px_iff. eauto.
  - intros j u c Hj Hu Hc. apply tri_px_iff in Hc as (y & Hy & _). exact (Hl j u y Hj Hu Hy).
Qed.
Lemma fill_none col px vals ts f z : (forall t y, t ∈ ts -> ~ filled px vals t z y) -> paint (fill_px col px vals ts) f z = f z.
Proof.
  intros H. change (fill_px col px vals ts) with (concat (map (tri_px col px vals) ts)). apply paint_skip. intros c Hc. apply in_concat_map in Hc as (i & t & Hi & Hc). apply tri_px_iff in Hc as (y & Hy & _).
  exact (H t y (elem_of_list_lookup_2 _ _ _ Hi) Hy).
Qed.
End layers.

(** ** the whole picture over the reals *)
Definition no_node (px : list pix) (z : pix) : Prop := forall u, u ∈ px -> ~ near z u.
Definition no_edge (px : list pix) (oes : option (list (nat * nat))) (z : pix) : Prop :=
  forall es a b o e, oes = Some es -> (a, b) ∈ es -> px !! a = Some o -> px !! b = Some e -> z ∉ bres_line o e.
Lemma picture_paint (v : visual R_arith) size cm p q :
  made v -> (vz_dim v = 1 \/ vz_dim v = 2 \/ vz_dim v = 3) -> (25 <= size <= 2 ^ 31)%Z ->
  p ∈ vz_points v -> q ∈ vz_points v -> flat_pt (vz_dim v) p <> flat_pt (vz_dim v) q ->
  exists coors px im bare, vis_project v = Ret coors /\ enpixel R_raster size coors = Ret px /\ length px = length (vz_points v) /\
    draw R_raster size cm true v = Ret im /\ draw R_raster size cm false v = Ret bare /\
    (forall i w c k z, px !! i = Some w -> vz_colors v !! i = Some c -> stdcol !! c = Some k ->
       near z w -> (forall j u, i < j -> px !! j = Some u -> ~ near z u) -> paint im (fun _ => back_color) z = k) /\
    (forall es a b o e z, vz_edges v = Some es -> (a, b) ∈ es -> px !! a = Some o -> px !! b = Some e -> z ∈ bres_line o e -> no_node px z ->
       paint im (fun _ => back_color) z = (0, 255, 0)%Z) /\
    (forall z, no_node px z -> no_edge px (vz_edges v) z -> paint im (fun _ => back_color) z = paint bare (fun _ => back_color) z) /\
    (forall ts vals i t x z, vz_tris v = Some ts -> vz_vals v = Some vals -> ts !! i = Some t -> filled px vals t z x ->
       (forall j u y, i < j -> ts !! j = Some u -> ~ filled px vals u z y) -> paint bare (fun _ => back_color) z = default (hot_map R_raster) cm x) /\
    (forall z, (forall ts vals t y, vz_tris v = Some ts -> vz_vals v = Some vals -> t ∈ ts -> ~ filled px vals t z y) -> paint bare (fun _ => back_color) z = back_color).
Proof.
  intros M D Hs Hp Hq Hpq. destruct (made_inv v M) as (Dr & N & F & L). pose proof (vis_project_R v N F D) as Ep.
  destruct (enpixel_R size (map (flat_pt (vz_dim v)) (vz_points v)) (flat_pt (vz_dim v) p) (flat_pt (vz_dim v) q)) as (px & s & mx & my & E & P).
  { lia. } { apply elem_of_list_fmap; eauto. } { apply elem_of_list_fmap; eauto. } { exact Hpq. }
  assert (Hl : length px = length (vz_points v)) by (rewrite (pl_len _ _ _ _ _ _ P); apply map_length).
  pose proof (placed_margin size _ _ _ _ _ ltac:(lia) P) as HM. assert (Hs2 : (size <= 2 ^ 32)%Z) by lia.
  destruct (draw_spec R_raster size cm true v _ px Hs2 Dr Ep E Hl HM) as [E1 _]. destruct (draw_spec R_raster size cm false v _ px Hs2 Dr Ep E Hl HM) as [E2 _].
  eexists _, px, _, _. split; [exact Ep|]. split; [exact E|]. split; [exact Hl|]. split; [exact E1|]. split; [exact E2|].
  set (col := default (hot_map R_raster) cm). unfold all_px. set (fs := match vz_tris v with Some _ => _ | None => _ end).
  assert (Hd : forall f z, no_node px z -> paint (dots_px px (vz_colors v)) f z = f z).
  { intros f z Hz. apply paint_skip. intros c Hc. apply (dots_in size) in Hc as (u & Hu & Hn); [|exact Hs2|exact HM]. exact (Hz u Hu Hn). }
  split; [|split; [|split; [|split]]].
  - intros i w c k z Hw Hc Hk Hn Hlast. rewrite !paint_app. exact (dots_layer size px (vz_colors v) _ i w c k z Hs2 HM Hw Hc Hk Hn Hlast).
  - intros es a b o e z He Hab Ha Hb Hz Hno. rewrite He, !paint_app, (Hd _ z Hno). exact (edges_layer px es _ z a b o e Hab Ha Hb Hz).
  - intros z Hno Hne. rewrite app_nil_r, !paint_app, (Hd _ z Hno). destruct (vz_edges v) as [es|] eqn:He; [|reflexivity]. apply paint_skip. intros c Hc.
    apply edges_in in Hc as (_ & a & b & o & e & Hab & Ha & Hb & Hz). exact (Hne es a b o e eq_refl Hab Ha Hb Hz).
  - intros ts vals i t x z Ht Hv Hi Hx Hlast. rewrite app_nil_r. unfold fs. rewrite Ht, Hv. exact (fill_layer col px vals ts _ i t z x Hi Hx Hlast).
  - intros z Hz. rewrite app_nil_r. unfold fs. destruct (vz_tris v) as [ts|] eqn:Ht; [|reflexivity]. destruct (vz_vals v) as [vals|] eqn:Hv; [|reflexivity]. apply fill_none. intros t y Hin. exact (Hz ts vals t y eq_refl eq_refl Hin).
Qed.

(** ** the colour maps *)
Local Open Scope R_scope.
Lemma u8_apart x y : 0 <= x <= 255 -> 0 <= y <= 255 -> 1 <= Rabs (x - y) -> ra_u8 R_raster x <> ra_u8 R_raster y.
Proof.
  intros Hx Hy H E.
  assert (U : forall z, 0 <= z <= 255 -> ra_u8 R_raster z = R_round z).
  { intros z Hz. cbn [ra_u8 R_raster]. unfold sat. pose proof (round_mono z 255 Hz) as Hr. rewrite (round_int 255) in Hr by lia. pose proof (proj2 (round_near z (proj1 Hz))). lia. }
  rewrite !U in E by assumption. unfold R_round in E. destruct (Rle_dec 0 x) as [_|]; [|lra]. destruct (Rle_dec 0 y) as [_|]; [|lra].
  destruct (base_Int_part (x + / 2)) as [X1 X2]. destruct (base_Int_part (y + / 2)) as [Y1 Y2]. rewrite E in X1, X2.
  unfold Rabs in H. destruct (Rcase_abs (x - y)); lra.
Qed.
Definition ramp (v : R) : R := Rmax 0 (Rmin 255 v).
Lemma ramp_in v : 0 <= ramp v <= 255.
Proof. unfold ramp, Rmax, Rmin. repeat destruct (Rle_dec _ _); lra. Qed.
Lemma hot_ramp v : 0 <= v <= 1 -> hot_map (A := R_arith) R_raster v = (ra_u8 R_raster (ramp (765 * v)), ra_u8 R_raster (ramp (765 * v - 255)), ra_u8 R_raster (ramp (765 * v - 510))).
Proof.
  intros Hv. rewrite hot_R. unfold hot_r. rewrite Rmin_left, Rmax_left by lra. rewrite !clamp_R by lra.
  replace (v * 3 * 255) with (765 * v) by ring. replace ((v * 3 - 1) * 255) with (765 * v - 255) by ring. replace ((v * 3 - 2) * 255) with (765 * v - 510) by ring. reflexivity.
Qed.
Lemma peak_R x v : peak (A := R_arith) (x, 3 / 2) 4 v = 3 / 2 - 4 * Rabs (v - x).
Proof.
  unfold peak. cbn [fst snd]. destruct (@sltb R_arith v x) eqn:E.
  - apply ltb_R in E. rewrite Rabs_left by lra. cbn. ring.
  - apply ltb_R_false in E. rewrite Rabs_right by lra. cbn. ring.
Qed.
Lemma rgb_ramp v : rgb_map (A := R_arith) R_raster v = (ra_u8 R_raster (ramp (255 * (3 / 2 - 4 * Rabs (v - 3 / 4)))), ra_u8 R_raster (ramp (255 * (3 / 2 - 4 * Rabs (v - 1 / 2)))), ra_u8 R_raster (ramp (255 * (3 / 2 - 4 * Rabs (v - 1 / 4))))).
Proof.
  unfold rgb_map. rewrite !sz_R. cbn [slit R_arith].
  assert (L : forall x, peak (A := R_arith) (x, slit 3 2) 4 v = 3 / 2 - 4 * Rabs (v - x)) by (intros x; apply peak_R).
  cbv zeta. rewrite !L, !clamp_R by (cbn; lra). unfold ramp.
  rewrite (Rmult_comm 255 (3 / 2 - 4 * Rabs (v - 3 / 4))), (Rmult_comm 255 (3 / 2 - 4 * Rabs (v - 1 / 2))), (Rmult_comm 255 (3 / 2 - 4 * Rabs (v - 1 / 4))). reflexivity.
Qed.

Lemma channel x y : 0 <= x <= 255 -> 0 <= y <= 255 -> ra_u8 R_raster x = ra_u8 R_raster y -> -1 < x - y < 1.
Proof.
  intros Hx Hy E. destruct (Rle_dec 1 (Rabs (x - y))) as [H|H]; [exfalso; exact (u8_apart x y Hx Hy H E)|].
  unfold Rabs in H. destruct (Rcase_abs (x - y)); lra.
Qed.
Lemma ramp_low v : v <= 0 -> ramp v = 0.
Proof. intros H. unfold ramp, Rmax, Rmin. repeat destruct (Rle_dec _ _); lra. Qed.
Lemma ramp_high v : 255 <= v -> ramp v = 255.
Proof. intros H. unfold ramp, Rmax, Rmin. repeat destruct (Rle_dec _ _); lra. Qed.
Lemma ramp_mid v : 0 <= v <= 255 -> ramp v = v.
Proof. intros H. unfold ramp, Rmax, Rmin. repeat destruct (Rle_dec _ _); lra. Qed.
Lemma hot_cases v : 0 <= v <= 1 -> exists r g b, ramp (765 * v) = r /\ ramp (765 * v - 255) = g /\ ramp (765 * v - 510) = b /\
  ((v <= 1 / 3 /\ r = 765 * v /\ g = 0 /\ b = 0) \/ (1 / 3 <= v <= 2 / 3 /\ r = 255 /\ g = 765 * v - 255 /\ b = 0) \/ (2 / 3 <= v /\ r = 255 /\ g = 255 /\ b = 765 * v - 510)).
Proof.
  intros Hv. do 3 eexists. do 3 (split; [reflexivity|]). destruct (Rle_dec v (1 / 3)); [left|destruct (Rle_dec v (2 / 3)); [right; left|right; right]].
  - split; [lra|]. split; [apply ramp_mid; lra|]. split; apply ramp_low; lra.
  - split; [lra|]. split; [apply ramp_high; lra|]. split; [apply ramp_mid; lra|apply ramp_low; lra].
  - split; [lra|]. split; [apply ramp_high; lra|]. split; [apply ramp_high; lra|apply ramp_mid; lra].
Qed.
Lemma hot_apart v w : 0 <= v <= 1 -> 0 <= w <= 1 -> 2 / 765 <= Rabs (v - w) -> hot_map (A := R_arith) R_raster v <> hot_map (A := R_arith) R_raster w.
Proof.
  intros Hv Hw H E. rewrite (hot_ramp v Hv), (hot_ramp w Hw) in E. injection E as E1 E2 E3.
  apply channel in E1, E2, E3; try apply ramp_in. destruct (hot_cases v Hv) as (r & g & b & V1 & V2 & V3 & Cv). destruct (hot_cases w Hw) as (r' & g' & b' & W1 & W2 & W3 & Cw). rewrite V1, W1 in E1. rewrite V2, W2 in E2. rewrite V3, W3 in E3.
  unfold Rabs in H. destruct (Rcase_abs (v - w)); destruct Cv as [(? & ? & ? & ?)|[(? & ? & ? & ?)|(? & ? & ? & ?)]]; destruct Cw as [(? & ? & ? & ?)|[(? & ? & ? & ?)|(? & ? & ? & ?)]]; lra.
Qed.
Lemma abs_left x y : x <= y -> Rabs (x - y) = y - x.
Proof. intros H. rewrite Rabs_left1 by lra. lra. Qed.
Lemma abs_right x y : y <= x -> Rabs (x - y) = x - y.
Proof. intros H. apply Rabs_right. lra. Qed.
Lemma rgb_cases v : 0 <= v <= 1 -> exists r g b, ramp (255 * (3 / 2 - 4 * Rabs (v - 3 / 4))) = r /\ ramp (255 * (3 / 2 - 4 * Rabs (v - 1 / 2))) = g /\ ramp (255 * (3 / 2 - 4 * Rabs (v - 1 / 4))) = b /\
  ((v <= 1 / 8 /\ r = 0 /\ g = 0 /\ b = 1020 * v + 255 / 2) \/ (1 / 8 <= v <= 3 / 8 /\ r = 0 /\ g = 1020 * v - 255 / 2 /\ b = 255) \/
   (3 / 8 <= v <= 5 / 8 /\ r = 1020 * v - 765 / 2 /\ g = 255 /\ b = 1275 / 2 - 1020 * v) \/ (5 / 8 <= v <= 7 / 8 /\ r = 255 /\ g = 1785 / 2 - 1020 * v /\ b = 0) \/
   (7 / 8 <= v /\ r = 2295 / 2 - 1020 * v /\ g = 0 /\ b = 0)).
Proof.
  intros Hv. do 3 eexists. do 3 (split; [reflexivity|]).
  assert (A1 := fun h => abs_left v (3 / 4) h). assert (A2 := fun h => abs_left v (1 / 2) h). assert (A3 := fun h => abs_left v (1 / 4) h).
  assert (B1 := fun h => abs_right v (3 / 4) h). assert (B2 := fun h => abs_right v (1 / 2) h). assert (B3 := fun h => abs_right v (1 / 4) h).
  destruct (Rle_dec v (1 / 8)); [left|right; destruct (Rle_dec v (3 / 8)); [left|right; destruct (Rle_dec v (5 / 8)); [left|right; destruct (Rle_dec v (7 / 8)); [left|right]]]].
  - rewrite A1, A2, A3 by lra. split; [lra|]. split; [apply ramp_low; lra|]. split; [apply ramp_low; lra|]. rewrite ramp_mid; lra.
  - rewrite A1, A2 by lra. split; [lra|]. split; [apply ramp_low; lra|]. split; [rewrite ramp_mid; lra|]. apply ramp_high. destruct (Rle_dec v (1 / 4)); [rewrite A3|rewrite B3]; lra.
  - rewrite A1, B3 by lra. split; [lra|]. split; [rewrite ramp_mid; lra|]. split; [|rewrite ramp_mid; lra]. apply ramp_high. destruct (Rle_dec v (1 / 2)); [rewrite A2|rewrite B2]; lra.
  - rewrite B2, B3 by lra. split; [lra|]. split; [|split; [rewrite ramp_mid; lra|apply ramp_low; lra]]. apply ramp_high. destruct (Rle_dec v (3 / 4)); [rewrite A1|rewrite B1]; lra.
  - rewrite B1, B2, B3 by lra. split; [lra|]. split; [rewrite ramp_mid; lra|]. split; apply ramp_low; lra.
Qed.
Lemma rgb_apart v w : 0 <= v <= 1 -> 0 <= w <= 1 -> 1 / 510 <= Rabs (v - w) -> rgb_map (A := R_arith) R_raster v <> rgb_map (A := R_arith) R_raster w.
Proof.
  intros Hv Hw H E. rewrite !rgb_ramp in E. injection E as E1 E2 E3.
  apply channel in E1, E2, E3; try apply ramp_in. destruct (rgb_cases v Hv) as (r & g & b & V1 & V2 & V3 & Cv). destruct (rgb_cases w Hw) as (r' & g' & b' & W1 & W2 & W3 & Cw). rewrite V1, W1 in E1. rewrite V2, W2 in E2. rewrite V3, W3 in E3.
  unfold Rabs in H. destruct (Rcase_abs (v - w)); destruct Cv as [(? & ? & ? & ?)|[(? & ? & ? & ?)|[(? & ? & ? & ?)|[(? & ? & ? & ?)|(? & ? & ? & ?)]]]]; destruct Cw as [(? & ? & ? & ?)|[(? & ? & ? & ?)|[(? & ? & ? & ?)|[(? & ? & ? & ?)|(? & ? & ? & ?)]]]]; lra.
Qed.
Lemma rgb_levels v : let level x := R_round (Rmax 0 (Rmin 255 (255 * (3 / 2 - 4 * Rabs (v - x))))) in
  rgb_map (A := R_arith) R_raster v = (level (3 / 4), level (1 / 2), level (1 / 4)).
Proof.
  cbv zeta. rewrite rgb_ramp.
  assert (U : forall z, ra_u8 R_raster (ramp z) = R_round (ramp z)).
  { intros z. cbn [ra_u8 R_raster]. unfold sat. pose proof (ramp_in z) as Hz. pose proof (round_mono (ramp z) 255 Hz) as Hr. rewrite (round_int 255) in Hr by lia. pose proof (proj2 (round_near (ramp z) (proj1 Hz))). lia. }
  rewrite !U. reflexivity.
Qed.
Local Close Scope R_scope.
Lemma picture_shows (v : visual R_arith) size cm p q :
  made v -> (vz_dim v = 1 \/ vz_dim v = 2 \/ vz_dim v = 3) -> (25 <= size <= 2 ^ 31)%Z ->
  p ∈ vz_points v -> q ∈ vz_points v -> flat_pt (vz_dim v) p <> flat_pt (vz_dim v) q ->
  exists coors px im bare, vis_project v = Ret coors /\ enpixel R_raster size coors = Ret px /\ length px = length (vz_points v) /\
    draw R_raster size cm true v = Ret im /\ draw R_raster size cm false v = Ret bare /\
    let no_node z := forall u, u ∈ px -> ~ near z u in
    let on_edge z := exists es a b o e, vz_edges v = Some es /\ (a, b) ∈ es /\ px !! a = Some o /\ px !! b = Some e /\ z ∈ bres_line o e in
    let shown := paint im (fun _ => (50, 50, 50)%Z) in let plain := paint bare (fun _ => (50, 50, 50)%Z) in
    (forall i w c k z, px !! i = Some w -> vz_colors v !! i = Some c -> [(255, 0, 0); (255, 255, 0); (0, 0, 255); (255, 0, 255)]%Z !! c = Some k ->
       near z w -> (forall j u, i < j -> px !! j = Some u -> ~ near z u) -> shown z = k) /\
    (forall z, on_edge z -> no_node z -> shown z = (0, 255, 0)%Z) /\
    (forall z, no_node z -> ~ on_edge z -> shown z = plain z) /\
    (forall ts vals i t x z, vz_tris v = Some ts -> vz_vals v = Some vals -> ts !! i = Some t -> filled px vals t z x ->
       (forall j u y, i < j -> ts !! j = Some u -> ~ filled px vals u z y) -> plain z = default (hot_map R_raster) cm x) /\
    (forall z, (forall ts vals t y, vz_tris v = Some ts -> vz_vals v = Some vals -> t ∈ ts -> ~ filled px vals t z y) -> plain z = (50, 50, 50)%Z).
Proof.
  intros M D Hs Hp Hq Hpq. destruct (picture_paint v size cm p q M D Hs Hp Hq Hpq) as (coors & px & im & bare & E1 & E2 & E3 & E4 & E5 & P1 & P2 & P3 & P4 & P5).
  exists coors, px, im, bare. do 5 (split; [assumption|]). cbv zeta. split; [exact P1|]. split; [|split; [|split; [exact P4|exact P5]]].
  - intros z (es & a & b & o & e & He & Hab & Ha & Hb & Hz) Hn. exact (P2 es a b o e z He Hab Ha Hb Hz Hn).
  - intros z Hn Hne. apply P3; [exact Hn|]. intros es a b o e He Hab Ha Hb Hz. apply Hne. exists es, a, b, o, e. auto.
Qed.
