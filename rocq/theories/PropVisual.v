(** C64 - C67, C77, C78: pictures. *)
From Coq Require Import Floats Reals Lra.
From Verif Require Import VisualTop InstR InstQc InstF64.
Local Close Scope R_scope.
Local Open Scope list_scope.
Local Open Scope nat_scope.

(** *** C64 — a drawn line joins its endpoints by king's moves, has the right number of pixels,
    stays in the bounding box, and every pixel is within half a pixel of the ideal line measured
    along the minor axis *)
Theorem C64_line (o e : Z * Z) : let l := bres_line o e in
  let n := Z.max (Z.abs (e.1 - o.1)) (Z.abs (e.2 - o.2)) in
  Z.of_nat (length l) = (n + 1)%Z /\
  ((head l = Some o /\ last l = Some e) \/ (head l = Some e /\ last l = Some o)) /\
  (forall i p q, l !! i = Some p -> l !! S i = Some q -> Z.max (Z.abs (q.1 - p.1)) (Z.abs (q.2 - p.2)) = 1%Z) /\
  (forall p, p ∈ l -> (Z.min o.1 e.1 <= p.1 <= Z.max o.1 e.1 /\ Z.min o.2 e.2 <= p.2 <= Z.max o.2 e.2)%Z) /\
  (forall p, p ∈ l -> (2 * Z.abs ((e.1 - o.1) * (p.2 - o.2) - (e.2 - o.2) * (p.1 - o.1)) <= n)%Z).
Proof. destruct (line_rastered o e) as [h1 h2 h3 h4 h5]. auto. Qed.
Print Assumptions C64_line.
Example C64_example : bres_line (1, 1)%Z (6, 3)%Z = [(1, 1); (2, 1); (3, 2); (4, 2); (5, 3); (6, 3)]%Z /\
  bres_line (2, 5)%Z (1, 1)%Z = [(1, 1); (1, 2); (1, 3); (2, 4); (2, 5)]%Z.
Proof. split; vm_compute; reflexivity. Qed.

(** *** C65 — pixels in row or column zero are lost: false of the code.  Exactly those are lost. *)
Theorem C65_refuted : exists o e p : Z * Z, (0 <= o.1 /\ 0 <= o.2 /\ 0 <= e.1 /\ 0 <= e.2)%Z /\
  p ∈ bres_line o e /\ ~ p ∈ line_unsigned o e.
Proof.
  exists (0, 0)%Z, (3, 0)%Z, (2, 0)%Z. split; [cbn; lia|]. split.
  - apply elem_of_list_In. vm_compute. auto.
  - intros H. apply elem_of_list_In in H. vm_compute in H. exact H.
Qed.
Print Assumptions C65_refuted.
Theorem C65_partial (o e : Z * Z) :
  (forall p, p ∈ line_unsigned o e <-> p ∈ bres_line o e /\ (0 < p.1)%Z /\ (0 < p.2)%Z) /\
  ((0 < o.1)%Z -> (0 < o.2)%Z -> (0 < e.1)%Z -> (0 < e.2)%Z -> line_unsigned o e = bres_line o e).
Proof.
  split; [|intros; now apply line_all]. intros p. unfold line_unsigned.
  rewrite !elem_of_list_In, filter_In, andb_true_iff, !Z.ltb_lt. reflexivity.
Qed.
Print Assumptions C65_partial.
Example C65_example : line_unsigned (0, 2)%Z (2, 1)%Z = [(1, 2); (2, 1)]%Z /\ line_unsigned (1, 2)%Z (2, 1)%Z = bres_line (1, 2)%Z (2, 1)%Z.
Proof. split; vm_compute; reflexivity. Qed.

(** *** C66 — in real arithmetic, for every picture made through the public interface whose
    points do not all project onto one point, and every image size from 25, drawing succeeds,
    writes exactly the fills, the complete edges and the complete markers, and writes inside the
    image *)
Theorem C66_inside_partial (v : visual R_arith) (size : Z) cm show p q :
  made v -> (vz_dim v = 1 \/ vz_dim v = 2 \/ vz_dim v = 3) -> (25 <= size <= 2 ^ 31)%Z ->
  p ∈ vz_points v -> q ∈ vz_points v -> flat_pt (vz_dim v) p <> flat_pt (vz_dim v) q ->
  exists px im, draw R_raster size cm show v = Ret im /\
    length px = length (vz_points v) /\
    im = (match vz_tris v, vz_vals v with Some ts, Some vals => fill_px (default (hot_map R_raster) cm) px vals ts | _, _ => [] end) ++
         (if show : bool then (match vz_edges v with Some es => edge_px px es | None => [] end) ++ dots_px px (vz_colors v) else []) /\
    Forall (fun pc => (0 <= pc.1.1 < size /\ 0 <= pc.1.2 < size)%Z) im.
Proof.
  intros M D Hs Hp Hq Hpq. destruct (picture_R v size cm show p q M D Hs Hp Hq Hpq) as (px & s & mx & my & P & E & F).
  exists px, (all_px (default (hot_map R_raster) cm) show v px). split; [exact E|]. split; [|split; [reflexivity|exact F]].
  rewrite (pl_len _ _ _ _ _ _ P). apply map_length.
Qed.
Print Assumptions C66_inside_partial.
(** the placement is one scaling for both axes (up to rounding), and fills four fifths of the
    image along the longer axis *)
Theorem C66_aspect_partial (v : visual R_arith) (size : Z) p q :
  made v -> (vz_dim v = 1 \/ vz_dim v = 2 \/ vz_dim v = 3) -> (1 <= size <= 2 ^ 31)%Z ->
  p ∈ vz_points v -> q ∈ vz_points v -> flat_pt (vz_dim v) p <> flat_pt (vz_dim v) q ->
  exists coors px (s : R), vis_project v = Ret coors /\ coors = map (flat_pt (vz_dim v)) (vz_points v) /\
    enpixel R_raster size coors = Ret px /\ length px = length coors /\ (0 < s)%R /\
    (forall i j a b z w, coors !! i = Some a -> coors !! j = Some b -> px !! i = Some z -> px !! j = Some w ->
       (Rabs (IZR (w.1 - z.1) - s * (b.1 - a.1)) <= 1 /\ Rabs (IZR (w.2 - z.2) + s * (b.2 - a.2)) <= 1)%R) /\
    (exists i j a b, coors !! i = Some a /\ coors !! j = Some b /\
       (s * (b.1 - a.1) = 8 * IZR size / 10 \/ s * (b.2 - a.2) = 8 * IZR size / 10)%R).
Proof.
  intros M D Hs Hp Hq Hpq. destruct (made_inv v M) as (Dr & N & F & L). pose proof (vis_project_R v N F D) as Ep.
  destruct (enpixel_R size (map (flat_pt (vz_dim v)) (vz_points v)) (flat_pt (vz_dim v) p) (flat_pt (vz_dim v) q) Hs) as (px & s & mx & my & E & P).
  { apply elem_of_list_fmap; eauto. } { apply elem_of_list_fmap; eauto. } { exact Hpq. }
  exists (map (flat_pt (vz_dim v)) (vz_points v)), px, s. split; [exact Ep|]. split; [reflexivity|]. split; [exact E|].
  split; [exact (pl_len _ _ _ _ _ _ P)|]. split; [exact (pl_scale _ _ _ _ _ _ P)|]. split; [exact (placed_aspect _ _ _ _ _ _ P)|exact (pl_full _ _ _ _ _ _ P)].
Qed.
Print Assumptions C66_aspect_partial.
(** a two-point picture meeting the hypotheses over the reals *)
Example C66_hypotheses : exists v : visual R_arith,
  vis_new [pt2 (A := R_arith) 0%R 0%R; pt2 (A := R_arith) 1%R 2%R] = Ret v /\ made v /\ vz_dim v = 2 /\
  flat_pt 2 (pt2 (A := R_arith) 0%R 0%R) <> flat_pt 2 (pt2 (A := R_arith) 1%R 2%R).
Proof.
  eexists. split; [reflexivity|]. split; [apply (made_new [pt2 (A := R_arith) 0%R 0%R; pt2 (A := R_arith) 1%R 2%R]); reflexivity|]. split; [reflexivity|].
  unfold flat_pt. cbn [pt2 p_x p_y]. intros K. injection K as K _. lra.
Qed.
(** a filled triangle with its edges, in exact rational arithmetic: the marker of the first node
    is at (3,22) to (5,24) in an image of 25 pixels *)
Definition ex_picture : out (visual Qc_arith) :=
  v ← vis_new [pt2 (qc 0) (qc 0); pt2 (qc 4) (qc 0); pt2 (qc 0) (qc 4)];
  v ← set_vals v [qc 1; qc 5; qc 3];
  Ret (set_edges (set_triangles v [(0, 1, 2)]) [(0, 1); (1, 2); (0, 2)]).
Example C66_example :
  (v ← ex_picture; c ← vis_project v; px ← enpixel Qc_raster 25 c; im ← draw Qc_raster 25 None true v;
   Ret (px, length im, forallb (fun pc => (0 <=? pc.1.1)%Z && (pc.1.1 <? 25)%Z && (0 <=? pc.1.2)%Z && (pc.1.2 <? 25)%Z) im)) =
  Ret ([(3, 23); (23, 23); (3, 3)]%Z, 321, true).
Proof. vm_refl. Qed.
(** In binary64 the claim is false: two distinct points a smallest number apart make the scaling
    infinite, and drawing panics. *)
Theorem C66_refuted : exists p q : point F64_arith, seqb (p_x p) (p_x q) = false /\
  (exists v, vis_new [p; q] = Ret v /\ draw F64_raster 256 None true v = Panic).
Proof.
  exists (pt2 (fl 0) (fl 0)), (pt2 (fl 0x1p-1074) (fl 0)). split; [vm_compute; reflexivity|].
  eexists. split; [reflexivity|]. vm_compute. reflexivity.
Qed.
Print Assumptions C66_refuted.

(** *** C67 — values are scaled into the unit interval, least to zero, greatest to one,
    monotonically; the heat map rises from black to white *)
Theorem C67_scale (v : visual R_arith) (vals : list R) x y :
  length vals = length (vz_points v) -> x ∈ vals -> y ∈ vals -> x <> y ->
  exists v' lo hi sc, set_vals v vals = Ret v' /\ vz_vals v' = Some (map sc vals) /\ vz_range v' = Some (lo, hi) /\
    lo ∈ vals /\ hi ∈ vals /\ sc lo = 0%R /\ sc hi = 1%R /\
    (forall z, z ∈ vals -> (lo <= z <= hi /\ 0 <= sc z <= 1)%R) /\
    (forall z w, (z < w)%R -> (sc z < sc w)%R).
Proof.
  intros Hl Hx Hy Hxy. destruct (set_vals_R v vals x y Hl Hx Hy Hxy) as (lo & hi & v' & E & Il & Ih & B & Hlt & Er & _ & Ev).
  exists v', lo, hi, (fun z => ((z - lo) / (hi - lo))%R). assert (0 < hi - lo)%R by lra. assert (0 < / (hi - lo))%R by now apply Rinv_0_lt_compat.
  assert (Mono : forall z w, (z < w)%R -> ((z - lo) / (hi - lo) < (w - lo) / (hi - lo))%R).
  { intros z w K. apply Rmult_lt_compat_r; [assumption|lra]. }
  assert (E0 : ((lo - lo) / (hi - lo) = 0)%R) by (field; lra). assert (E1 : ((hi - lo) / (hi - lo) = 1)%R) by (field; lra).
  repeat (split; [assumption|]). split; [|exact Mono]. intros z Hz. pose proof (B z Hz) as [B1 B2]. split; [lra|]. split.
  - apply Rmult_le_pos; lra.
  - rewrite <- E1. apply Rmult_le_compat_r; lra.
Qed.
Print Assumptions C67_scale.
Theorem C67_heat (x y : R) : (x <= y)%R ->
  let c := hot_map R_raster x in let d := hot_map R_raster y in
  (0 <= c.1.1 <= 255 /\ 0 <= c.1.2 <= 255 /\ 0 <= c.2 <= 255)%Z /\
  (c.1.1 <= d.1.1 /\ c.1.2 <= d.1.2 /\ c.2 <= d.2)%Z /\
  ((x <= 0)%R -> c = (0, 0, 0)%Z) /\ ((1 <= y)%R -> d = (255, 255, 255)%Z).
Proof.
  intros H. cbv zeta. split; [exact (hot_range x)|]. split; [exact (hot_mono x y H)|]. split; intros K; [now apply hot_black|now apply hot_white].
Qed.
Print Assumptions C67_heat.
Example C67_example :
  (v ← vis_new [pt2 (qc 0) (qc 0); pt2 (qc 4) (qc 0); pt2 (qc 0) (qc 4)]; v ← set_vals v [qc 5; qc 1; qc 2]; Ret (vz_vals v)) =
    Ret (Some [qc 1; qc 0; qcd 1 4]) /\
  map (hot_map Qc_raster) [qc 0; qcd 1 4; qcd 1 2; qcd 9 10; qc 1] =
    [(0, 0, 0); (191, 0, 0); (255, 128, 0); (255, 255, 179); (255, 255, 255)]%Z.
Proof. split; vm_refl. Qed.
(** In binary64 the range may overflow; then the greatest value becomes NaN instead of one. *)
Theorem C67_f64_refuted : exists lo hi : F64_arith, sltb lo hi = true /\ seqb (Visual.scaled lo hi hi) s1 = false.
Proof. exists (fl (-0x1p1023)), (fl 0x1p1023). split; vm_compute; reflexivity. Qed.
Print Assumptions C67_f64_refuted.

(** *** C77 — a three-dimensional picture is an orthogonal projection of the rotated points:
    together with a depth coordinate it preserves all distances, so none is drawn too long *)
Theorem C77_orthographic (pts : list (point R_arith)) : pts <> [] -> Forall (fun p => p_n p = 3) pts ->
  exists (v : visual R_arith) coors (depth : point R_arith -> R),
    vis_new pts = Ret v /\ vis_project v = Ret coors /\ length coors = length pts /\
    forall i j p q a b, pts !! i = Some p -> pts !! j = Some q -> coors !! i = Some a -> coors !! j = Some b ->
      ((a.1 - b.1)² + (a.2 - b.2)² + (depth p - depth q)² = (p_x p - p_x q)² + (p_y p - p_y q)² + (p_z p - p_z q)²)%R.
Proof.
  intros N F. destruct pts as [|p0 pts]; [congruence|]. pose proof (proj1 (proj1 (Forall_cons _ _ _) F)) as H0.
  assert (Ev : exists v, vis_new (p0 :: pts) = Ret v /\ vz_dim v = 3 /\ vz_points v = p0 :: pts).
  { unfold vis_new. cbn [idx unwrap lookup list_lookup mbind out_bind]. destruct (existsb _ _) eqn:Ex.
    - exfalso. apply existsb_exists in Ex as (q & Hq & K). apply elem_of_list_In in Hq. pose proof (proj1 (Forall_forall _ _) F _ Hq) as Hn. cbv beta in Hn. rewrite Hn, H0 in K. discriminate.
    - eexists. split; [reflexivity|]. auto. }
  destruct Ev as (v & Ev & Ed & Epts). exists v, (map (flat_pt 3) (p0 :: pts)), depth. split; [exact Ev|]. split; [|split].
  - pose proof (vis_project_R v) as K. rewrite Ed, Epts in K. apply K; auto.
  - apply map_length.
  - intros i j p q a b Hp Hq Ha Hb. change (map ?f ?l) with (f <$> l) in Ha, Hb. rewrite list_lookup_fmap, Hp in Ha. rewrite list_lookup_fmap, Hq in Hb.
    injection Ha as <-. injection Hb as <-. exact (flat_rigid p q).
Qed.
Print Assumptions C77_orthographic.
Example C77_example : [pt3 (A := R_arith) 0%R 0%R 0%R; pt3 (A := R_arith) 1%R 2%R 3%R] <> [] /\
  Forall (fun p => p_n p = 3) [pt3 (A := R_arith) 0%R 0%R 0%R; pt3 (A := R_arith) 1%R 2%R 3%R].
Proof. split; [discriminate|repeat constructor]. Qed.

(** *** C78 — the fill of a triangle colours exactly the pixels that are convex combinations of
    its corners, each once, with the same combination of the corner values, which lies between
    the least and the greatest of them *)
Theorem C78_fill (p q r : Z * Z) (a b c : R) :
  ((q.1 - p.1) * (r.2 - p.2) - (r.1 - p.1) * (q.2 - p.2) <> 0)%Z ->
  exists l, triangle_interp (A := R_arith) (p, q, r) (a, b, c) = Ret l /\ NoDup (map fst l) /\
    (forall z x, (z, x) ∈ l <-> exists s t u, (0 <= s /\ 0 <= t /\ 0 <= u /\ s + t + u = 1 /\
       s * IZR p.1 + t * IZR q.1 + u * IZR r.1 = IZR z.1 /\ s * IZR p.2 + t * IZR q.2 + u * IZR r.2 = IZR z.2 /\
       x = s * a + t * b + u * c)%R) /\
    (forall z x, (z, x) ∈ l -> (Rmin (Rmin a b) c <= x <= Rmax (Rmax a b) c)%R).
Proof.
  intros H. destruct (fill_R p q r (a, b, c) H) as (l & E & Hl & Hn). exists l. split; [exact E|]. split; [exact Hn|]. split; [exact Hl|].
  intros z x K. apply Hl in K. pose proof (Rmin_l a b). pose proof (Rmin_r a b). pose proof (Rmin_l (Rmin a b) c). pose proof (Rmin_r (Rmin a b) c).
  pose proof (Rmax_l a b). pose proof (Rmax_r a b). pose proof (Rmax_l (Rmax a b) c). pose proof (Rmax_r (Rmax a b) c).
  apply (blended_range p q r z (a, b, c) x _ _ K); cbn; lra.
Qed.
Print Assumptions C78_fill.
Example C78_example : triangle_interp (A := Qc_arith) ((0, 0), (2, 0), (0, 2))%Z (qc 0, qc 2, qc 4) =
  Ret [((0, 0)%Z, qc 0); ((0, 1)%Z, qc 2); ((0, 2)%Z, qc 4); ((1, 0)%Z, qc 1); ((1, 1)%Z, qc 3); ((2, 0)%Z, qc 2)].
Proof. vm_refl. Qed.
