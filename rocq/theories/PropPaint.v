(** C111, C112: the finished picture and its colours. *)
From Coq Require Import Reals Lra Lia.
From Verif Require Import PaintProofs InstQc InstVis PropVisual.
Local Close Scope R_scope.
Local Open Scope nat_scope.

(** in real arithmetic, for every picture made through the public interface whose points do not
    all project onto one point and every image size from 25: the marker of the last node near a
    pixel decides its colour, then the mesh lines, then the last triangle that covers it, then the
    background *)
Theorem C111_layers (v : visual R_arith) size cm p q :
  made v -> (vz_dim v = 1 \/ vz_dim v = 2 \/ vz_dim v = 3) -> (25 <= size <= 2 ^ 31)%Z ->
  p ∈ vz_points v -> q ∈ vz_points v -> flat_pt (vz_dim v) p <> flat_pt (vz_dim v) q ->
  exists coors px im bare, vis_project v = Ret coors /\ enpixel R_raster size coors = Ret px /\ length px = length (vz_points v) /\
    draw R_raster size cm true v = Ret im /\ draw R_raster size cm false v = Ret bare /\
    let near (z w : Z * Z) := (Z.abs (z.1 - w.1) <= 1 /\ Z.abs (z.2 - w.2) <= 1)%Z in
    let no_node z := forall u, u ∈ px -> ~ near z u in
    let on_edge z := exists es a b o e, vz_edges v = Some es /\ (a, b) ∈ es /\ px !! a = Some o /\ px !! b = Some e /\ z ∈ bres_line o e in
    let shown := paint im (fun _ => (50, 50, 50)%Z) in let plain := paint bare (fun _ => (50, 50, 50)%Z) in
    (forall i w c k z, px !! i = Some w -> vz_colors v !! i = Some c -> [(255, 0, 0); (255, 255, 0); (0, 0, 255); (255, 0, 255)]%Z !! c = Some k ->
       near z w -> (forall j u, i < j -> px !! j = Some u -> ~ near z u) -> shown z = k) /\
    (forall z, on_edge z -> no_node z -> shown z = (0, 255, 0)%Z) /\
    (forall z, no_node z -> ~ on_edge z -> shown z = plain z) /\
    (forall ts vals i t x z, vz_tris v = Some ts -> vz_vals v = Some vals -> ts !! i = Some t -> filled px vals t z x ->
       (forall j u y, i < j -> ts !! j = Some u -> ~ filled px vals u z y) -> plain z = default (hot_map R_raster) cm x) /\
    (forall z, (forall ts vals t y, vz_tris v = Some ts -> vz_vals v = Some vals -> t ∈ ts -> ~ filled px vals t z y) -> plain z = (50, 50, 50)%Z).
Proof. exact (picture_shows v size cm p q). Qed.
Print Assumptions C111_layers.

(** the hypotheses over the reals are those of C66 (C66_hypotheses); the triangle of C66_example
    in an image of 25 pixels: a marker over the fill and the lines, a line over the fill, a fill,
    the background *)
Example C111_example :
  (v ← ex_picture; im ← draw Qc_raster 25 None true v; bare ← draw Qc_raster 25 None false v;
   Ret (map (paint im (fun _ => back_color)) [(4, 22); (13, 13); (5, 20); (20, 5)]%Z, map (paint bare (fun _ => back_color)) [(4, 22); (13, 13); (5, 20); (20, 5)]%Z)) =
  Ret ([(255, 0, 0); (0, 255, 0); (134, 0, 0); (50, 50, 50)]%Z, [(57, 0, 0); (255, 255, 64); (134, 0, 0); (50, 50, 50)]%Z).
Proof. vm_refl. Qed.

(** the heat map gives different colours to values of the unit interval 2/765 apart *)
Theorem C112_heat (v w : R) : (0 <= v <= 1)%R -> (0 <= w <= 1)%R -> (2 / 765 <= Rabs (v - w))%R -> hot_map R_raster v <> hot_map R_raster w.
Proof. exact (hot_apart v w). Qed.
Print Assumptions C112_heat.
(** the rainbow map gives different colours to values of the unit interval 1/510 apart; each
    channel is a clipped tent over its own quarter *)
Theorem C112_rainbow (v w : R) : (0 <= v <= 1)%R -> (0 <= w <= 1)%R -> (1 / 510 <= Rabs (v - w))%R -> rgb_map R_raster v <> rgb_map R_raster w.
Proof. exact (rgb_apart v w). Qed.
Print Assumptions C112_rainbow.
Theorem C112_channels (v : R) : let level x := R_round (Rmax 0 (Rmin 255 (255 * (3 / 2 - 4 * Rabs (v - x)))))%R in
  rgb_map R_raster v = (level (3 / 4)%R, level (1 / 2)%R, level (1 / 4)%R).
Proof. exact (rgb_levels v). Qed.
Print Assumptions C112_channels.
Example C112_example :
  map (rgb_map Qc_raster) [qc 0; qcd 1 8; qcd 1 4; qcd 1 2; qcd 3 4; qc 1; qcd 1 510] =
    [(0, 0, 128); (0, 0, 255); (0, 128, 255); (128, 255, 128); (255, 128, 0); (128, 0, 0); (0, 0, 130)]%Z /\
  map (hot_map Qc_raster) [qc 0; qcd 2 765; qcd 1 3; qcd 257 765; qcd 2 3] = [(0, 0, 0); (2, 0, 0); (255, 0, 0); (255, 2, 0); (255, 255, 0)]%Z.
Proof. split; vm_refl. Qed.
