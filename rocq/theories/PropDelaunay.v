(** C114: circles of triangles and the vertices inside them. *)
From Coq Require Import Floats Reals Lra Lia String ZArith.
From Verif Require Import DelaunayGrid DelaunayDig MeshEx InstQc InstF64 PropPlane.
Local Close Scope R_scope.
Local Open Scope list_scope.
Local Open Scope nat_scope.

(** *** C114 — a triangle of the initial triangulation has no vertex in its circle that sees its base edge.
    False in binary64: four whole-number corners of a part 12 wide and 10 high, some 3 * 10^8 away from the origin.
    The diagonal chosen leaves a corner deep inside the circle of the other three (its distance from the
    centre is under 3.8, the radius over 6.4). *)
Definition far_corners : list (Z * Z) :=
  [(335544320, 201326592); (335544325, 201326588); (335544332, 201326592); (335544325, 201326598)]%Z.
Definition far_ops : list (bd_op F64_arith) := [DPoly (map (fun p => (sz p.1, sz p.2)) far_corners)].
Definition far_run : out (bound F64_arith * list (list nat) * (plane F64_arith * list (nat * nat)) * bool) :=
  r ← foldM (bd_step f64_geo) far_ops (b_new [], []);
  w ← gift_wrap f64_geo first_pick 20 (pl_new r.1);
  v ← midpoint_visible f64_geo r.1 (1, 2) 3;
  Ret (r, w, v).
Lemma far_runs : (x ← far_run; Ret (x.1.1.2, x.1.2.2, x.2, map (vget x.1.1.1) [0; 1; 2; 3], bool_decide (is_Some (t_full x.1.2.1 !! (1, 2, 0))),
    bool_decide (3 ∈ b_verts x.1.1.1), to_left f64_geo (pl_new x.1.1.1) (1, 2) 3)) =
  Ret ([[0; 1; 2; 3]], [], true, map (fun p => (sz p.1, sz p.2)) far_corners, true, true, true).
Proof. vm_compute. reflexivity. Qed.
(** [w] times a point minus [c], squared *)
Definition zdist (w : Z) (c p : Z * Z) : Z := ((w * p.1 - c.1) * (w * p.1 - c.1) + (w * p.2 - c.2) * (w * p.2 - c.2))%Z.
Theorem C114_refuted : exists (pts : list (Z * Z)) (b : bound F64_arith) polys r (p q c x : nat) (w : Z) (centre : Z * Z),
  bd_built f64_geo b polys /\ map (vget b) (seq 0 (length pts)) = map (fun z => (sz z.1, sz z.2)) pts /\
  Forall (fun z => (0 <= z.1 < 2 ^ 53)%Z /\ (0 <= z.2 < 2 ^ 53)%Z) pts /\
  gift_wrap f64_geo first_pick 20 (pl_new b) = Ret r /\ r.2 = [] /\ is_Some (t_full r.1 !! (p, q, c)) /\
  x ∈ b_verts b /\ to_left f64_geo (pl_new b) (p, q) x = true /\ midpoint_visible f64_geo b (p, q) x = Ret true /\
  let z v := nth v pts (0, 0)%Z in
  (0 < w)%Z /\ zdist w centre (z p) = zdist w centre (z q) /\ zdist w centre (z c) = zdist w centre (z q) /\ (zdist w centre (z x) < zdist w centre (z q))%Z.
Proof.
  pose proof far_runs as H. apply bind_ret_inv in H as ([[[b polys] r] vis] & H & E). cbn [fst snd] in E.
  apply (f_equal (fun o => match o with Ret z => Some z | _ => None end)) in E. apply (inj Some) in E.
  apply pair_equal_spec in E as [E E7]. apply pair_equal_spec in E as [E E6]. apply pair_equal_spec in E as [E E5]. apply pair_equal_spec in E as [E E4].
  apply pair_equal_spec in E as [E E3]. apply pair_equal_spec in E as [E1 E2]. unfold far_run in H. apply bind_ret_inv in H as (bp & Eb & H).
  apply bind_ret_inv in H as (r' & Er & H). apply bind_ret_inv in H as (v' & Ev & H). injection H as -> -> ->.
  exists far_corners, b, polys, r, 1, 2, 0, 3, 8%Z, (2684354608, 1610612755)%Z.
  split; [exists [], far_ops; exact Eb|]. split; [exact E4|]. split; [unfold far_corners; repeat constructor; cbn; lia|].
  split; [exact Er|]. split; [exact E2|]. split; [exact (bool_decide_eq_true_1 _ E5)|]. split; [exact (bool_decide_eq_true_1 _ E6)|].
  split; [exact E7|]. split; [rewrite <- E3; exact Ev|]. vm_compute. repeat split; reflexivity.
Qed.
Print Assumptions C114_refuted.

(** In exact arithmetic it holds of the moved positions (each vertex is shifted by its own offset), over every
    ordered field, every outline and every order of picking edges, when the orientation test is right about the
    moved positions: every vertex that is left of the base edge and sees its middle is on or outside the circle of the
    triangle, unless the in-circle array of the base edge, some vertex outside the circle and that vertex is within
    10^-100, entry by entry, of a singular one; and a base edge is left without a triangle only when no vertex
    is left of it and sees it.  Missing: binary64, and vertices that are not left of the base edge. *)
Theorem C114_apex_partial (A : arith) (OL : ord_laws A) (g : geo A) (b : bound A) pk fuel r :
  let Q v : point A := xy_pt (sadd (vget b v).1 (g_pert g v), sadd (vget b v).2 (g_pert g v)) in
  let left p q x := g_dir g (vget b p) (vget b q) (vget b x) = Positive in
  (forall p q x, left p q x -> lts s0 (cross (Q p) (Q q) (Q x))) ->
  gift_wrap g pk fuel (pl_new b) = Ret r ->
  (forall p q c, is_Some (t_full r.1 !! (p, q, c)) ->
    left p q c /\ midpoint_visible g b (p, q) c = Ret true /\
    forall x, x ∈ b_verts b -> left p q x -> midpoint_visible g b (p, q) x = Ret true ->
    forall o k, dist2 (Q p) o = k -> dist2 (Q q) o = k -> dist2 (Q c) o = k ->
    les k (dist2 (Q x) o) \/
    exists w, w ∈ b_verts b /\ left p q w /\ near_circle (Q p) (Q q) (Q w) (Q x) /\ les k (dist2 (Q w) o)) /\
  (forall e x, e ∈ r.2 -> x ∈ b_verts b -> left e.1 e.2 x -> midpoint_visible g b e x <> Ret true).
Proof. exact (gift_best_plain OL g b pk fuel r). Qed.
Print Assumptions C114_apex_partial.
(** the hypothesis on the orientation test holds of the usual formula and no offsets, over every ordered field *)
Example C114_apex_sound (A : arith) (OL : ord_laws A) (floor : A -> Z) (b : bound A) :
  let g := plain_geo floor in
  let Q v : point A := xy_pt (sadd (vget b v).1 (g_pert g v), sadd (vget b v).2 (g_pert g v)) in
  forall p q x, g_dir g (vget b p) (vget b q) (vget b x) = Positive -> lts s0 (cross (Q p) (Q q) (Q x)).
Proof. exact (plain_sound OL floor b). Qed.
(** and the same four corners, close to the origin, get the other diagonal: the circle of no triangle contains the fourth corner *)
Definition near_ops {A : arith} : list (bd_op A) := [DPoly [(sz 0, sz 0); (sz 5, sz (-4)); (sz 12, sz 0); (sz 5, sz 6)]].
Example C114_apex_example :
  (r ← foldM (bd_step qc_geo) near_ops (b_new [], []); w ← gift_wrap qc_geo first_pick 20 (pl_new r.1);
   v ← midpoint_visible qc_geo r.1 (3, 0) 2;
   i ← in_circle (xy_pt (vget r.1 2)) (xy_pt (vget r.1 3)) (xy_pt (vget r.1 0)) (xy_pt (vget r.1 1));
   Ret (map fst (map_to_list (t_full w.1)), w.2, to_left qc_geo (pl_new r.1) (3, 0) 2, v, i)) =
  Ret ([(3, 0, 1); (3, 1, 2)], [], true, true, false).
Proof. vm_refl. Qed.

(** On coordinates that are multiples of a common step [d] and bounded by [M], not absurdly fine, the exception
    disappears: over the reals every vertex left of the base edge that sees its middle is on or outside the circle. *)
Theorem C114_grid_partial (g : geo R_arith) (b : bound R_arith) polys pk fuel r (d M : R) :
  let Q v : R * R := (fst (vget b v) + g_pert g v, snd (vget b v) + g_pert g v)%R in
  let left p q x := g_dir g (vget b p) (vget b q) (vget b x) = Positive in
  let sq (p q : R * R) := ((fst p - fst q) * (fst p - fst q) + (snd p - snd q) * (snd p - snd q))%R in
  (forall p q x, left p q x -> (0 < (fst (Q q) - fst (Q p)) * (snd (Q x) - snd (Q p)) - (fst (Q x) - fst (Q p)) * (snd (Q q) - snd (Q p)))%R) ->
  (forall v, v < length (b_pts b) -> exists i j, Q v = (IZR i * d, IZR j * d)%R /\ (Rabs (fst (Q v)) <= M)%R /\ (Rabs (snd (Q v)) <= M)%R) ->
  (0 < d)%R -> (96 * (1 / IZR (10 ^ 100)) * (2 * (M * M) + M + 2) ^ 3 < d * d * d * d)%R ->
  bd_built g b polys -> pick_ok pk -> gift_wrap g pk fuel (pl_new b) = Ret r ->
  forall p q c x, is_Some (t_full r.1 !! (p, q, c)) -> x ∈ b_verts b -> left p q x -> midpoint_visible g b (p, q) x = Ret true ->
  forall (o : R * R) (k : R), sq (Q p) o = k -> sq (Q q) o = k -> sq (Q c) o = k -> (k <= sq (Q x) o)%R.
Proof. exact (gift_grid_plain g b polys pk fuel r d M). Qed.
Print Assumptions C114_grid_partial.
(** whole numbers up to 10^9 are such coordinates, and so are multiples of 10^-15 up to 10^4 *)
Example C114_grid_example : (96 * (1 / IZR (10 ^ 100)) * (2 * (IZR (10 ^ 9) * IZR (10 ^ 9)) + IZR (10 ^ 9) + 2) ^ 3 < 1 * 1 * 1 * 1)%R /\
  (96 * (1 / IZR (10 ^ 100)) * (2 * (IZR (10 ^ 4) * IZR (10 ^ 4)) + IZR (10 ^ 4) + 2) ^ 3 < / IZR (10 ^ 15) * / IZR (10 ^ 15) * / IZR (10 ^ 15) * / IZR (10 ^ 15))%R.
Proof. split; lra. Qed.

(** Inserting a vertex: when every inner edge away from [u] separates two corners that are not inside each other's
    circle (or the in-circle array is within 10^-100 of a singular one), the same holds afterwards.
    Missing: the edges that end in [u]. *)
Theorem C114_insert_partial (A : arith) (OL : ord_laws A) (g : geo A) fuel u t (st st' : plane A) :
  let P v : point A := xy_pt (vget (t_bound st) v) in
  let apart (T : gmap (nat * nat) nat) := forall a b y x, a <> u -> b <> u -> T !! (a, b) = Some y -> T !! (b, a) = Some x ->
    (a, b) ∉ b_set (t_bound st) -> (b, a) ∉ b_set (t_bound st) ->
    les (circle_det (P x) (P y) (P a) (P b)) s0 \/ near_circle (P y) (P a) (P b) (P x) \/ near_circle (P x) (P b) (P a) (P y) in
  insert_vertex g fuel u t st = Ret st' -> apart (t_tris st) -> t_bound st' = t_bound st /\ apart (t_tris st').
Proof. exact (insert_fair_plain OL g fuel u t st st'). Qed.
Print Assumptions C114_insert_partial.
(** the determinant above says which side of the circle the point is on *)
Theorem C114_side (A : arith) (OL : ord_laws A) (p a b c o : point A) (k : A) : lts s0 (cross a b c) ->
  dist2 a o = k -> dist2 b o = k -> dist2 c o = k -> les (circle_det p a b c) s0 <-> les k (dist2 p o).
Proof. exact (power_iff OL p a b c o k). Qed.
Print Assumptions C114_side.
(** the centre of the quadrilateral, inserted into one of its triangles *)
Example C114_insert_example : (r ← centre_in; Ret (bool_decide (t_tris r.2 !! (0, 1) = Some 4), bool_decide (t_tris r.2 !! (1, 3) = None), bool_decide (t_tris r.1 !! (1, 3) = Some 0 /\ t_tris r.1 !! (3, 1) = Some 2))) =
  Ret (true, true, true).
Proof. vm_refl. Qed.
