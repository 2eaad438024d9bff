(** C61 - C63, C73: geometric predicates. *)
From Verif Require Import PredProofs InstQc.

(** *** C61 — the circumcentre is equidistant from the three points, and is reported exactly
    when they are not collinear *)
Theorem C61_equidistant (A : arith) (OL : ord_laws A) (p q r c : point A) :
  2 <= p_n p -> 2 <= p_n q -> 2 <= p_n r -> circumcenter p q r = Ret (Some c) ->
  p_n c = 2 /\ dist2 c p = dist2 c q /\ dist2 c q = dist2 c r.
Proof. intros Hp Hq Hr E. destruct (circumcenter_some OL p q r c Hp Hq Hr E) as (H1 & _ & H). auto. Qed.
Print Assumptions C61_equidistant.
Theorem C61_reported (A : arith) (OL : ord_laws A) (p q r : point A) :
  2 <= p_n p -> 2 <= p_n q -> 2 <= p_n r ->
  exists o, circumcenter p q r = Ret o /\ (o = None <-> cross p q r = s0).
Proof.
  intros Hp Hq Hr. destruct (circumcenter_ret OL p q r Hp Hq Hr) as (la & lb & E & _).
  exists (intersect la lb). split; [exact E|]. rewrite <- (circumcenter_none OL p q r Hp Hq Hr), E.
  split; [now intros ->|congruence].
Qed.
Print Assumptions C61_reported.
(** the circumcentre of (0,0), (4,0), (0,2), and three points of a line *)
Definition qp (x y : Z) : point Qc_arith := pt2 (qc x) (qc y).
Example C61_example : circumcenter (qp 0 0) (qp 4 0) (qp 0 2) = Ret (Some (qp 2 1)) /\
  circumcenter (qp 0 0) (qp 1 1) (qp 3 3) = Ret None.
Proof. split; vm_refl. Qed.

(** *** C62 — barycentric coordinates sum to one and reproduce the point; the containment test
    accepts exactly the convex combinations of the corners *)
Theorem C62_barycentric (A : arith) (OL : ord_laws A) (p p1 p2 p3 : point A) :
  p_n p = 2 -> p_n p1 = 2 -> p_n p2 = 2 -> p_n p3 = 2 -> cross p1 p2 p3 <> s0 ->
  exists a b c, bary_coor p p1 p2 p3 = Ret (a, b, c) /\ sadd (sadd a b) c = s1 /\
    sadd (sadd (smul a (p_x p1)) (smul b (p_x p2))) (smul c (p_x p3)) = p_x p /\
    sadd (sadd (smul a (p_y p1)) (smul b (p_y p2))) (smul c (p_y p3)) = p_y p.
Proof. exact (bary_ret OL p p1 p2 p3). Qed.
Print Assumptions C62_barycentric.
Theorem C62_containment (A : arith) (OL : ord_laws A) (p p1 p2 p3 : point A) :
  p_n p = 2 -> p_n p1 = 2 -> p_n p2 = 2 -> p_n p3 = 2 -> cross p1 p2 p3 <> s0 ->
  exists v, in_triangle p p1 p2 p3 = Ret v /\
    (v = true <-> exists a b c : A, les s0 a /\ les s0 b /\ les s0 c /\ sadd (sadd a b) c = s1 /\
       sadd (sadd (smul a (p_x p1)) (smul b (p_x p2))) (smul c (p_x p3)) = p_x p /\
       sadd (sadd (smul a (p_y p1)) (smul b (p_y p2))) (smul c (p_y p3)) = p_y p).
Proof. exact (in_triangle_iff OL p p1 p2 p3). Qed.
Print Assumptions C62_containment.
(** a corner, an inner point, a point beyond the long side *)
Example C62_example : cross (qp 0 0) (qp 4 0) (qp 0 2) = qc 8 /\
  in_triangle (qp 0 2) (qp 0 0) (qp 4 0) (qp 0 2) = Ret true /\
  in_triangle (pt2 (qcd 1 2) (qcd 1 3)) (qp 0 0) (qp 4 0) (qp 0 2) = Ret true /\
  in_triangle (qp 3 1) (qp 0 0) (qp 4 0) (qp 0 2) = Ret false.
Proof. repeat split; vm_refl. Qed.

(** *** C63 — in-circle and in-sphere tests *)
Theorem C63_circle (A : arith) (OL : ord_laws A) (p a b c o : point A) (k : A) :
  2 <= p_n p -> 2 <= p_n a -> 2 <= p_n b -> 2 <= p_n c -> lts s0 (cross a b c) ->
  dist2 a o = k -> dist2 b o = k -> dist2 c o = k ->
  in_circle p a b c = Ret true -> lts (dist2 p o) k.
Proof. exact (in_circle_inside OL p a b c o k). Qed.
Print Assumptions C63_circle.
(** conversely a point strictly inside is accepted, unless the determinant met a pivot below
    the threshold: then changing the entries by less than the threshold makes it singular *)
Theorem C63_circle_complete (A : arith) (OL : ord_laws A) (p a b c o : point A) (k : A) :
  2 <= p_n p -> 2 <= p_n a -> 2 <= p_n b -> 2 <= p_n c -> lts s0 (cross a b c) ->
  dist2 a o = k -> dist2 b o = k -> dist2 c o = k -> lts (dist2 p o) k ->
  in_circle p a b c = Ret true \/
  exists E, (forall r j, r < 4 -> j < 4 -> lts (sabs (E r j)) small_num) /\
    det4 (fun r j => sadd (tab 4 [[p_x a; p_y a; sadd (ssq (p_x a)) (ssq (p_y a)); s1];
                                  [p_x b; p_y b; sadd (ssq (p_x b)) (ssq (p_y b)); s1];
                                  [p_x c; p_y c; sadd (ssq (p_x c)) (ssq (p_y c)); s1];
                                  [p_x p; p_y p; sadd (ssq (p_x p)) (ssq (p_y p)); s1]] r j) (E r j)) = s0.
Proof. exact (in_circle_complete OL p a b c o k). Qed.
Print Assumptions C63_circle_complete.
Example C63_example : cross (qp 0 0) (qp 4 0) (qp 0 2) = qc 8 /\
  dist2 (qp 0 0) (qp 2 1) = qc 5 /\ dist2 (qp 4 0) (qp 2 1) = qc 5 /\ dist2 (qp 0 2) (qp 2 1) = qc 5 /\
  in_circle (qp 3 2) (qp 0 0) (qp 4 0) (qp 0 2) = Ret true /\
  in_circle (qp 4 2) (qp 0 0) (qp 4 0) (qp 0 2) = Ret false /\
  in_circle (qp 5 2) (qp 0 0) (qp 4 0) (qp 0 2) = Ret false.
Proof. repeat split; vm_refl. Qed.

(** The sphere test is false of the code: it squares the second coordinate twice and the third
    never.  Both points below are strictly inside the unit sphere through the four corners, yet
    the test answers differently; and it accepts a point far outside. *)
Definition qp3 (x y z : Qc_arith) : point Qc_arith := Pt 3 x y z.
Definition dist2_3 (p q : point Qc_arith) : Qc_arith :=
  sadd (sadd (ssq (ssub (p_x p) (p_x q))) (ssq (ssub (p_y p) (p_y q)))) (ssq (ssub (p_z p) (p_z q))).
Theorem C63_refuted : exists a b c d o p q r : point Qc_arith,
  Forall (fun u => dist2_3 u o = s1) [a; b; c; d] /\ volume6 a b c d <> s0 /\
  lts (dist2_3 p o) s1 /\ lts (dist2_3 q o) s1 /\ lts s1 (dist2_3 r o) /\
  in_sphere p a b c d = Ret true /\ in_sphere q a b c d = Ret false /\ in_sphere r a b c d = Ret true.
Proof.
  exists (qp3 (qc 1) (qc 0) (qc 0)), (qp3 (qc 0) (qc 1) (qc 0)), (qp3 (qc 0) (qc 0) (qc 1)), (qp3 (qc (-1)) (qc 0) (qc 0)).
  exists (qp3 (qc 0) (qc 0) (qc 0)), (qp3 (qc 0) (qc 0) (qcd (-1) 2)), (qp3 (qc 0) (qcd (-9) 10) (qc 0)), (qp3 (qc 0) (qc 0) (qc (-5))).
  split; [repeat constructor; vm_refl|]. split; [apply qc_neq; vm_refl|]. unfold lts. repeat split; vm_refl.
Qed.
Print Assumptions C63_refuted.

(** *** C73 — the orientation of a tetrahedron is the sign of its volume; "zero" is answered only
    when changing the coordinates by less than the pivot threshold makes the array singular *)
Theorem C73_orientation (A : arith) (OL : ord_laws A) (a b c d : point A) :
  p_n a = 3 -> p_n b = 3 -> p_n c = 3 -> p_n d = 3 ->
  (lts s0 (volume6 a b c d) /\ tetrahedron_dir a b c d = Ret Positive) \/
  (lts (volume6 a b c d) s0 /\ tetrahedron_dir a b c d = Ret Negative) \/
  (tetrahedron_dir a b c d = Ret Zero /\
   exists E, (forall r k, r < 4 -> k < 4 -> lts (sabs (E r k)) small_num) /\
     det4 (fun r k => sadd (tab 4 (rows3 a b c d) r k) (E r k)) = s0).
Proof. exact (tetrahedron_ret OL a b c d). Qed.
Print Assumptions C73_orientation.
Example C73_example :
  let o := qp3 (qc 0) (qc 0) (qc 0) in let x := qp3 (qc 1) (qc 0) (qc 0) in
  let y := qp3 (qc 0) (qc 1) (qc 0) in let z := qp3 (qc 0) (qc 0) (qc 1) in
  volume6 x y z o = qc 1 /\ tetrahedron_dir x y z o = Ret Positive /\ tetrahedron_dir y x z o = Ret Negative /\
  tetrahedron_dir x y (qp3 (qc 1) (qc 1) (qc 0)) o = Ret Zero.
Proof. repeat split; vm_refl. Qed.
