(** Proofs about the geometric predicates. *)
From Verif Require Export Predicates DetConst.

Section det4.
Context {A : arith} (FL : field_laws A).
Add Field Afield45 : (fl_field A FL).
Local Open Scope arith_scope.

Definition det3 (a b c d e f g h i : A) : A := a * (e * i - f * h) - b * (d * i - f * g) + c * (d * h - e * g).
Definition det4 (m : nat -> nat -> A) : A :=
  m 0%nat 0%nat * det3 (m 1%nat 1%nat) (m 1%nat 2%nat) (m 1%nat 3%nat) (m 2%nat 1%nat) (m 2%nat 2%nat) (m 2%nat 3%nat) (m 3%nat 1%nat) (m 3%nat 2%nat) (m 3%nat 3%nat)
  - m 0%nat 1%nat * det3 (m 1%nat 0%nat) (m 1%nat 2%nat) (m 1%nat 3%nat) (m 2%nat 0%nat) (m 2%nat 2%nat) (m 2%nat 3%nat) (m 3%nat 0%nat) (m 3%nat 2%nat) (m 3%nat 3%nat)
  + m 0%nat 2%nat * det3 (m 1%nat 0%nat) (m 1%nat 1%nat) (m 1%nat 3%nat) (m 2%nat 0%nat) (m 2%nat 1%nat) (m 2%nat 3%nat) (m 3%nat 0%nat) (m 3%nat 1%nat) (m 3%nat 3%nat)
  - m 0%nat 3%nat * det3 (m 1%nat 0%nat) (m 1%nat 1%nat) (m 1%nat 2%nat) (m 2%nat 0%nat) (m 2%nat 1%nat) (m 2%nat 2%nat) (m 3%nat 0%nat) (m 3%nat 1%nat) (m 3%nat 2%nat).

Lemma det4_function : det_function 4 det4.
Proof.
  split.
  - intros a b H. unfold det4, det3. rewrite !H by lia. reflexivity.
  - intros a r k u v Hr. unfold det4, det3.
    destruct r as [|[|[|[|r]]]]; [..|lia]; cbv [with_row Nat.eqb]; ring.
  - intros a r s Hr Hs Hrs H. unfold det4, det3.
    pose proof (H 0 ltac:(lia))%nat as H0. pose proof (H 1 ltac:(lia))%nat as H1.
    pose proof (H 2 ltac:(lia))%nat as H2. pose proof (H 3 ltac:(lia))%nat as H3. clear H.
    destruct r as [|[|[|[|r]]]]; [..|lia]; (destruct s as [|[|[|[|s]]]]; [..|lia]); try lia;
      rewrite H0, H1, H2, H3; ring.
  - unfold det4, det3, delta. repeat first [rewrite decide_True by reflexivity|rewrite decide_False by discriminate]. ring.
Qed.
End det4.

Section const_det.
Context {A : arith} (OL : ord_laws A).
Let FL : field_laws A := ol_field A OL.
Add Field Afield46 : (fl_field A FL).
Local Open Scope arith_scope.

Definition tab (n : nat) (rows : list (list A)) (r c : nat) : A := vel (concat rows) (n * r + c).

(** the value of a 4 by 4 determinant, or a failure for a nearly singular array *)
Lemma const_det_spec (rows : list (list A)) : length (concat rows) = 16%nat ->
  (const_det 4 rows = Ret (Ok (det4 (tab 4 rows))) /\ det4 (tab 4 rows) <> 0) \/
  (const_det 4 rows = Ret (Err Pivot) /\
   exists E, (forall r c, (r < 4)%nat -> (c < 4)%nat -> lts (sabs (E r c)) small_num) /\
             det4 (fun r c => tab 4 rows r c + E r c) = 0).
Proof.
  intros Hl. unfold const_det, cm_from_flat_array. cbn [fst snd]. rewrite Nat.eqb_refl. cbn [assert_ mbind out_bind].
  rewrite (same_det _ (cm_laws (4 * 4)) _ lm_laws _ _ (const_same 4 _ Hl)).
  assert (Hr : rep (LM 4 4 true (concat rows)) 4 4 (tab 4 rows)).
  { destruct (rep_from_flat 4 4 (concat rows) Hl) as (m & E & Hm). unfold lm_from_flat in E. cbn [fst snd] in E. rewrite Hl in E.
    cbn in E. injection E as <-. exact Hm. }
  assert (E : determinant (LM 4 4 true (concat rows)) = det_lu_pivot (LM 4 4 true (concat rows))) by reflexivity.
  rewrite E. destruct (det_lu_pivot_spec OL 4 det4 (det4_function FL) _ _ Hr) as [(v & Ev & -> & Hv)|(Ev & E' & H1 & H2)].
  - left. auto.
  - right. split; [exact Ev|]. exists E'. auto.
Qed.

(** ** The circle *)
Definition planar_pt (p : point A) : Prop := (2 <= p_n p)%nat.
Lemma row_circle_ret (p : point A) : planar_pt p -> row_circle p = Ret [p_x p; p_y p; ssq (p_x p) + ssq (p_y p); 1].
Proof.
  intros H. unfold row_circle, pt_idx, planar_pt in *. rewrite (proj2 (Nat.leb_gt (p_n p) 0)), (proj2 (Nat.leb_gt (p_n p) 1)) by lia. reflexivity.
Qed.

(** squared distance and twice the signed area, in the plane *)
Definition dist2 (p q : point A) : A := ssq (p_x p - p_x q) + ssq (p_y p - p_y q).
Definition cross (a b c : point A) : A :=
  (p_x b - p_x a) * (p_y c - p_y a) - (p_x c - p_x a) * (p_y b - p_y a).

Definition circle_det (p a b c : point A) : A :=
  det4 (tab 4 [[p_x a; p_y a; ssq (p_x a) + ssq (p_y a); 1]; [p_x b; p_y b; ssq (p_x b) + ssq (p_y b); 1];
               [p_x c; p_y c; ssq (p_x c) + ssq (p_y c); 1]; [p_x p; p_y p; ssq (p_x p) + ssq (p_y p); 1]]).

Lemma circle_power (p a b c o : point A) (k : A) : dist2 a o = k -> dist2 b o = k -> dist2 c o = k ->
  circle_det p a b c = cross a b c * (k - dist2 p o).
Proof.
  unfold dist2, circle_det, cross, tab, det4, det3, vel, ssq. cbn [concat app lookup list_lookup nth Nat.add Nat.mul default from_option id].
  intros Ha Hb Hc.
  set (ox := p_x o) in *. set (oy := p_y o) in *.
  assert (Qa : p_x a * p_x a + p_y a * p_y a = k - ox * ox - oy * oy + (1+1) * (ox * p_x a + oy * p_y a)) by (rewrite <- Ha; ring).
  assert (Qb : p_x b * p_x b + p_y b * p_y b = k - ox * ox - oy * oy + (1+1) * (ox * p_x b + oy * p_y b)) by (rewrite <- Hb; ring).
  assert (Qc : p_x c * p_x c + p_y c * p_y c = k - ox * ox - oy * oy + (1+1) * (ox * p_x c + oy * p_y c)) by (rewrite <- Hc; ring).
  rewrite Qa, Qb, Qc. ring.
Qed.

Lemma in_circle_ret (p a b c : point A) : planar_pt p -> planar_pt a -> planar_pt b -> planar_pt c ->
  in_circle p a b c = Ret (sltb 0 (circle_det p a b c)) \/
  (in_circle p a b c = Ret false /\
   exists E, (forall r k, (r < 4)%nat -> (k < 4)%nat -> lts (sabs (E r k)) small_num) /\
     det4 (fun r k => tab 4 [[p_x a; p_y a; ssq (p_x a) + ssq (p_y a); 1]; [p_x b; p_y b; ssq (p_x b) + ssq (p_y b); 1];
               [p_x c; p_y c; ssq (p_x c) + ssq (p_y c); 1]; [p_x p; p_y p; ssq (p_x p) + ssq (p_y p); 1]] r k + E r k) = 0).
Proof.
  intros Hp Ha Hb Hc. unfold in_circle. cbn [mapM_out]. rewrite !row_circle_ret by assumption. cbn [mbind out_bind].
  match goal with |- context [const_det 4 ?rows] => destruct (const_det_spec rows eq_refl) as [[-> Hv]|(-> & H)] end; cbn [mbind out_bind].
  - left. reflexivity.
  - right. split; [reflexivity|]. exact H.
Qed.

Lemma in_circle_inside (p a b c o : point A) (k : A) :
  planar_pt p -> planar_pt a -> planar_pt b -> planar_pt c -> lts 0 (cross a b c) ->
  dist2 a o = k -> dist2 b o = k -> dist2 c o = k ->
  in_circle p a b c = Ret true -> lts (dist2 p o) k.
Proof.
  intros Hp Ha Hb Hc Hx Da Db Dc E. destruct (in_circle_ret p a b c Hp Ha Hb Hc) as [E'|[E' _]]; [|congruence].
  rewrite E' in E. injection E as E. rewrite (circle_power p a b c o k Da Db Dc) in E. fold (lts 0 (cross a b c * (k - dist2 p o))) in E.
  apply (proj2 (lts_sub0 OL _ _)). destruct (lts_total OL 0 (k - dist2 p o)) as [H|[H|H]]; [exact H| |]; exfalso.
  - rewrite <- H in E. replace (cross a b c * 0) with (0 : A) in E by ring. now apply (lts_irr OL) in E.
  - apply (lts_asym OL _ _ E). apply (proj2 (neg_pos OL _)). replace (- (cross a b c * (k - dist2 p o))) with (cross a b c * (- (k - dist2 p o))) by ring.
    apply (mul_pos OL); [exact Hx|]. now apply (proj1 (neg_pos OL _)).
Qed.

Lemma in_circle_complete (p a b c o : point A) (k : A) :
  planar_pt p -> planar_pt a -> planar_pt b -> planar_pt c -> lts 0 (cross a b c) ->
  dist2 a o = k -> dist2 b o = k -> dist2 c o = k -> lts (dist2 p o) k ->
  in_circle p a b c = Ret true \/
  exists E, (forall r j, (r < 4)%nat -> (j < 4)%nat -> lts (sabs (E r j)) small_num) /\
     det4 (fun r j => tab 4 [[p_x a; p_y a; ssq (p_x a) + ssq (p_y a); 1]; [p_x b; p_y b; ssq (p_x b) + ssq (p_y b); 1];
               [p_x c; p_y c; ssq (p_x c) + ssq (p_y c); 1]; [p_x p; p_y p; ssq (p_x p) + ssq (p_y p); 1]] r j + E r j) = 0.
Proof.
  intros Hp Ha Hb Hc Hx Da Db Dc Hin. destruct (in_circle_ret p a b c Hp Ha Hb Hc) as [E'|[_ E']]; [|right; exact E'].
  left. rewrite E', (circle_power p a b c o k Da Db Dc). f_equal. apply (mul_pos OL); [exact Hx|]. now apply (proj1 (lts_sub0 OL _ _)).
Qed.

(** ** The circumcentre *)
Lemma circumcenter_ret (p q r : point A) : planar_pt p -> planar_pt q -> planar_pt r ->
  exists la lb, circumcenter p q r = Ret (intersect la lb) /\
    l_a la * l_b lb - l_a lb * l_b la = cross p q r /\
    (forall x y, l_a la * x + l_b la * y = l_c la <-> dist2 (pt2 x y) p = dist2 (pt2 x y) q) /\
    (forall x y, l_a lb * x + l_b lb * y = l_c lb <-> dist2 (pt2 x y) q = dist2 (pt2 x y) r).
Proof.
  intros Hp Hq Hr. unfold planar_pt in *.
  assert (I2 : forall u : point A, (2 <= p_n u)%nat -> pt_idx u 0 = Ret (p_x u) /\ pt_idx u 1 = Ret (p_y u)).
  { intros u Hu. unfold pt_idx. rewrite (proj2 (Nat.leb_gt (p_n u) 0)), (proj2 (Nat.leb_gt (p_n u) 1)) by lia. auto. }
  assert (two : (1 + 1 : A) <> 0).
  { apply not_eq_sym, (lts_neq OL). apply (lts_trans OL) with 1; [apply (one_pos OL)|]. replace (1 : A) with (0 + 1 : A) at 1 by ring.
    apply (lts_add OL), (one_pos OL). }
  assert (PB : forall u v : point A, (2 <= p_n u)%nat -> (2 <= p_n v)%nat -> exists l, perp_bisect u v = Ret l /\
     l_a l = p_x v - p_x u /\ l_b l = p_y v - p_y u /\
     forall x y, l_a l * x + l_b l * y = l_c l <-> dist2 (pt2 x y) u = dist2 (pt2 x y) v).
  { intros u v Hu Hv. unfold perp_bisect, from_segment. destruct (I2 u Hu) as [U0 U1], (I2 v Hv) as [V0 V1].
    rewrite U0, U1, V0, V1. cbn [mbind out_bind].
    destruct (I2 (pt_mid u v)) as [M0 M1]; [cbn; lia|]. rewrite M0, M1. cbn [mbind out_bind l_a l_b l_c pt_mid p_x p_y].
    eexists. split; [reflexivity|]. cbn [l_a l_b l_c]. split; [ring|]. split; [reflexivity|].
    intros x y. unfold dist2, pt2, ssq, Spatial.s2. cbn [p_x p_y]. change (sz 2) with (1 + 1 : A).
    set (t := - (1) * (p_x u - p_x v) * x + (p_y v - p_y u) * y -
       (- (1) * (p_x u - p_x v) * ((p_x u + p_x v) / (1 + 1)) + (p_y v - p_y u) * ((p_y u + p_y v) / (1 + 1)))).
    assert (Ht : (x - p_x u) * (x - p_x u) + (y - p_y u) * (y - p_y u) - ((x - p_x v) * (x - p_x v) + (y - p_y v) * (y - p_y v)) = (1 + 1) * t)
      by (unfold t; field; exact two).
    split; intros E.
    - assert (t = 0) as Z by (unfold t; rewrite E; ring). rewrite Z in Ht.
      transitivity ((1 + 1) * 0 + ((x - p_x v) * (x - p_x v) + (y - p_y v) * (y - p_y v))); [rewrite <- Ht; ring|ring].
    - rewrite E in Ht. assert (Z : (1 + 1) * t = 0) by (rewrite <- Ht; ring).
      apply (mul_eq_0 OL) in Z as [Z|Z]; [contradiction|]. unfold t in Z.
      match goal with |- ?a = ?b => transitivity (a - b + b); [ring|rewrite Z; ring] end. }
  destruct (PB p q Hp Hq) as (la & Ea & A1 & A2 & A3). destruct (PB q r Hq Hr) as (lb & Eb & B1 & B2 & B3).
  exists la, lb. unfold circumcenter. rewrite Ea, Eb. cbn [mbind out_bind]. split; [reflexivity|].
  split; [rewrite A1, A2, B1, B2; unfold cross; ring|]. auto.
Qed.

Lemma circumcenter_some (p q r c : point A) : planar_pt p -> planar_pt q -> planar_pt r ->
  circumcenter p q r = Ret (Some c) -> p_n c = 2%nat /\ cross p q r <> 0 /\ dist2 c p = dist2 c q /\ dist2 c q = dist2 c r.
Proof.
  intros Hp Hq Hr E. destruct (circumcenter_ret p q r Hp Hq Hr) as (la & lb & E' & Hd & Ha & Hb). rewrite E' in E. injection E as E.
  unfold intersect in E. destruct (seqb _ 0) eqn:Ez; [discriminate|]. injection E as <-.
  assert (Nz : l_a la * l_b lb - l_a lb * l_b la <> 0).
  { intros H. apply (fl_eqb A FL) in H. congruence. }
  split; [reflexivity|]. split; [now rewrite <- Hd|]. split; [apply Ha|apply Hb]; field; exact Nz.
Qed.

Lemma circumcenter_none (p q r : point A) : planar_pt p -> planar_pt q -> planar_pt r ->
  circumcenter p q r = Ret None <-> cross p q r = 0.
Proof.
  intros Hp Hq Hr. destruct (circumcenter_ret p q r Hp Hq Hr) as (la & lb & E' & Hd & _). rewrite E'. unfold intersect.
  rewrite Hd. destruct (seqb (cross p q r) 0) eqn:Ez; split; intros H; try congruence.
  - now apply (fl_eqb A FL).
  - apply (fl_eqb A FL) in H. congruence.
Qed.

(** ** Barycentric coordinates *)
Lemma bary_ret (p p1 p2 p3 : point A) : p_n p = 2%nat -> p_n p1 = 2%nat -> p_n p2 = 2%nat -> p_n p3 = 2%nat ->
  cross p1 p2 p3 <> 0 -> exists a b c, bary_coor p p1 p2 p3 = Ret (a, b, c) /\ a + b + c = 1 /\
    a * p_x p1 + b * p_x p2 + c * p_x p3 = p_x p /\ a * p_y p1 + b * p_y p2 + c * p_y p3 = p_y p.
Proof.
  destruct p as [n x y z], p1 as [n1 x1 y1 z1], p2 as [n2 x2 y2 z2], p3 as [n3 x3 y3 z3]. unfold cross. cbn [p_n p_x p_y].
  intros -> -> -> -> Hx. eexists _, _, _. split; [reflexivity|]. cbn [fst snd p_x p_y].
  assert (Hd : (y2 - y3) * (x1 - x3) + (x3 - x2) * (y1 - y3) <> 0).
  { intros H. apply Hx. rewrite <- H. ring. }
  repeat split; field; exact Hd.
Qed.
Lemma bary_unique (p p1 p2 p3 : point A) (a b c a' b' c' : A) : cross p1 p2 p3 <> 0 ->
  a + b + c = 1 -> a * p_x p1 + b * p_x p2 + c * p_x p3 = p_x p -> a * p_y p1 + b * p_y p2 + c * p_y p3 = p_y p ->
  a' + b' + c' = 1 -> a' * p_x p1 + b' * p_x p2 + c' * p_x p3 = p_x p -> a' * p_y p1 + b' * p_y p2 + c' * p_y p3 = p_y p ->
  a = a' /\ b = b' /\ c = c'.
Proof.
  unfold cross. set (x1 := p_x p1). set (y1 := p_y p1). set (x2 := p_x p2). set (y2 := p_y p2). set (x3 := p_x p3). set (y3 := p_y p3).
  set (x := p_x p). set (y := p_y p). intros Hd H1 H2 H3 H1' H2' H3'.
  assert (K : forall a b c : A, a + b + c = 1 -> a * x1 + b * x2 + c * x3 = x -> a * y1 + b * y2 + c * y3 = y ->
     b * ((x2 - x1) * (y3 - y1) - (x3 - x1) * (y2 - y1)) = (x - x1) * (y3 - y1) - (x3 - x1) * (y - y1) /\
     c * ((x2 - x1) * (y3 - y1) - (x3 - x1) * (y2 - y1)) = (x2 - x1) * (y - y1) - (x - x1) * (y2 - y1)).
  { intros u v w E1' <- <-. assert (u = 1 - v - w) as -> by (rewrite <- E1'; ring). split; ring. }
  destruct (K a b c H1 H2 H3) as [Kb Kc]. destruct (K a' b' c' H1' H2' H3') as [Kb' Kc'].
  assert (Cn : forall u v w : A, w <> 0 -> u * w = v * w -> u = v).
  { intros u v w Hw E. transitivity (u * w / w); [field; exact Hw|]. rewrite E. field. exact Hw. }
  assert (b = b') by (apply (Cn _ _ _ Hd); congruence). assert (c = c') by (apply (Cn _ _ _ Hd); congruence).
  split; [|auto]. subst. transitivity (1 - b' - c'); [rewrite <- H1|rewrite <- H1']; ring.
Qed.

Lemma sleb_les (x y : A) : sleb x y = true <-> les x y.
Proof.
  unfold sleb. rewrite orb_true_iff, (les_iff OL), (fl_eqb A FL). reflexivity.
Qed.
Lemma in_triangle_iff (p p1 p2 p3 : point A) : p_n p = 2%nat -> p_n p1 = 2%nat -> p_n p2 = 2%nat -> p_n p3 = 2%nat ->
  cross p1 p2 p3 <> 0 -> exists v, in_triangle p p1 p2 p3 = Ret v /\
    (v = true <-> exists a b c, les 0 a /\ les 0 b /\ les 0 c /\ a + b + c = 1 /\
       a * p_x p1 + b * p_x p2 + c * p_x p3 = p_x p /\ a * p_y p1 + b * p_y p2 + c * p_y p3 = p_y p).
Proof.
  intros Hp H1 H2 H3 Hx. destruct (bary_ret p p1 p2 p3 Hp H1 H2 H3 Hx) as (a & b & c & E & Hs & Ex & Ey).
  unfold in_triangle. rewrite E. cbn [mbind out_bind fst snd]. eexists. split; [reflexivity|].
  unfold in_unit. rewrite !andb_true_iff, !sleb_les. split.
  - intros H. exists a, b, c. tauto.
  - intros (a' & b' & c' & Pa & Pb & Pc & Hs' & Ex' & Ey').
    destruct (bary_unique p p1 p2 p3 a b c a' b' c' Hx Hs Ex Ey Hs' Ex' Ey') as (<- & <- & <-).
    assert (U : forall u v w : A, les 0 v -> les 0 w -> u + v + w = 1 -> les u 1).
    { intros u v w Hv Hw Hsum. apply (proj2 (les_sub0 OL _ _)). replace (1 - u) with (v + w) by (rewrite <- Hsum; ring).
      replace (0 : A) with (0 + 0 : A) by ring. now apply (les_add2 OL). }
    repeat split; try assumption; [apply (U a b c)|apply (U b a c)|apply (U c a b)]; try assumption; rewrite <- Hs; ring.
Qed.

(** ** Orientation of a tetrahedron *)
Definition rows3 (a b c d : point A) : list (list A) :=
  [[p_x a; p_y a; p_z a; 1]; [p_x b; p_y b; p_z b; 1]; [p_x c; p_y c; p_z c; 1]; [p_x d; p_y d; p_z d; 1]].
(** six times the signed volume: the triple product of the edges from [d] *)
Definition volume6 (a b c d : point A) : A :=
  det3 (p_x a - p_x d) (p_y a - p_y d) (p_z a - p_z d) (p_x b - p_x d) (p_y b - p_y d) (p_z b - p_z d)
       (p_x c - p_x d) (p_y c - p_y d) (p_z c - p_z d).
Lemma volume6_det a b c d : det4 (tab 4 (rows3 a b c d)) = volume6 a b c d.
Proof.
  unfold volume6, det4, det3, tab, rows3, vel. cbn. ring.
Qed.
Lemma tetrahedron_ret (a b c d : point A) : p_n a = 3%nat -> p_n b = 3%nat -> p_n c = 3%nat -> p_n d = 3%nat ->
  (lts 0 (volume6 a b c d) /\ tetrahedron_dir a b c d = Ret Positive) \/
  (lts (volume6 a b c d) 0 /\ tetrahedron_dir a b c d = Ret Negative) \/
  (tetrahedron_dir a b c d = Ret Zero /\
   exists E, (forall r k, (r < 4)%nat -> (k < 4)%nat -> lts (sabs (E r k)) small_num) /\
     det4 (fun r k => tab 4 (rows3 a b c d) r k + E r k) = 0).
Proof.
  intros Ha Hb Hc Hd. unfold tetrahedron_dir. cbn [mapM_out].
  assert (R : forall p : point A, p_n p = 3%nat -> row3 p = Ret [p_x p; p_y p; p_z p; 1]).
  { intros p Hp. unfold row3, pt_idx. rewrite Hp. reflexivity. }
  rewrite !R by assumption. cbn [mbind out_bind]. fold (rows3 a b c d).
  destruct (const_det_spec (rows3 a b c d) eq_refl) as [[-> Hv]|(-> & H)]; cbn [mbind out_bind].
  - rewrite volume6_det in *. destruct (seqb _ 0) eqn:Ez; [apply (fl_eqb A FL) in Ez; contradiction|].
    destruct (lts_total OL 0 (volume6 a b c d)) as [P|[P|P]].
    + left. split; [exact P|]. unfold lts in P. now rewrite P.
    + congruence.
    + right. left. split; [exact P|]. apply (lts_asym OL) in P. unfold lts in P. apply not_true_is_false in P. now rewrite P.
  - right. right. split; [reflexivity|exact H].
Qed.
End const_det.
