(** The circle property of the triangulation: the apex chosen for an edge. *)
From Verif Require Export GiftProofs PredProofs.
From Verif Require Import MeshEx.
From Coq Require Import Ring.

(** ** Vertices above an edge, ordered by the circles through the edge *)
Section pencil.
Context {A : arith} (OL : ord_laws A).
Let FL : field_laws A := ol_field A OL.
Add Field Afield63 : (fl_field A FL).
Local Open Scope arith_scope.

(** the array of the in-circle test is within 1e-100, entry by entry, of a singular one *)
Definition near_circle (a b c p : point A) : Prop :=
  exists E, (forall r k, (r < 4)%nat -> (k < 4)%nat -> lts (sabs (E r k)) small_num) /\
    det4 (fun r k => tab 4 [[p_x a; p_y a; ssq (p_x a) + ssq (p_y a); 1]; [p_x b; p_y b; ssq (p_x b) + ssq (p_y b); 1];
              [p_x c; p_y c; ssq (p_x c) + ssq (p_y c); 1]; [p_x p; p_y p; ssq (p_x p) + ssq (p_y p); 1]] r k + E r k) = 0.

Lemma circle_swap (a b p c : point A) : circle_det c a b p = - circle_det p a b c.
Proof.
  unfold circle_det, tab, det4, det3, vel, ssq. cbn [concat app lookup list_lookup nth Nat.add Nat.mul default from_option id]. ring.
Qed.
Lemma circle_chain (a b u w p : point A) :
  cross a b u * circle_det p a b w = cross a b p * circle_det u a b w + cross a b w * circle_det p a b u.
Proof.
  unfold circle_det, cross, tab, det4, det3, vel, ssq. cbn [concat app lookup list_lookup nth Nat.add Nat.mul default from_option id]. ring.
Qed.
Lemma les_mul_neg (x y : A) : lts 0 x -> les y 0 -> les (x * y) 0.
Proof.
  intros Hx Hy. unfold les in *. destruct (sltb 0 (x * y)) eqn:E; [|reflexivity]. exfalso.
  destruct (lts_total OL 0 y) as [H|[H|H]].
  - unfold lts in H. congruence.
  - subst y. replace (x * 0) with (0 : A) in E by ring. now apply (lts_irr OL) in E.
  - assert (lts 0 (x * - y)) by (apply (mul_pos OL); [exact Hx|now apply (proj1 (neg_pos OL _))]).
    apply (lts_asym OL _ _ E). apply (proj2 (neg_pos OL _)). replace (- (x * y)) with (x * - y) by ring. assumption.
Qed.
Lemma les_mul_back (x y : A) : lts 0 x -> les (x * y) 0 -> les y 0.
Proof.
  intros Hx H. unfold les in *. destruct (sltb 0 y) eqn:E; [|reflexivity]. rewrite (mul_pos OL x y Hx E) in H. discriminate.
Qed.
End pencil.

(** ** The apex *)
Section apex.
Context {A : arith} (OL : ord_laws A) (g : geo A).
Implicit Types st : plane A.
Let FL : field_laws A := ol_field A OL.
Add Field Afield64 : (fl_field A FL).
Local Open Scope arith_scope.

(** the moved position of a vertex, as a point *)
Definition moved st (v : vertex) : point A := xy_pt (perturbed g st v).
(** the orientation test never calls a corner left of an edge whose moved corners turn right *)
Definition sound_dir st : Prop := forall a b c, to_left g st (a, b) c = true -> lts 0 (cross (moved st a) (moved st b) (moved st c)).
(** [x] is not strictly inside the circle of the edge and [c], or the test of [x] against the circle of the
    edge and some other vertex, itself not inside the first circle, degenerated *)
Definition outside_for st (e : edge) (c x : vertex) : Prop :=
  les (circle_det (moved st x) (moved st e.1) (moved st e.2) (moved st c)) 0 \/
  exists w, w ∈ all_vertices st /\ to_left g st e w = true /\ near_circle (moved st e.1) (moved st e.2) (moved st w) (moved st x) /\
            les (circle_det (moved st w) (moved st e.1) (moved st e.2) (moved st c)) 0.
Definition seen_from st (e : edge) (vis : bool) (x : vertex) : Prop :=
  if vis then midpoint_visible g (t_bound st) e x = Ret true else True.

Lemma power_step st e c c' x : sound_dir st -> to_left g st e c = true -> to_left g st e c' = true -> to_left g st e x = true ->
  lts 0 (circle_det (moved st c') (moved st e.1) (moved st e.2) (moved st c)) ->
  les (circle_det (moved st x) (moved st e.1) (moved st e.2) (moved st c)) 0 -> les (circle_det (moved st x) (moved st e.1) (moved st e.2) (moved st c')) 0.
Proof.
  intros Hs Hc Hc' Hx Hin H. destruct e as [a b]. cbn [fst snd] in *.
  apply Hs in Hc, Hc', Hx.
  apply (les_mul_back OL (cross (moved st a) (moved st b) (moved st c))); [exact Hc|].
  rewrite (circle_chain OL). apply (les_trans OL _ (0 + 0)); [|replace (0 + 0) with (0 : A) by ring; apply (les_refl OL)].
  apply (les_add2 OL).
  - apply (les_mul_neg OL); [exact Hx|]. rewrite (circle_swap OL). apply (lts_les OL). apply (proj2 (neg_pos OL _)).
    match goal with |- lts 0 (- - ?z) => replace (- - z) with z by ring end. exact Hin.
  - apply (les_mul_neg OL); [exact Hc'|exact H].
Qed.

Lemma outside_step st e c c' x : sound_dir st -> to_left g st e c = true -> to_left g st e c' = true -> to_left g st e x = true ->
  lts 0 (circle_det (moved st c') (moved st e.1) (moved st e.2) (moved st c)) -> outside_for st e c x -> outside_for st e c' x.
Proof.
  intros Hs Hc Hc' Hx Hin [H|(w & Hw & Hl & Hn & H)]; [left|right; exists w; split; [exact Hw|split; [exact Hl|split; [exact Hn|]]]];
    now apply (power_step st e c c').
Qed.
Lemma circle_self (a b p : point A) : circle_det p a b p = 0.
Proof.
  unfold circle_det, tab, det4, det3, vel, ssq. cbn [concat app lookup list_lookup nth Nat.add Nat.mul default from_option id]. ring.
Qed.

Lemma circle_test st e c x : pl_in_circle g st (e.1, e.2, c) x true = Ret (sltb 0 (circle_det (moved st x) (moved st e.1) (moved st e.2) (moved st c))) \/
  (pl_in_circle g st (e.1, e.2, c) x true = Ret false /\ near_circle (moved st e.1) (moved st e.2) (moved st c) (moved st x)).
Proof.
  unfold pl_in_circle. cbn [fst snd].
  destruct (in_circle_ret OL (moved st x) (moved st e.1) (moved st e.2) (moved st c)) as [H|[H1 H2]]; try (unfold planar_pt; cbn; lia); auto.
Qed.

Lemma search_best st e vis r : sound_dir st -> search g st e vis = Ret r ->
  match r with
  | Some c => (c ∈ all_vertices st /\ to_left g st e c = true) /\ seen_from st e vis c /\
              forall x, x ∈ all_vertices st -> to_left g st e x = true -> seen_from st e vis x -> outside_for st e c x
  | None => forall x, x ∈ all_vertices st -> to_left g st e x = true -> ~ seen_from st e vis x
  end.
Proof.
  intros Hs E. unfold search in E.
  refine (foldM_ret_inv (fun pre (o : option nat) => match o with
    | Some c => (c ∈ all_vertices st /\ to_left g st e c = true) /\ seen_from st e vis c /\
                forall x, x ∈ pre -> to_left g st e x = true -> seen_from st e vis x -> outside_for st e c x
    | None => forall x, x ∈ pre -> to_left g st e x = true -> ~ seen_from st e vis x end) _ _ _ _ _ _ E).
  2: { intros x Hx. now apply elem_of_nil in Hx. }
  intros pre v post s s' Hl H Hf. assert (Hv : v ∈ all_vertices st) by (rewrite Hl; apply elem_of_app; right; left).
  destruct (to_left g st e v) eqn:Ev.
  2: { injection Hf as <-. destruct s as [c|].
       - destruct H as (H1 & H2 & H3). split; [exact H1|]. split; [exact H2|]. intros x [Hx|Hx]%elem_of_app; [eauto|].
         apply elem_of_list_singleton in Hx as ->. congruence.
       - intros x [Hx|Hx]%elem_of_app; [eauto|]. apply elem_of_list_singleton in Hx as ->. congruence. }
  apply bind_ret_inv in Hf as (ok & Hok & Hf).
  assert (Hn : ok = true -> exists seen, (if vis then midpoint_visible g (t_bound st) e v else Ret true) = Ret seen /\ s' = if (seen : bool) then Some v else s).
  { intros ->. apply bind_ret_inv in Hf as (seen & ? & Hf). exists seen. split; [assumption|]. now injection Hf as <-. }
  destruct s as [c|].
  - destruct H as (H1 & H2 & H3).
    assert (Hself : outside_for st e v v).
    { left. rewrite circle_self. apply (les_refl OL). }
    destruct (circle_test st e c v) as [Ht|[Ht Hnear]]; rewrite Ht in Hok; injection Hok as <-.
    + destruct (sltb 0 _) eqn:Hin.
      * destruct (Hn eq_refl) as (seen & Hse & ->). destruct seen.
        -- split; [split; [exact Hv|exact Ev]|]. split; [unfold seen_from; destruct vis; [exact Hse|exact I]|].
           intros x [Hx|Hx]%elem_of_app Hlx Hsx.
           ++ apply (outside_step st e c v x Hs (proj2 H1) Ev Hlx Hin). now apply H3.
           ++ apply elem_of_list_singleton in Hx as ->. exact Hself.
        -- split; [exact H1|]. split; [exact H2|]. intros x [Hx|Hx]%elem_of_app Hlx Hsx; [eauto|].
           apply elem_of_list_singleton in Hx as ->. unfold seen_from in Hsx. destruct vis; [congruence|discriminate].
      * injection Hf as <-. split; [exact H1|]. split; [exact H2|]. intros x [Hx|Hx]%elem_of_app Hlx Hsx; [eauto|].
        apply elem_of_list_singleton in Hx as ->. left. exact Hin.
    + injection Hf as <-. split; [exact H1|]. split; [exact H2|]. intros x [Hx|Hx]%elem_of_app Hlx Hsx; [eauto|].
      apply elem_of_list_singleton in Hx as ->. right. exists c. split; [apply H1|]. split; [apply H1|]. split; [exact Hnear|].
      rewrite circle_self. apply (les_refl OL).
  - injection Hok as <-. destruct (Hn eq_refl) as (seen & Hse & ->). destruct seen.
    + split; [split; [exact Hv|exact Ev]|]. split; [unfold seen_from; destruct vis; [exact Hse|exact I]|].
      intros x [Hx|Hx]%elem_of_app Hlx Hsx; [exfalso; eapply H; eauto|]. apply elem_of_list_singleton in Hx as ->.
      left. rewrite circle_self. apply (les_refl OL).
    + intros x [Hx|Hx]%elem_of_app Hlx Hsx; [eapply H; eauto|]. apply elem_of_list_singleton in Hx as ->.
      unfold seen_from in Hsx. destruct vis; [congruence|discriminate].
Qed.

(** the whole of gift_wrap_finish: the apex beats every vertex that sees the edge *)
Lemma finish_best st e r : sound_dir st -> gift_wrap_finish g st e = Ret r ->
  match r with
  | Some (t, _, _) => exists c, t = (e.1, e.2, c) /\ c ∈ all_vertices st /\ to_left g st e c = true /\ midpoint_visible g (t_bound st) e c = Ret true /\
      forall x, x ∈ all_vertices st -> to_left g st e x = true -> midpoint_visible g (t_bound st) e x = Ret true -> outside_for st e c x
  | None => forall x, x ∈ all_vertices st -> to_left g st e x = true -> midpoint_visible g (t_bound st) e x <> Ret true
  end.
Proof.
  intros Hs E. unfold gift_wrap_finish in E. apply bind_ret_inv in E as (r0 & E0 & E). pose proof (search_best st e false r0 Hs E0) as H0.
  destruct r0 as [v|].
  2: { injection E as <-. intros x Hx Hl _. exact (H0 x Hx Hl I). }
  apply bind_ret_inv in E as (seen & Hse & E). apply bind_ret_inv in E as (r1 & E1 & E). injection E as <-. destruct seen.
  - injection E1 as <-. cbn. exists v. destruct H0 as ((? & ?) & _ & H0). repeat split; auto. intros x Hx Hl _. now apply H0.
  - pose proof (search_best st e true r1 Hs E1) as H1. destruct r1 as [c|]; cbn.
    + exists c. destruct H1 as ((? & ?) & ? & H1). repeat split; auto.
    + exact H1.
Qed.

(** a triangle whose apex beats every vertex that sees its first edge *)
Definition best_apex st (t : tri) : Prop :=
  to_left g st t.1 t.2 = true /\ midpoint_visible g (t_bound st) t.1 t.2 = Ret true /\
  forall x, x ∈ all_vertices st -> to_left g st t.1 x = true -> midpoint_visible g (t_bound st) t.1 x = Ret true -> outside_for st t.1 t.2 x.
Definition no_apex st (e : edge) : Prop :=
  forall x, x ∈ all_vertices st -> to_left g st e x = true -> midpoint_visible g (t_bound st) e x <> Ret true.

Lemma best_same st st' t : same_verts st st' -> best_apex st t -> best_apex st' t.
Proof.
  intros [Hb Hv] H. unfold best_apex, outside_for, moved, perturbed, to_left, triangle_dir, tget, all_vertices in *. rewrite Hb, Hv. exact H.
Qed.
Lemma none_same st st' e : same_verts st st' -> no_apex st e -> no_apex st' e.
Proof. intros [Hb Hv] H. unfold no_apex, to_left, triangle_dir, tget, all_vertices in *. rewrite Hb, Hv. exact H. Qed.
Lemma sound_same st st' : same_verts st st' -> sound_dir st -> sound_dir st'.
Proof. intros [Hb Hv] H. unfold sound_dir, moved, perturbed, to_left, triangle_dir, tget in *. rewrite Hb. exact H. Qed.

Lemma gift_loop_best pk : forall fuel st X lost r, sound_dir st -> (forall t, is_Some (t_full st !! t) -> best_apex st t) ->
  (forall e, e ∈ lost -> no_apex st e) -> gift_loop g pk fuel st X lost = Ret r ->
  same_verts st r.1 /\ (forall t, is_Some (t_full r.1 !! t) -> best_apex r.1 t) /\ (forall e, e ∈ r.2 -> no_apex r.1 e).
Proof.
  induction fuel as [|fuel IH]; intros st X lost r Hs HF Hn E; [discriminate|]. cbn [gift_loop] in E.
  case_bool_decide as HX. { injection E as <-. cbn. split; [apply same_refl|auto]. }
  apply bind_ret_inv in E as (e & _ & E). apply bind_ret_inv in E as (o & Ho & E). pose proof (finish_best st e o Hs Ho) as Hb.
  destruct o as [[[t a] b]|].
  - apply bind_ret_inv in E as (s1 & Ha & E). apply unwrap_inv in Ha. apply add_ret in Ha as (_ & _ & Hsv & _ & Hf).
    destruct Hb as (c & -> & Hc1 & Hc2 & Hc3 & Hc4).
    assert (G := fun P Q => IH s1 _ lost r (sound_same _ _ Hsv Hs) P Q E). destruct G as (R1 & R2 & R3).
    + intros t Ht. apply (best_same st s1 t Hsv). rewrite Hf in Ht. destruct Ht as [q Ht]. apply lookup_insert_Some in Ht as [[<- _]|[_ Ht]]; [|eauto].
      destruct e as [x y]. split; [exact Hc2|]. split; [exact Hc3|exact Hc4].
    + intros f Hfl. apply (none_same st s1 f Hsv). auto.
    + split; [exact (same_trans _ _ _ Hsv R1)|auto].
  - refine (IH st _ (lost ++ [e]) r Hs HF _ E). intros f [Hf|Hf]%elem_of_app; [auto|]. apply elem_of_list_singleton in Hf as ->. exact Hb.
Qed.
Lemma gift_best pk fuel (b : bound A) r : sound_dir (pl_new b) -> gift_wrap g pk fuel (pl_new b) = Ret r ->
  (forall t, is_Some (t_full r.1 !! t) -> best_apex r.1 t) /\ (forall e, e ∈ r.2 -> no_apex r.1 e).
Proof.
  intros Hs E. unfold gift_wrap in E. apply bind_ret_inv in E as (walls & _ & E).
  assert (G := fun P Q => gift_loop_best pk fuel _ _ _ _ Hs P Q E). destruct G as (_ & H1 & H2); [..|auto].
  - cbn. intros t [c Hc]. now rewrite lookup_empty in Hc.
  - intros e He. now apply elem_of_nil in He.
Qed.

Lemma power_iff (p a b c o : point A) (k : A) : lts 0 (cross a b c) -> dist2 a o = k -> dist2 b o = k -> dist2 c o = k ->
  les (circle_det p a b c) 0 <-> les k (dist2 p o).
Proof.
  intros Hc D1 D2 D3. rewrite (circle_power OL _ _ _ _ o k D1 D2 D3). split; intros H.
  - apply (les_mul_back OL) in H; [|exact Hc].
    apply (proj2 (les_sub0 OL _ _)). match goal with |- les 0 ?z => replace z with (- (k - dist2 p o)) by ring end.
    apply (les_iff OL) in H as [H| ->].
    + apply (lts_les OL). now apply (proj1 (neg_pos OL _)).
    + replace (- 0) with (0 : A) by ring. apply (les_refl OL).
  - apply (les_mul_neg OL); [exact Hc|]. apply (les_iff OL) in H as [H| ->].
    + apply (lts_les OL). apply (proj2 (neg_pos OL _)). replace (- (k - dist2 p o)) with (dist2 p o - k) by ring. now apply (proj1 (lts_sub0 OL _ _)).
    + replace (dist2 p o - dist2 p o) with (0 : A) by ring. apply (les_refl OL).
Qed.
(** in terms of the circle itself *)
Lemma outside_circle st (e : edge) (c x : vertex) (o : point A) (k : A) : sound_dir st -> to_left g st e c = true ->
  dist2 (moved st e.1) o = k -> dist2 (moved st e.2) o = k -> dist2 (moved st c) o = k ->
  outside_for st e c x ->
  les k (dist2 (moved st x) o) \/
  exists w, w ∈ all_vertices st /\ to_left g st e w = true /\ near_circle (moved st e.1) (moved st e.2) (moved st w) (moved st x) /\
    les k (dist2 (moved st w) o).
Proof.
  intros Hs Hc D1 D2 D3 H0.
  assert (G : forall y, les (circle_det (moved st y) (moved st e.1) (moved st e.2) (moved st c)) 0 -> les k (dist2 (moved st y) o));
    [|destruct H0 as [H|(w & Hw & Hl & Hn & H)]; [left; auto|right; exists w; auto]].
  clear H0. intros y H. destruct e as [a b]. cbn [fst snd] in *. apply Hs in Hc. now apply (power_iff _ _ _ _ o k Hc D1 D2 D3).
Qed.
End apex.

Section plain.
Context {A : arith} (OL : ord_laws A) (g : geo A).
Let FL : field_laws A := ol_field A OL.
Add Field Afield66 : (fl_field A FL).
Lemma left_iff (b : bound A) (e : edge) x : to_left g (pl_new b) e x = true <-> g_dir g (vget b e.1) (vget b e.2) (vget b x) = Positive.
Proof. unfold to_left, triangle_dir, tget. cbn [fst snd t_bound pl_new]. destruct (g_dir g _ _ _); cbn; split; congruence. Qed.
Lemma gift_best_plain (b : bound A) pk fuel r :
  let Q v : point A := xy_pt (sadd (vget b v).1 (g_pert g v), sadd (vget b v).2 (g_pert g v)) in
  let left p q x := g_dir g (vget b p) (vget b q) (vget b x) = Positive in
  (forall p q x, left p q x -> lts s0 (cross (Q p) (Q q) (Q x))) ->
  gift_wrap g pk fuel (pl_new b) = Ret r ->
  (forall p q c, is_Some (t_full r.1 !! (p, q, c)) ->
    left p q c /\ midpoint_visible g b (p, q) c = Ret true /\
    forall x, x ∈ b_verts b -> left p q x -> midpoint_visible g b (p, q) x = Ret true ->
    forall o k, dist2 (Q p) o = k -> dist2 (Q q) o = k -> dist2 (Q c) o = k ->
    les k (dist2 (Q x) o) \/
    exists w, w ∈ b_verts b /\ left p q w /\ near_circle (Q p) (Q q) (Q w) (Q x) /\ les k (dist2 (Q w) o)) /\
  (forall e x, e ∈ r.2 -> x ∈ b_verts b -> left e.1 e.2 x -> midpoint_visible g b e x <> Ret true).
Proof.
  intros Q left HS E. assert (Hs : sound_dir g (pl_new b)). { intros p q c H. apply HS. now apply left_iff in H. }
  destruct (gift_best OL g pk fuel b r Hs E) as [H1 H2].
  assert (Hsv : same_verts r.1 (pl_new b)).
  { unfold gift_wrap in E. apply bind_ret_inv in E as (walls & _ & E).
    assert (G := fun P Q => gift_loop_best OL g pk fuel _ _ _ _ Hs P Q E). destruct G as ([Hb Hv] & _).
    - cbn. intros t [c Hc]. now rewrite lookup_empty in Hc.
    - intros e He. now apply elem_of_nil in He.
    - cbn in Hb, Hv. split; cbn; congruence. }
  split.
  - intros p q c Ht. destruct (best_same g _ _ _ Hsv (H1 _ Ht)) as (B1 & B2 & B3). cbn [fst snd t_bound pl_new] in *.
    split; [now apply left_iff in B1|]. split; [exact B2|]. intros x Hx Hl Hv o k D1 D2 D3.
    destruct (outside_circle OL g (pl_new b) (p, q) c x o k Hs B1 D1 D2 D3 (B3 x Hx (proj2 (left_iff b (p, q) x) Hl) Hv)) as [K|(w & W1 & W2 & W3 & W4)]; [left; exact K|].
    right. exists w. apply left_iff in W2. auto.
  - intros e x He Hx Hl. exact (none_same g _ _ _ Hsv (H2 e He) x Hx (proj2 (left_iff b e x) Hl)).
Qed.

Lemma plain_sound (floor : A -> Z) (b : bound A) :
  let g := plain_geo floor in
  let Q v : point A := xy_pt (sadd (vget b v).1 (g_pert g v), sadd (vget b v).2 (g_pert g v)) in
  forall p q x, g_dir g (vget b p) (vget b q) (vget b x) = Positive -> lts s0 (cross (Q p) (Q q) (Q x)).
Proof.
  cbn [plain_geo g_dir g_pert]. intros p q x. unfold plain_dir. destruct (sltb s0 (turn _ _ _)) eqn:E; [intros _|destruct (sltb (turn _ _ _) s0); intros; congruence].
  unfold lts. rewrite <- E. f_equal. unfold cross, turn, xy_pt, pt2. cbn [p_x p_y fst snd].
  destruct (vget b p) as [p1 p2], (vget b q) as [q1 q2], (vget b x) as [x1 x2]. cbn [fst snd]. ring.
Qed.
End plain.
