(** Which outlines are accepted, and that refining them creates no crossing. *)
From Coq Require Import Reals Lra Lia.
From Verif Require Export DivideR.
Local Close Scope R_scope.
Local Open Scope nat_scope.

(** no common end *)
Definition loose (s t : segment) : Prop := s.1 <> t.1 /\ s.1 <> t.2 /\ s.2 <> t.1 /\ s.2 <> t.2.

Lemma last_In {X} (z : X) l d : List.In (List.last (z :: l) d) (z :: l).
Proof. revert z. induction l as [|y l IH]; intros z; [now left|]. right. exact (IH y). Qed.

Section checked.
Context {A : arith} (g : geo A).
Implicit Types b : bound A.

Lemma loose_sym s t : loose s t -> loose t s.
Proof. intros (H1 & H2 & H3 & H4). repeat split; congruence. Qed.
Lemma seg_has_loose s t : negb (seg_has s t.1 || seg_has s t.2) = true <-> loose s t.
Proof.
  unfold seg_has, loose. rewrite negb_true_iff, !orb_false_iff, !Nat.eqb_neq. tauto.
Qed.

Lemma intersects_iff b s : intersects g b (vget b s.1) (vget b s.2) s = true <->
  exists t, t ∈ b_set b /\ loose t s /\ g_meet g (vget b t.1) (vget b t.2) (vget b s.1) (vget b s.2) = true.
Proof.
  unfold intersects. rewrite existsb_exists. split.
  - intros (t & Ht & H). apply andb_true_iff in H as [H1 H2]. exists t. split; [now apply elem_of_elements, elem_of_list_In|]. split; [now apply seg_has_loose|exact H2].
  - intros (t & Ht & H1 & H2). exists t. split; [now apply elem_of_list_In, elem_of_elements|]. apply andb_true_iff. split; [now apply seg_has_loose|exact H2].
Qed.

(** segments without a common end do not meet *)
Definition uncrossed b : Prop :=
  (forall s, s ∈ b_set b -> s.1 < length (b_pts b) /\ s.2 < length (b_pts b)) /\
  forall s t, s ∈ b_set b -> t ∈ b_set b -> loose s t ->
    g_meet g (vget b s.1) (vget b s.2) (vget b t.1) (vget b t.2) = false \/
    g_meet g (vget b t.1) (vget b t.2) (vget b s.1) (vget b s.2) = false.

Lemma vget_more b pts v : v < length (b_pts b) -> nth v (b_pts b ++ pts) (s0, s0) = vget b v.
Proof. intros H. unfold vget. now apply app_nth1. Qed.

(** only points are added *)
Lemma uncrossed_pts b b' pts : b_pts b' = b_pts b ++ pts -> b_set b' = b_set b -> uncrossed b -> uncrossed b'.
Proof.
  intros Hp Hs [H1 H2]. split.
  - intros s H. rewrite Hs in H. rewrite Hp, app_length. specialize (H1 s H). lia.
  - intros s t H H' Hl. rewrite Hs in H, H'. pose proof (H1 s H) as [? ?]. pose proof (H1 t H') as [? ?].
    unfold vget. rewrite Hp, !vget_more by assumption. now apply H2.
Qed.

Lemma uncrossed_add b b' s : b_pts b' = b_pts b -> b_set b' = {[s]} ∪ b_set b -> s.1 < length (b_pts b) -> s.2 < length (b_pts b) ->
  intersects g b (vget b s.1) (vget b s.2) s = false -> uncrossed b -> uncrossed b'.
Proof.
  intros Hp Hs Hv Hw Hi [H1 H2].
  assert (Hno : forall t, t ∈ b_set b -> loose t s -> g_meet g (vget b t.1) (vget b t.2) (vget b s.1) (vget b s.2) = false).
  { intros t Ht Hl. apply not_true_iff_false. intros E. apply not_true_iff_false in Hi. apply Hi, intersects_iff. eauto. }
  assert (Hg : forall v, vget b' v = vget b v) by (intros v; unfold vget; now rewrite Hp).
  split.
  - intros t H. rewrite Hs, elem_of_union, elem_of_singleton in H. rewrite Hp. destruct H as [->|H]; [auto|now apply H1].
  - intros t u Ht Hu Hl. rewrite Hs, elem_of_union, elem_of_singleton in Ht, Hu. rewrite !Hg. destruct Ht as [->|Ht], Hu as [->|Hu].
    + destruct Hl as [Hl _]. congruence.
    + right. apply Hno; [exact Hu|now apply loose_sym].
    + left. now apply Hno.
    + now apply H2.
Qed.

Lemma base_uncrossed b s b' : store_base_segment g b s = Ret b' -> s.1 < length (b_pts b) -> s.2 < length (b_pts b) -> uncrossed b -> uncrossed b'.
Proof.
  unfold store_base_segment. destruct (intersects _ _ _ _ _) eqn:Ei; [discriminate|]. intros [= <-] H1 H2 Hu.
  apply (uncrossed_add b _ s); auto.
Qed.

Lemma poly_loop_uncrossed : forall poly b prev ids r, foldM (poly_step g) poly (b, prev, ids) = Ret r -> prev < length (b_pts b) -> uncrossed b -> uncrossed r.1.1.
Proof.
  induction poly as [|p poly IH]; intros b prev ids r; cbn [foldM].
  - intros [= <-] _ H. exact H.
  - unfold poly_step at 1. cbn [store_vertex vertex_new]. intros E Hp Hu. apply bind_ret_inv in E as (st & E & F).
    apply bind_ret_inv in E as (b1 & E & E'). injection E' as <-.
    assert (Hu0 : uncrossed (with_verts (with_pts b (b_pts b ++ [p])) (b_verts (with_pts b (b_pts b ++ [p])) ++ [length (b_pts b)]))).
    { apply (uncrossed_pts b _ [p]); [reflexivity|reflexivity|exact Hu]. }
    pose proof (base_uncrossed _ _ _ E) as H1. cbn [b_pts with_verts with_pts fst snd] in H1. rewrite app_length in H1. cbn [length] in H1.
    apply (IH _ _ _ _ F).
    + apply base_segment_ret in E. rewrite E. cbn [b_pts with_verts with_pts]. rewrite app_length. cbn [length]. lia.
    + apply H1; [lia|lia|exact Hu0].
Qed.

Lemma polygon_uncrossed b poly r : store_polygon g b poly = Ret r -> uncrossed b -> uncrossed r.1.
Proof.
  destruct poly as [|p rest]; [discriminate|]. intros E Hu. unfold store_polygon in E. cbn [store_vertex vertex_new] in E. fold (poly_step g) in E.
  apply bind_ret_inv in E as (st & E & F). pose proof E as E0. apply poly_loop in E0. cbv zeta in E0.
  apply poly_loop_uncrossed in E; [|cbn; rewrite app_length; cbn; lia|apply (uncrossed_pts b _ [p]); [reflexivity|reflexivity|exact Hu]].
  destruct st as [[b1 prev] ids]. cbn [fst] in E. apply bind_ret_inv in F as (b2 & F & G). injection G as <-. cbn [fst].
  apply (base_uncrossed _ _ _ F); [| |exact E]; injection E0 as -> -> _; cbn; rewrite !app_length; cbn.
  - destruct rest as [|x rest]; [cbn; lia|]. match goal with |- List.last ?l ?d < _ => assert (Hin : List.last l d ∈ l) end.
    { apply elem_of_list_In, last_In. }
    apply elem_seq in Hin. revert Hin. cbn. rewrite ?app_length. cbn. lia.
  - lia.
Qed.
End checked.

(** what a program can do to draw: polygons, vertices, segments between existing vertices, loads and supports *)
Inductive drawn {A : arith} (g : geo A) : bound A -> Prop :=
| drawn_new pts : drawn g (b_new pts)
| drawn_seg b s b' : drawn g b -> s.1 < length (b_pts b) -> s.2 < length (b_pts b) -> store_segment g b s = Ret b' -> drawn g b'
| drawn_poly b poly r : drawn g b -> store_polygon g b poly = Ret r -> drawn g r.1
| drawn_vertex b p : drawn g b -> drawn g (store_vertex b p).1
| drawn_cons b v c : drawn g b -> drawn g (store_constraint b v c)
| drawn_force b v w f : drawn g b -> drawn g (store_distributed_force b v w f)
| drawn_dcons b v w c : drawn g b -> drawn g (store_distributed_constraint b v w c)
| drawn_cond b c : drawn g b -> drawn g (set_condition b c)
| drawn_mat b m : drawn g b -> drawn g (set_material b m).

Lemma drawn_uncrossed {A : arith} (g : geo A) b : drawn g b -> uncrossed g b.
Proof.
  induction 1 as [pts|b s b' _ IH H1 H2 E|b poly r _ IH E|b p _ IH|b v c _ IH|b v w f _ IH|b v w c _ IH|b c _ IH|b m _ IH].
  - split; [intros s H|intros s t H]; cbn in H; now apply elem_of_empty in H.
  - unfold store_segment in E. destruct (intersects _ _ _ _ _) eqn:Ei; [discriminate|]. injection E as <-. apply (uncrossed_add g b _ s); auto.
  - now apply (polygon_uncrossed g b poly).
  - apply (uncrossed_pts g b _ [p]); [reflexivity|reflexivity|exact IH].
  - apply (uncrossed_pts g b _ []); [cbn; now rewrite app_nil_r|reflexivity|exact IH].
  - apply (uncrossed_pts g b _ []); [cbn; now rewrite app_nil_r|reflexivity|exact IH].
  - apply (uncrossed_pts g b _ []); [cbn; now rewrite app_nil_r|reflexivity|exact IH].
  - apply (uncrossed_pts g b _ []); [cbn; now rewrite app_nil_r|reflexivity|exact IH].
  - apply (uncrossed_pts g b _ []); [cbn; now rewrite app_nil_r|reflexivity|exact IH].
Qed.

Lemma store_segment_iff {A : arith} (g : geo A) (b : bound A) s :
  (store_segment g b s = Panic <-> exists t, t ∈ b_set b /\ loose t s /\ g_meet g (vget b t.1) (vget b t.2) (vget b s.1) (vget b s.2) = true) /\
  (store_segment g b s = Panic \/ exists b', store_segment g b s = Ret b' /\ b_map b' = <[s.1 := s.2]> (b_map b) /\ b_pts b' = b_pts b /\
     forall t, t ∈ b_set b' <-> t = s \/ t ∈ b_set b).
Proof.
  rewrite <- intersects_iff. unfold store_segment. destruct (intersects _ _ _ _ _).
  - split; [tauto|now left].
  - split; [split; discriminate|]. right. eexists. split; [reflexivity|]. split; [reflexivity|]. split; [reflexivity|].
    intros t. cbn. rewrite elem_of_union, elem_of_singleton. tauto.
Qed.

(** polygons end in a boundary or a panic *)
Lemma polygon_ends {A : arith} (g : geo A) b poly : store_polygon g b poly = Panic \/ exists r, store_polygon g b poly = Ret r.
Proof.
  destruct poly as [|p poly]; [now left|]. unfold store_polygon. fold (poly_step g). cbn [store_vertex vertex_new].
  assert (Hb : forall b s, store_base_segment g b s = Panic \/ exists b', store_base_segment g b s = Ret b').
  { intros b0 s. unfold store_base_segment. destruct (intersects _ _ _ _ _); eauto. }
  assert (Hl : forall l st, foldM (poly_step g) l st = Panic \/ exists r, foldM (poly_step g) l st = Ret r).
  { induction l as [|q l IH]; intros [[b0 prev] ids]; cbn [foldM]; [eauto|].
    assert (P : poly_step g q (b0, prev, ids) = Panic \/ exists st, poly_step g q (b0, prev, ids) = Ret st).
    { unfold poly_step. cbn [store_vertex vertex_new]. match goal with |- context [store_base_segment g ?x ?y] => destruct (Hb x y) as [->|(b1 & ->)] end; cbn [mbind out_bind]; eauto. }
    destruct P as [->|(st & ->)]; cbn [mbind out_bind]; [now left|apply IH]. }
  match goal with |- context [foldM (poly_step g) poly ?st] => destruct (Hl poly st) as [->|([[b1 prev] ids] & ->)] end; cbn [mbind out_bind]; [now left|].
  destruct (Hb b1 (prev, length (b_pts b))) as [->|(b2 & ->)]; cbn [mbind out_bind]; eauto.
Qed.

(** ** exactly which outlines are refused *)
Section accept.
Context {A : arith} (g : geo A).
Implicit Types b R : bound A.
(** the same geometry with a crossing test that never fires *)
Definition blind : geo A := Geo A (fun _ _ _ _ => false) (g_sdist g) (g_dir g) (g_cr g) (g_pert g) (g_floor g).
Definition unmet b : Prop := forall s t, s ∈ b_set b -> t ∈ b_set b -> loose t s -> g_meet g (vget b t.1) (vget b t.2) (vget b s.1) (vget b s.2) = false.

Lemma quiet b R s more : b_pts R = b_pts b ++ more -> (forall t, t ∈ b_set b -> t ∈ b_set R /\ t.1 < length (b_pts b) /\ t.2 < length (b_pts b)) ->
  s ∈ b_set R -> s.1 < length (b_pts b) -> s.2 < length (b_pts b) -> unmet R -> intersects g b (vget b s.1) (vget b s.2) s = false.
Proof.
  intros Hp Hset Hs H1 H2 Ha. apply not_true_iff_false. intros H. apply intersects_iff in H as (t & Ht & Hl & Hm).
  destruct (Hset t Ht) as (HtR & Q1 & Q2). specialize (Ha s t Hs HtR Hl). unfold vget at 1 2 3 4 in Ha. rewrite Hp, !vget_more in Ha by assumption. congruence.
Qed.

Lemma accept_loop : forall poly b prev ids r R more, foldM (poly_step blind) poly (b, prev, ids) = Ret r -> b_pts R = b_pts r.1.1 ++ more ->
  (forall t, t ∈ b_set r.1.1 -> t ∈ b_set R) -> (forall t, t ∈ b_set b -> t.1 < length (b_pts b) /\ t.2 < length (b_pts b)) -> prev < length (b_pts b) -> unmet R ->
  foldM (poly_step g) poly (b, prev, ids) = Ret r.
Proof.
  induction poly as [|p poly IH]; intros b prev ids r R more E HpR HsR Hok Hprev Ha; cbn [foldM] in *; [exact E|].
  apply bind_ret_inv in E as (st & E & F). unfold poly_step in E. cbn [store_vertex vertex_new] in E.
  apply bind_ret_inv in E as (b1 & E & E'). injection E' as <-. pose proof E as Eb. apply base_segment_ret in Eb.
  set (b0 := with_verts (with_pts b (b_pts b ++ [p])) (b_verts (with_pts b (b_pts b ++ [p])) ++ [length (b_pts b)])) in *.
  pose proof F as F0. apply poly_loop in F0. cbv zeta in F0.
  assert (Hb1 : b_pts b1 = b_pts b ++ [p]) by (rewrite Eb; reflexivity).
  assert (Hs1 : forall t, t ∈ b_set b1 <-> t = (prev, length (b_pts b)) \/ t ∈ b_set b).
  { intros t. rewrite Eb. cbn [b_set]. rewrite elem_of_set_all, elem_of_list_singleton. reflexivity. }
  assert (Hr : b_pts r.1.1 = b_pts b1 ++ poly /\ forall t, t ∈ b_set b1 -> t ∈ b_set r.1.1).
  { rewrite F0. cbn [fst b_pts b_set]. split; [reflexivity|]. intros t Ht. apply elem_of_set_all. now right. }
  destruct Hr as [Hr1 Hr2].
  assert (Hstep : store_base_segment g b0 (prev, length (b_pts b)) = Ret b1).
  { unfold store_base_segment in E |- *. rewrite (quiet b0 R (prev, length (b_pts b)) (poly ++ more)).
    - destruct (intersects blind _ _ _ _); [discriminate|]. exact E.
    - rewrite HpR, Hr1, Hb1, <- !app_assoc. change (b_pts b0) with (b_pts b ++ [p]). rewrite <- !app_assoc. reflexivity.
    - intros t Ht. split; [apply HsR, Hr2, Hs1; now right|]. destruct (Hok t Ht). cbn. rewrite app_length. cbn. lia.
    - apply HsR, Hr2, Hs1. now left.
    - cbn. rewrite app_length. cbn. lia.
    - cbn. rewrite app_length. cbn. lia.
    - exact Ha. }
  assert (Hps : poly_step g p (b, prev, ids) = Ret (b1, length (b_pts b), ids ++ [length (b_pts b)])).
  { unfold poly_step. cbn [store_vertex vertex_new]. fold b0. rewrite Hstep. reflexivity. }
  rewrite Hps. cbn [mbind out_bind]. apply (IH _ _ _ _ R more F HpR HsR); [| |exact Ha].
  - intros t Ht. apply Hs1 in Ht as [->|Ht]; rewrite Hb1, app_length; cbn; [lia|]. destruct (Hok t Ht). lia.
  - rewrite Hb1, app_length. cbn. lia.
Qed.

Lemma polygon_accept b poly r : (forall t, t ∈ b_set b -> t.1 < length (b_pts b) /\ t.2 < length (b_pts b)) ->
  store_polygon blind b poly = Ret r -> unmet r.1 -> store_polygon g b poly = Ret r.
Proof.
  intros Hok E Ha. destruct poly as [|p rest]; [discriminate|]. unfold store_polygon in E |- *. fold (poly_step blind) in E. fold (poly_step g).
  cbn [store_vertex vertex_new] in E |- *. apply bind_ret_inv in E as (st & E & F). pose proof E as E0. apply poly_loop in E0. cbv zeta in E0.
  destruct st as [[b1 prev] ids]. apply bind_ret_inv in F as (b2 & F & G). injection G as <-. cbn [fst] in Ha.
  pose proof F as F0. apply base_segment_ret in F0.
  assert (Hb2 : b_pts b2 = b_pts b1) by (rewrite F0; reflexivity).
  assert (Hs2 : forall t, t ∈ b_set b2 <-> t = (prev, length (b_pts b)) \/ t ∈ b_set b1).
  { intros t. rewrite F0. cbn [b_set]. rewrite elem_of_set_all, elem_of_list_singleton. reflexivity. }
  rewrite (accept_loop _ _ _ _ _ b2 [] E).
  - cbn [mbind out_bind]. assert (Hlast : store_base_segment g b1 (prev, length (b_pts b)) = Ret b2).
    { unfold store_base_segment in F |- *. injection E0 as E1 E2 _. cbn in E1, E2.
      assert (Hprev : prev < length (b_pts b1)).
      { rewrite E1, E2. cbn. rewrite !app_length. cbn. destruct rest as [|x rest]; [cbn; lia|].
        match goal with |- List.last ?l ?d < _ => assert (Hin : List.last l d ∈ l) end; [apply elem_of_list_In, last_In|].
        apply elem_seq in Hin. revert Hin. cbn. rewrite ?app_length. cbn. lia. }
      assert (Hsts : forall t, t ∈ b_set b1 -> t.1 < length (b_pts b1) /\ t.2 < length (b_pts b1)).
      { intros t Ht. rewrite E1 in Ht |- *. cbn [b_set b_pts] in *. rewrite !app_length in *. cbn [length] in *. apply elem_of_set_all in Ht as [Ht|Ht].
        - assert (K : forall l x y, (y : segment) ∈ chain x l -> y.1 ∈ x :: l /\ y.2 ∈ x :: l).
          { clear. induction l as [|z l IH]; intros x y Hy; cbn [chain] in Hy; [now apply elem_of_nil in Hy|]. apply elem_of_cons in Hy as [->|Hy].
            - cbn. split; [apply elem_of_list_here|apply elem_of_list_further, elem_of_list_here].
            - apply IH in Hy as [? ?]. split; now apply elem_of_list_further. }
          apply K in Ht as [T1 T2]. rewrite !elem_of_cons in T1, T2. rewrite !elem_of_seq in T1, T2. lia.
        - destruct (Hok t Ht). lia. }
      rewrite (quiet b1 b2 (prev, length (b_pts b)) []).
      - destruct (intersects blind _ _ _ _); [discriminate|]. exact F.
      - rewrite Hb2, app_nil_r. reflexivity.
      - intros t Ht. split; [apply Hs2; now right|]. apply Hsts, Ht.
      - apply Hs2. now left.
      - exact Hprev.
      - cbn [snd]. rewrite E1. cbn. rewrite !app_length. cbn. lia.
      - exact Ha. }
    rewrite Hlast. reflexivity.
  - cbn [fst]. rewrite Hb2, app_nil_r. reflexivity.
  - intros t Ht. apply Hs2. now right.
  - cbn. intros t Ht. rewrite app_length. cbn. destruct (Hok t Ht). lia.
  - cbn. rewrite app_length. cbn. lia.
  - exact Ha.
Qed.

(** the [i]-th side, the last closing the outline *)
Definition side (poly : list (xy A)) (i : nat) (a c : xy A) : Prop := poly !! i = Some a /\ poly !! (if S i =? length poly then 0 else S i) = Some c.
(** no common corner *)
Definition far (n i j : nat) : Prop := S i < j < n /\ ~ (i = 0 /\ S j = n).

Lemma loop_edge_iff N n (t : segment) : t ∈ loop_edges (N, seq (S N) n) <-> exists z, z <= n /\ t = (N + z, N + (if S z =? S n then 0 else S z)).
Proof.
  unfold loop_edges. cbn [fst snd]. assert (K : forall k M, t ∈ chain M (seq (S M) k ++ [N]) <-> exists z, z <= k /\ t = (M + z, if z =? k then N else S (M + z))).
  { induction k as [|k IH]; intros M; cbn [seq app chain].
    - rewrite elem_of_list_singleton. split.
      + intros ->. exists 0. split; [lia|]. now rewrite Nat.add_0_r.
      + intros (z & Hz & ->). replace z with 0 by lia. now rewrite Nat.add_0_r.
    - rewrite elem_of_cons, IH. split.
      + intros [->|(z & Hz & ->)].
        * exists 0. split; [lia|]. now rewrite Nat.add_0_r.
        * exists (S z). split; [lia|]. change (S z =? S k) with (z =? k). f_equal; [lia|]. destruct (z =? k); [reflexivity|lia].
      + intros ([|z] & Hz & ->).
        * left. now rewrite Nat.add_0_r.
        * right. exists z. split; [lia|]. change (S z =? S k) with (z =? k). f_equal; [lia|]. destruct (z =? k); [reflexivity|lia]. }
  rewrite K. split; intros (z & Hz & ->); exists z; (split; [exact Hz|]); change (S z =? S n) with (z =? n); destruct (z =? n); f_equal; lia.
Qed.

Lemma polygon_iff b poly : (forall a c u w, g_meet g a c u w = g_meet g u w a c) -> uncrossed g b ->
  (store_polygon g b poly = Panic <->
   poly = [] \/ (exists i j a c u w, far (length poly) i j /\ side poly i a c /\ side poly j u w /\ g_meet g a c u w = true) \/
   (exists i a c t, side poly i a c /\ t ∈ b_set b /\ g_meet g (vget b t.1) (vget b t.2) a c = true)).
Proof.
  intros Hsym Hu. destruct Hu as [Hok Hun] eqn:EHu. clear EHu.
  assert (Hnr : store_polygon g b poly = Panic <-> ~ exists r, store_polygon g b poly = Ret r).
  { destruct (polygon_ends g b poly) as [->|(r & Hr)]; [|rewrite Hr]; split; [intros _ (r & H); discriminate|reflexivity|discriminate|]. intros H. exfalso. apply H. eauto. }
  destruct poly as [|x rest]; [split; [now left|reflexivity]|]. set (poly := x :: rest) in *.
  destruct (poly_total blind b poly) as (r & Er); [reflexivity|discriminate|]. pose proof Er as Er0.
  apply polygon_ret in Er0 as (x' & rest' & Ep & Er0). injection Ep as <- <-. cbv zeta in Er0. set (N := length (b_pts b)) in *.
  assert (Hold : forall t, t ∈ b_set b -> t ∈ b_set r.1 /\ vget r.1 t.1 = vget b t.1 /\ vget r.1 t.2 = vget b t.2).
  { intros t Ht. destruct (Hok t Ht) as [Q1 Q2]. rewrite Er0. cbn [fst b_set]. split; [apply elem_of_set_all; now right|]. unfold vget at 1 3. cbn [b_pts]. split; now apply vget_more. }
  assert (Hpos : forall z y, poly !! z = Some y -> vget r.1 (N + z) = y).
  { intros z y Hz. rewrite Er0. unfold vget. cbn [b_pts fst]. rewrite app_nth2 by (unfold N; lia). replace (N + z - length (b_pts b)) with z by (unfold N; lia). now apply nth_lookup_Some. }
  pose (nx := fun z => if S z =? length poly then 0 else S z).
  assert (Hside : forall z a c, side poly z a c -> (N + z, N + nx z) ∈ b_set r.1 /\ vget r.1 (N + z) = a /\ vget r.1 (N + nx z) = c /\ z < length poly).
  { intros z a c [H1 H2]. pose proof (lookup_lt_Some _ _ _ H1) as Hlt. split; [|split; [now apply Hpos|split; [now apply Hpos|exact Hlt]]].
    rewrite Er0. cbn [fst b_set]. apply elem_of_set_all. left. apply loop_edge_iff. exists z. split; [cbn in Hlt; lia|reflexivity]. }
  assert (Hnew : forall t, t ∈ b_set r.1 -> t ∈ b_set b \/ exists z a c, side poly z a c /\ t = (N + z, N + nx z)).
  { intros t Ht. rewrite Er0 in Ht. cbn [fst b_set] in Ht. apply elem_of_set_all in Ht as [Ht|Ht]; [right|now left]. apply loop_edge_iff in Ht as (z & Hz & ->).
    assert (Hz1 : z < length poly) by (cbn; lia). assert (Hz2 : nx z < length poly) by (unfold nx; destruct (Nat.eqb_spec (S z) (length poly)); lia).
    apply lookup_lt_is_Some in Hz1 as [a Ha], Hz2 as [c Hc]. exists z, a, c. split; [split; [exact Ha|exact Hc]|reflexivity]. }
  assert (Hiff : (exists r', store_polygon g b poly = Ret r') <-> unmet r.1).
  { split; [|intros Ha; exists r; now apply polygon_accept]. intros (r' & Er'). pose proof (polygon_uncrossed g b poly r' Er' (conj Hok Hun)) as [_ Hu'].
    assert (r' = r) as ->. { apply polygon_ret in Er' as (x1 & rest1 & Ep & ->). injection Ep as <- <-. rewrite Er0. reflexivity. }
    intros s t Hs Ht Hl. destruct (Hu' s t Hs Ht (loose_sym _ _ Hl)) as [H|H]; [rewrite Hsym|]; exact H. }
  rewrite Hnr, Hiff. split.
  - intros Hna. right.
    assert (Hex : exists s t, s ∈ elements (b_set r.1) /\ t ∈ elements (b_set r.1) /\ loose t s /\ g_meet g (vget r.1 t.1) (vget r.1 t.2) (vget r.1 s.1) (vget r.1 s.2) = true).
    { pose (bad := fun s t => negb (seg_has t s.1 || seg_has t s.2) && g_meet g (vget r.1 t.1) (vget r.1 t.2) (vget r.1 s.1) (vget r.1 s.2)).
      destruct (existsb (fun s => existsb (bad s) (elements (b_set r.1))) (elements (b_set r.1))) eqn:Eb.
      - apply existsb_exists in Eb as (s & Hs & Eb). apply existsb_exists in Eb as (t & Ht & Eb). apply andb_true_iff in Eb as [Eb1 Eb2].
        exists s, t. rewrite !elem_of_list_In. split; [exact Hs|]. split; [exact Ht|]. split; [now apply seg_has_loose|exact Eb2].
      - exfalso. apply Hna. intros s t Hs Ht Hl. apply not_true_iff_false. intros Hm.
        assert (Et : existsb (fun s => existsb (bad s) (elements (b_set r.1))) (elements (b_set r.1)) = true); [|congruence].
        apply existsb_exists. exists s. split; [now apply elem_of_list_In, elem_of_elements|]. apply existsb_exists. exists t. split; [now apply elem_of_list_In, elem_of_elements|].
        apply andb_true_iff. split; [now apply seg_has_loose|exact Hm]. }
    destruct Hex as (s & t & Hs & Ht & Hl & Hm). apply elem_of_elements in Hs, Ht.
    apply Hnew in Hs as [Hs|(i & a & c & Hi & ->)]; apply Hnew in Ht as [Ht|(j & u & w & Hj & ->)].
    + exfalso. destruct (Hold s Hs) as (_ & E1 & E2), (Hold t Ht) as (_ & E3 & E4). rewrite E1, E2, E3, E4 in Hm.
      destruct (Hun t s Ht Hs Hl) as [F|F]; [|rewrite Hsym in F]; congruence.
    + right. destruct (Hold s Hs) as (_ & E1 & E2), (Hside _ _ _ Hj) as (_ & E3 & E4 & _). cbn [fst snd] in Hm. rewrite E1, E2, E3, E4 in Hm.
      exists j, u, w, s. rewrite <- Hsym. auto.
    + right. destruct (Hold t Ht) as (_ & E1 & E2), (Hside _ _ _ Hi) as (_ & E3 & E4 & _). cbn [fst snd] in Hm. rewrite E1, E2, E3, E4 in Hm.
      exists i, a, c, t. auto.
    + left. destruct (Hside _ _ _ Hi) as (_ & E1 & E2 & Li), (Hside _ _ _ Hj) as (_ & E3 & E4 & Lj). cbn [fst snd] in Hm. rewrite E1, E2, E3, E4 in Hm.
      destruct Hl as (L1 & L2 & L3 & L4). cbn [fst snd] in *. unfold nx in L2, L3, L4.
      assert (Hc : far (length poly) i j \/ far (length poly) j i).
      { unfold far. destruct (Nat.eqb_spec (S i) (length poly)), (Nat.eqb_spec (S j) (length poly)); lia. }
      destruct Hc as [Hc|Hc]; [exists i, j, a, c, u, w|exists j, i, u, w, a, c]; (repeat split; try apply Hc; try apply Hi; try apply Hj); [rewrite Hsym|]; exact Hm.
  - intros [Hnil|[(i & j & a & c & u & w & Hf & Hi & Hj & Hm)|(i & a & c & t & Hi & Ht & Hm)]] Ha; [discriminate| |].
    + destruct (Hside _ _ _ Hi) as (Q1 & E1 & E2 & Li), (Hside _ _ _ Hj) as (Q2 & E3 & E4 & Lj). specialize (Ha _ _ Q2 Q1). cbn [fst snd] in Ha. rewrite E1, E2, E3, E4 in Ha.
      rewrite Ha in Hm; [discriminate|]. unfold far, loose in *. cbn [fst snd]. unfold nx. destruct (Nat.eqb_spec (S i) (length poly)), (Nat.eqb_spec (S j) (length poly)); lia.
    + destruct (Hside _ _ _ Hi) as (Q1 & E1 & E2 & Li), (Hold t Ht) as (Q2 & E3 & E4). specialize (Ha _ _ Q1 Q2). cbn [fst snd] in Ha. rewrite E1, E2, E3, E4 in Ha.
      rewrite Ha in Hm; [discriminate|]. destruct (Hok t Ht) as [T1 T2]. unfold loose. cbn [fst snd]. fold N in T1, T2. lia.
Qed.
End accept.

(** ** real geometry *)
Local Open Scope R_scope.
(** the point at fraction [l] of the way *)
Definition at_frac (a c : xy R_arith) (l : R) : xy R_arith := (fst a + l * (fst c - fst a), snd a + l * (snd c - snd a)).
Definition on_seg (a c x : xy R_arith) : Prop := exists l, 0 <= l <= 1 /\ x = at_frac a c l.

(** two segments have no point in common but a common end *)
Definition clean (b : bound R_arith) : Prop :=
  (forall s, s ∈ b_set b -> (s.1 < length (b_pts b) /\ s.2 < length (b_pts b))%nat /\ vget b s.1 <> vget b s.2) /\
  forall s t x, s ∈ b_set b -> t ∈ b_set b -> s <> t -> on_seg (vget b s.1) (vget b s.2) x -> on_seg (vget b t.1) (vget b t.2) x ->
    exists v, (v = s.1 \/ v = s.2) /\ (v = t.1 \/ v = t.2) /\ x = vget b v.

Lemma at_frac_inj a c l l' : a <> c -> at_frac a c l = at_frac a c l' -> l = l'.
Proof.
  intros Hn E. destruct a as [a1 a2], c as [c1 c2]. unfold at_frac in E. cbn in E. injection E as E1 E2.
  assert (H1 : (l - l') * (c1 - a1) = 0) by lra. assert (H2 : (l - l') * (c2 - a2) = 0) by lra.
  apply Rmult_integral in H1 as [H1|H1]; [lra|]. apply Rmult_integral in H2 as [H2|H2]; [lra|].
  exfalso. apply Hn. f_equal; lra.
Qed.
Lemma at_frac_0 a c : at_frac a c 0 = a.
Proof. destruct a as [a1 a2]. unfold at_frac. cbn. f_equal; ring. Qed.
Lemma at_frac_1 a c : at_frac a c 1 = c.
Proof. destruct a as [a1 a2], c as [c1 c2]. unfold at_frac. cbn. f_equal; ring. Qed.
Lemma at_frac_frac a c u w l : at_frac (at_frac a c u) (at_frac a c w) l = at_frac a c (u + l * (w - u)).
Proof. unfold at_frac. cbn. f_equal; ring. Qed.
Lemma along_frac a c n i : along_R a c n i = at_frac a c (INR i / IZR n).
Proof. reflexivity. Qed.

(** replacing one segment by consecutive pieces of it *)
Lemma clean_refine (b b' : bound R_arith) s n (vs : list nat) more : clean b -> s ∈ b_set b -> b_pts b' = b_pts b ++ more -> (0 < n)%Z ->
  length vs = S (Z.to_nat n) -> head vs = Some s.1 -> last vs = Some s.2 -> (forall v, v ∈ vs -> (v < length (b_pts b'))%nat) ->
  (forall i v, vs !! i = Some v -> vget b' v = along_R (vget b s.1) (vget b s.2) n i) ->
  (forall t, t ∈ b_set b' <-> (t ∈ b_set b /\ t <> s) \/ (exists i, vs !! i = Some t.1 /\ vs !! S i = Some t.2)) -> clean b'.
Proof.
  intros [Hok Hcl] Hs Hp Hn Hl Hh Hla Hvs Hpos Hset.
  assert (HnR : 0 < IZR n) by (now apply IZR_lt). destruct (Hok s Hs) as [[Hs1 Hs2] Hne].
  assert (Hold : forall t, t ∈ b_set b -> vget b' t.1 = vget b t.1 /\ vget b' t.2 = vget b t.2).
  { intros t Ht. destruct (Hok t Ht) as [[H1 H2] _]. unfold vget at 1 3. rewrite Hp. split; now apply vget_more. }
  (* the fraction of a point on piece i *)
  assert (Hpiece : forall i u w x, vs !! i = Some u -> vs !! S i = Some w -> on_seg (vget b' u) (vget b' w) x ->
    exists l, INR i / IZR n <= l <= INR (S i) / IZR n /\ x = at_frac (vget b s.1) (vget b s.2) l).
  { intros i u w x Hu Hw (l & Hl01 & ->). rewrite (Hpos _ _ Hu), (Hpos _ _ Hw), !along_frac, at_frac_frac.
    exists (INR i / IZR n + l * (INR (S i) / IZR n - INR i / IZR n)). split; [|reflexivity]. rewrite S_INR.
    replace ((INR i + 1) / IZR n - INR i / IZR n) with (/ IZR n) by (field; lra).
    replace ((INR i + 1) / IZR n) with (INR i / IZR n + / IZR n) by (field; lra).
    pose proof (Rinv_0_lt_compat _ HnR) as Hi. split.
    - assert (0 <= l * / IZR n) by (apply Rmult_le_pos; lra). lra.
    - assert (l * / IZR n <= 1 * / IZR n) by (apply Rmult_le_compat_r; lra). lra. }
  assert (Hlt : forall i w, vs !! S i = Some w -> (S i <= Z.to_nat n)%nat).
  { intros i w Hw. apply lookup_lt_Some in Hw. lia. }
  assert (HINR : INR (Z.to_nat n) = IZR n) by (rewrite INR_IZR_INZ, Z2Nat.id by lia; reflexivity).
  assert (Hrange : forall i w l, vs !! S i = Some w -> INR i / IZR n <= l <= INR (S i) / IZR n -> 0 <= l <= 1).
  { intros i w l Hw [H1 H2]. apply Hlt, le_INR in Hw. rewrite HINR in Hw. split.
    - apply Rle_trans with (2 := H1). apply Rmult_le_pos; [apply pos_INR|left; now apply Rinv_0_lt_compat].
    - apply Rle_trans with (1 := H2). apply (Rmult_le_reg_r (IZR n)); [exact HnR|]. unfold Rdiv. rewrite Rmult_assoc, Rinv_l by lra. lra. }
  assert (H0 : vs !! 0%nat = Some s.1) by (destruct vs; [discriminate|exact Hh]).
  assert (HN : vs !! Z.to_nat n = Some s.2) by (rewrite last_lookup, Hl in Hla; exact Hla).
  (* a piece and an old segment *)
  assert (Hmix : forall i u w t x, vs !! i = Some u -> vs !! S i = Some w -> t ∈ b_set b -> t <> s -> on_seg (vget b' u) (vget b' w) x -> on_seg (vget b' t.1) (vget b' t.2) x ->
    exists v, (v = u \/ v = w) /\ (v = t.1 \/ v = t.2) /\ x = vget b' v).
  { intros i u w t x Hu Hw Ht Hts Hx Hxt. destruct (Hpiece i u w x Hu Hw Hx) as (l & Hlr & Ex). pose proof (Hrange i w l Hw Hlr) as Hl01.
    destruct (Hold t Ht) as [T1 T2]. rewrite T1, T2 in Hxt.
    destruct (Hcl s t x Hs Ht ltac:(congruence)) as (v & Hv & Hvt & Ev); [exists l; auto|exact Hxt|].
    assert (Ev' : x = vget b' v).
    { rewrite Ev. destruct (Hok s Hs) as [[Q1 Q2] _]. unfold vget at 2. rewrite Hp. symmetry. apply vget_more. destruct Hv as [->| ->]; assumption. }
    exists v. split; [|split; [exact Hvt|exact Ev']]. destruct Hv as [->| ->].
    - assert (l = 0) as ->. { apply (at_frac_inj (vget b s.1) (vget b s.2)); [exact Hne|]. rewrite at_frac_0. congruence. }
      assert (i = 0%nat) as ->. { destruct i as [|i]; [reflexivity|]. exfalso. destruct Hlr as [Hlr _]. rewrite S_INR in Hlr.
        assert (0 < (INR i + 1) / IZR n) by (apply Rmult_lt_0_compat; [pose proof (pos_INR i); lra|now apply Rinv_0_lt_compat]). lra. }
      left. congruence.
    - assert (l = 1) as ->. { apply (at_frac_inj (vget b s.1) (vget b s.2)); [exact Hne|]. rewrite at_frac_1. congruence. }
      assert (S i = Z.to_nat n) as Ei. { pose proof (Hlt i w Hw) as Hle. destruct (Nat.eq_dec (S i) (Z.to_nat n)) as [|Hne']; [assumption|]. exfalso.
        assert (Hlt' : INR (S i) < IZR n) by (rewrite <- HINR; apply lt_INR; lia). destruct Hlr as [_ Hlr].
        assert (INR (S i) / IZR n < 1) by (apply (Rmult_lt_reg_r (IZR n)); [exact HnR|]; unfold Rdiv; rewrite Rmult_assoc, Rinv_l by lra; lra). lra. }
      right. rewrite Ei in Hw. congruence. }
  (* two pieces *)
  assert (Htwo : forall i j u w u' w' x, (i < j)%nat -> vs !! i = Some u -> vs !! S i = Some w -> vs !! j = Some u' -> vs !! S j = Some w' ->
    on_seg (vget b' u) (vget b' w) x -> on_seg (vget b' u') (vget b' w') x -> exists v, (v = u \/ v = w) /\ (v = u' \/ v = w') /\ x = vget b' v).
  { intros i j u w u' w' x Hij Hu Hw Hu' Hw' Hx Hx'. destruct (Hpiece i u w x Hu Hw Hx) as (l & Hlr & Ex). destruct (Hpiece j u' w' x Hu' Hw' Hx') as (l' & Hlr' & Ex').
    assert (l' = l) as -> by (apply (at_frac_inj (vget b s.1) (vget b s.2)); [exact Hne|congruence]).
    assert (Hle : INR j <= INR (S i)).
    { apply (Rmult_le_reg_r (/ IZR n)); [now apply Rinv_0_lt_compat|]. unfold Rdiv in *. lra. }
    apply INR_le in Hle. assert (j = S i) as -> by lia. exists w. split; [now right|]. split; [left; congruence|].
    rewrite (Hpos _ _ Hw), along_frac, Ex. f_equal. lra. }
  split.
  - intros t Ht. apply Hset in Ht as [[Ht Hts]|(i & Hu & Hw)].
    + destruct (Hold t Ht) as [-> ->]. destruct (Hok t Ht) as [[Q1 Q2] Q]. rewrite Hp, app_length. split; [lia|exact Q].
    + split; [split; apply Hvs; eapply elem_of_list_lookup_2; eassumption|]. intros E. rewrite (Hpos _ _ Hu), (Hpos _ _ Hw), !along_frac in E.
      apply at_frac_inj in E; [|exact Hne]. rewrite S_INR in E. replace ((INR i + 1) / IZR n) with (INR i / IZR n + / IZR n) in E by (field; lra).
      pose proof (Rinv_0_lt_compat _ HnR). lra.
  - intros t t' x Ht Ht' Hd Hx Hx'. rename Ht' into Hc. apply Hset in Ht as [[Ht Hts]|(i & Hu & Hw)]; apply Hset in Hc as [[Hc Hcs]|(j & Hu' & Hw')].
    + destruct (Hold t Ht) as [E1 E2], (Hold t' Hc) as [E3 E4]. rewrite E1, E2 in Hx. rewrite E3, E4 in Hx'. destruct (Hcl t t' x Ht Hc Hd Hx Hx') as (v & Hv & Hv' & Ev).
      exists v. split; [exact Hv|]. split; [exact Hv'|]. destruct Hv as [->| ->]; congruence.
    + destruct (Hmix j _ _ t x Hu' Hw' Ht Hts Hx' Hx) as (v & H1 & H2 & H3). eauto.
    + exact (Hmix i _ _ t' x Hu Hw Hc Hcs Hx Hx').
    + destruct (Nat.lt_trichotomy i j) as [Hij|[->|Hij]].
      * exact (Htwo i j _ _ _ _ x Hij Hu Hw Hu' Hw' Hx Hx').
      * exfalso. apply Hd. destruct t, t'. cbn in *. congruence.
      * destruct (Htwo j i _ _ _ _ x Hij Hu' Hw' Hu Hw Hx' Hx) as (v & H1 & H2 & H3). eauto.
Qed.

Lemma chain_lookup (t : segment) l x : t ∈ chain x l <-> exists i, (x :: l) !! i = Some t.1 /\ (x :: l) !! S i = Some t.2.
Proof.
  revert x. induction l as [|y l IH]; intros x; cbn [chain].
  - rewrite elem_of_nil. split; [contradiction|]. intros (i & _ & H). destruct i; discriminate.
  - rewrite elem_of_cons, IH. split.
    + intros [->|(i & H1 & H2)]; [exists 0%nat; auto|]. exists (S i). auto.
    + intros ([|i] & H1 & H2).
      * left. cbn in H1, H2. destruct t. cbn in *. congruence.
      * right. exists i. auto.
Qed.

Lemma clean_divide (g : geo R_arith) (b : bound R_arith) s (h : R) b' : floor_ok g -> 0 < h -> clean b -> divide_segment g b s h = Ret b' -> clean b'.
Proof.
  intros Fl Hh Hc E. pose proof (divide_ret _ _ _ _ _ E) as (Hs & _ & Eb). cbv zeta in Eb. destruct (proj1 Hc s Hs) as [[H1 H2] _].
  destruct (divide_positions g b s h b' Fl Hh H1 H2 E) as (Pc & Hl & Hp). cbv zeta in *. destruct Pc as [Hn _].
  set (n := div_num g (vget b s.1) (vget b s.2) h) in *. set (ns := seq (length (b_pts b)) (Z.to_nat (n - 1))) in *.
  apply (clean_refine b b' s n (s.1 :: ns ++ [s.2]) (steps (xy_add (vget b s.1) (div_leg g (vget b s.1) (vget b s.2) h)) (div_leg g (vget b s.1) (vget b s.2) h) (Z.to_nat (n - 1)))).
  - exact Hc.
  - exact Hs.
  - rewrite Eb. reflexivity.
  - exact Hn.
  - exact Hl.
  - reflexivity.
  - change (s.1 :: ns ++ [s.2]) with ((s.1 :: ns) ++ [s.2]). apply last_snoc.
  - intros v Hv. rewrite Eb. cbn [b_pts]. rewrite app_length, steps_length. apply elem_of_cons in Hv as [->|Hv]; [lia|].
    apply elem_of_app in Hv as [Hv|Hv]; [|apply elem_of_list_singleton in Hv as ->; lia]. apply elem_of_seq in Hv. lia.
  - exact Hp.
  - intros t. rewrite Eb. cbn [b_set]. rewrite elem_of_set_all, elem_of_difference, elem_of_singleton. unfold pieces. fold ns. rewrite chain_lookup. tauto.
Qed.

Lemma clean_split (b : bound R_arith) s r : clean b -> split_segment b s = Ret r -> clean r.1.
Proof.
  intros Hc E. apply split_ret in E as [Hs ->]. cbn [fst]. destruct (proj1 Hc s Hs) as [[H1 H2] _].
  eapply (clean_refine b _ s 2%Z [s.1; length (b_pts b); s.2] [xy_mid (vget b s.1) (vget b s.2)]).
  - exact Hc.
  - exact Hs.
  - reflexivity.
  - lia.
  - reflexivity.
  - reflexivity.
  - reflexivity.
  - intros v Hv. cbn [b_pts]. rewrite app_length. cbn [length]. rewrite !elem_of_cons, elem_of_nil in Hv. destruct Hv as [->|[->|[->|[]]]]; lia.
  - intros i v Hv. rewrite along_frac. destruct i as [|[|[|i]]]; cbn in Hv; [injection Hv as <-..|discriminate].
    + unfold vget at 1. cbn [b_pts]. rewrite vget_more by exact H1. replace (INR 0 / 2) with 0 by (cbn; lra). now rewrite at_frac_0.
    + unfold vget at 1. cbn [b_pts]. rewrite app_nth2, Nat.sub_diag by lia. cbn [nth]. unfold xy_mid, at_frac.
      destruct (vget b s.1) as [a1 a2], (vget b s.2) as [c1 c2]. cbn. f_equal; unfold Rdiv; rewrite ?sz_R; field.
    + unfold vget at 1. cbn [b_pts]. rewrite vget_more by exact H2. replace (INR 2 / 2) with 1 by (cbn; lra). now rewrite at_frac_1.
  - intros t. cbn [b_set]. rewrite elem_of_set_all, elem_of_difference, elem_of_singleton. unfold pieces. rewrite chain_lookup. cbn [seq app]. tauto.
Qed.

Lemma clean_more (b b' : bound R_arith) more : b_pts b' = b_pts b ++ more -> b_set b' = b_set b -> clean b -> clean b'.
Proof.
  intros Hp Hset [Hok Hcl].
  assert (Hold : forall t, t ∈ b_set b -> vget b' t.1 = vget b t.1 /\ vget b' t.2 = vget b t.2).
  { intros t Ht. destruct (Hok t Ht) as [[H1 H2] _]. unfold vget at 1 3. rewrite Hp. split; now apply vget_more. }
  split.
  - intros t Ht. rewrite Hset in Ht. destruct (Hold t Ht) as [-> ->]. destruct (Hok t Ht) as [[Q1 Q2] Q]. rewrite Hp, app_length. split; [lia|exact Q].
  - intros t t' x Ht Hc Hd Hx Hx'. rewrite Hset in Ht, Hc. destruct (Hold t Ht) as [E1 E2], (Hold t' Hc) as [E3 E4]. rewrite E1, E2 in Hx. rewrite E3, E4 in Hx'.
    destruct (Hcl t t' x Ht Hc Hd Hx Hx') as (v & Hv & Hv' & Ev). exists v. split; [exact Hv|]. split; [exact Hv'|]. destruct Hv as [->| ->]; congruence.
Qed.

(** everything but drawing a further outline, with positive lengths *)
Definition refining (o : bd_op R_arith) : Prop := match o with DPoly _ => False | DDivide _ h | DDivAll _ h => 0 < h | _ => True end.
Lemma clean_step (g : geo R_arith) o st st' : floor_ok g -> refining o -> clean st.1 -> bd_step g o st = Ret st' -> clean st'.1.
Proof.
  intros Fl Ho Hc E. destruct st as [b polys]. destruct o; cbn [bd_step] in E; cbn [refining] in Ho; cbn [fst] in Hc.
  - contradiction.
  - injection E as <-. cbn [fst]. apply (clean_more b _ [p]); [reflexivity|reflexivity|exact Hc].
  - injection E as <-. cbn [fst]. apply (clean_more b _ [p]); [reflexivity|reflexivity|exact Hc].
  - apply bind_ret_inv in E as (r & E & H). injection H as <-. exact (clean_split b s r Hc E).
  - apply bind_ret_inv in E as (r & E & H). injection H as <-. exact (clean_divide g b s h r Fl Ho Hc E).
  - apply bind_ret_inv in E as (r & E & H). injection H as <-. cbn [fst]. unfold divide_all_segments in E. clear polys. revert b Hc E.
    induction ord as [|s ord IH]; intros b Hc E; cbn [foldM] in E; [injection E as <-; exact Hc|]. apply bind_ret_inv in E as (b1 & E1 & E2).
    apply (IH b1); [|exact E2]. exact (clean_divide g b s h b1 Fl Ho Hc E1).
  - injection E as <-. apply (clean_more b _ []); [now rewrite app_nil_r|reflexivity|exact Hc].
  - injection E as <-. apply (clean_more b _ []); [now rewrite app_nil_r|reflexivity|exact Hc].
  - injection E as <-. apply (clean_more b _ []); [now rewrite app_nil_r|reflexivity|exact Hc].
  - injection E as <-. apply (clean_more b _ []); [now rewrite app_nil_r|reflexivity|exact Hc].
  - injection E as <-. apply (clean_more b _ []); [now rewrite app_nil_r|reflexivity|exact Hc].
Qed.
Lemma clean_history (g : geo R_arith) ops : forall st st', floor_ok g -> Forall refining ops -> clean st.1 -> foldM (bd_step g) ops st = Ret st' -> clean st'.1.
Proof.
  induction ops as [|o ops IH]; intros st st' Fl Ho Hc E; cbn [foldM] in E; [injection E as <-; exact Hc|]. apply Forall_cons in Ho as [H1 H2].
  apply bind_ret_inv in E as (s1 & E1 & E2). apply (IH s1 st' Fl H2); [|exact E2]. exact (clean_step g o st s1 Fl H1 Hc E1).
Qed.

(** the crossing test sees every common point *)
Definition sees (g : geo R_arith) : Prop := forall a c u w x, on_seg a c x -> on_seg u w x -> g_meet g a c u w = true.
Lemma drawn_clean (g : geo R_arith) b : sees g -> drawn g b -> (forall s, s ∈ b_set b -> vget b s.1 <> vget b s.2) ->
  (forall s t x, s ∈ b_set b -> t ∈ b_set b -> s <> t -> ~ loose s t -> on_seg (vget b s.1) (vget b s.2) x -> on_seg (vget b t.1) (vget b t.2) x ->
    exists v, (v = s.1 \/ v = s.2) /\ (v = t.1 \/ v = t.2) /\ x = vget b v) -> clean b.
Proof.
  intros Hg Hd Hne Hadj. destruct (drawn_uncrossed g b Hd) as [Hok Hun]. split.
  - intros s Hs. split; [exact (Hok s Hs)|exact (Hne s Hs)].
  - intros s t x Hs Ht Hst Hx Hx'.
    assert (Hdec : loose s t \/ ~ loose s t).
    { unfold loose. destruct (Nat.eq_dec s.1 t.1), (Nat.eq_dec s.1 t.2), (Nat.eq_dec s.2 t.1), (Nat.eq_dec s.2 t.2); tauto. }
    destruct Hdec as [Hl|Hl]; [|exact (Hadj s t x Hs Ht Hst Hl Hx Hx')]. exfalso.
    destruct (Hun s t Hs Ht Hl) as [F|F]; [rewrite (Hg _ _ _ _ x Hx Hx') in F|rewrite (Hg _ _ _ _ x Hx' Hx) in F]; discriminate.
Qed.

(** ** a closed crossing test on the reals, for the examples *)
Definition rle (x y : R) : bool := if Rle_dec x y then true else false.
Lemma rle_true x y : rle x y = true <-> x <= y.
Proof. unfold rle. destruct (Rle_dec x y); split; intros; try assumption; try reflexivity; [discriminate|contradiction]. Qed.
Definition turnR (a c p : xy R_arith) : R := (fst c - fst a) * (snd p - snd a) - (snd c - snd a) * (fst p - fst a).
Definition spans (a c u w : R) : bool := rle (Rmin a c) (Rmax u w) && rle (Rmin u w) (Rmax a c).
Definition full_meet (a c u w : xy R_arith) : bool :=
  rle (turnR a c u * turnR a c w) 0 && rle (turnR u w a * turnR u w c) 0 && (spans (fst a) (fst c) (fst u) (fst w) && spans (snd a) (snd c) (snd u) (snd w)).
Definition full_geo : geo R_arith := Geo R_arith full_meet (fun _ _ _ => s0) (fun _ _ _ => Zero) (fun _ _ _ => s0) (fun _ => s0) Int_part.
Lemma full_floor : floor_ok full_geo.
Proof. intros x. cbn. destruct (base_Int_part x). lra. Qed.
Lemma full_sym a c u w : g_meet full_geo a c u w = g_meet full_geo u w a c.
Proof. cbn. unfold full_meet, spans. rewrite (andb_comm (rle (turnR a c u * _) 0)), (andb_comm (rle (Rmin (fst a) _) _)), (andb_comm (rle (Rmin (snd a) _) _)). reflexivity. Qed.
Lemma full_sees : sees full_geo.
Proof.
  intros a c u w x (l & Hl & Ex) (m & Hm & Ey). cbn. unfold full_meet. apply andb_true_iff. split; [apply andb_true_iff; split; apply rle_true|].
  - assert (Z : (1 - m) * turnR a c u + m * turnR a c w = 0).
    { transitivity (turnR a c x); [rewrite Ey|rewrite Ex]; unfold turnR, at_frac; cbn; ring. }
    set (p := turnR a c u) in *. set (q := turnR a c w) in *. destruct (Rle_dec (p * q) 0) as [|Hpq]; [assumption|]. exfalso.
    destruct (Rle_dec p 0) as [Hp|Hp]; destruct (Rle_dec q 0) as [Hq|Hq]; nra.
  - assert (Z : (1 - l) * turnR u w a + l * turnR u w c = 0).
    { transitivity (turnR u w x); [rewrite Ex|rewrite Ey]; unfold turnR, at_frac; cbn; ring. }
    set (p := turnR u w a) in *. set (q := turnR u w c) in *. destruct (Rle_dec (p * q) 0) as [|Hpq]; [assumption|]. exfalso.
    destruct (Rle_dec p 0) as [Hp|Hp]; destruct (Rle_dec q 0) as [Hq|Hq]; nra.
  - assert (K : forall y z k : R, 0 <= k <= 1 -> Rmin y z <= y + k * (z - y) <= Rmax y z).
    { intros y z k Hk. unfold Rmin, Rmax. destruct (Rle_dec y z); split; nra. }
    assert (S0 : forall y z k y' z' k' : R, 0 <= k <= 1 -> 0 <= k' <= 1 -> y + k * (z - y) = y' + k' * (z' - y') -> spans y z y' z' = true).
    { intros y z k y' z' k' Hk Hk' E. pose proof (K y z k Hk). pose proof (K y' z' k' Hk'). unfold spans. apply andb_true_iff. split; apply rle_true; lra. }
    rewrite Ex in Ey. injection Ey as E1 E2. apply andb_true_iff. split; [apply (S0 _ _ l _ _ m)|apply (S0 _ _ l _ _ m)]; assumption.
Qed.

Lemma on_seg_sym a c x : on_seg a c x -> on_seg c a x.
Proof. intros (l & Hl & ->). exists (1 - l). split; [lra|]. unfold at_frac. cbn. f_equal; ring. Qed.
Lemma corner p q r x : turnR p q r <> 0 -> on_seg p q x -> on_seg p r x -> x = p.
Proof.
  intros Ht (l & _ & Ex) (m & _ & Ey).
  assert (Z : m * turnR p q r = 0). { transitivity (turnR p q x); [rewrite Ey|rewrite Ex]; unfold turnR, at_frac; cbn; ring. }
  apply Rmult_integral in Z as [->|Z]; [|contradiction]. rewrite Ey. apply at_frac_0.
Qed.
