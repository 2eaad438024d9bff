(** Insertion of points and of boundary midpoints: the tables stay consistent, the signed sum of
    any antisymmetric edge quantity over the triangles is conserved. *)
From Verif Require Export PlaneProofs.
From Coq Require Import Ring.

Section mesh.
Context {A : arith} (g : geo A).
Implicit Types st : plane A.

Definition n_pts st : nat := length (b_pts (t_bound st)).
Definition in_range st (t : tri) : Prop := t.1.1 < n_pts st /\ t.1.2 < n_pts st /\ t.2 < n_pts st.
Definition radius_of st (t : tri) : A := g_cr g (tget st t.1.1) (tget st t.1.2) (tget st t.2).

(** consistent tables, and every stored triangle is counter-clockwise with its own circumradius *)
Record mesh_ok st : Prop := {
  mo_tab : tables_ok (t_tris st) (t_full st);
  mo_geo : forall t c, t_full st !! t = Some c -> in_range st t /\ triangle_dir g st t = Positive /\ c = radius_of st t }.

Definition same_verts st st' : Prop := t_bound st' = t_bound st /\ t_verts st' = t_verts st.
Lemma same_refl st : same_verts st st.
Proof. split; reflexivity. Qed.
Lemma same_trans st1 st2 st3 : same_verts st1 st2 -> same_verts st2 st3 -> same_verts st1 st3.
Proof. intros [h1 h2] [k1 k2]. split; congruence. Qed.

Lemma add_ret st t st' : add_triangle g st t = Some st' ->
  triangle_dir g st t = Positive /\ (forall e, e ∈ tri_edges t -> t_tris st !! e = None) /\
  same_verts st st' /\ t_tris st' = tris_add (t_tris st) t /\ t_full st' = <[t := radius_of st t]> (t_full st).
Proof.
  unfold add_triangle. destruct (triangle_dir g st t) eqn:Hd; cbn [is_positive negb]; try discriminate.
  destruct (existsb _ _) eqn:Hx; [discriminate|]. intros [= <-]. cbn. split; [reflexivity|]. split; [|repeat split].
  intros e He. destruct (t_tris st !! e) eqn:Hl; [|reflexivity]. exfalso.
  assert (Ht : existsb (fun e => bool_decide (is_Some (t_tris st !! e))) (tri_edges t) = true); [|congruence].
  apply existsb_exists. exists e. split; [now apply elem_of_list_In|]. apply bool_decide_eq_true. rewrite Hl. eauto.
Qed.
Lemma mesh_add st t st' : mesh_ok st -> in_range st t -> add_triangle g st t = Some st' ->
  mesh_ok st' /\ same_verts st st' /\ t_full st !! t = None /\ t_full st' = <[t := radius_of st t]> (t_full st).
Proof.
  intros H Hr Ha. destruct (add_ret _ _ _ Ha) as (Hd & Hn & [Hb Hv] & Ht & Hf).
  destruct (tables_add _ _ t (radius_of st t) (mo_tab _ H) Hn) as [Hok Hnone]. split; [|split; [now split|auto]].
  split; [now rewrite Ht, Hf|].
  intros t' c Hc. rewrite Hf in Hc. unfold in_range, n_pts, triangle_dir, radius_of, tget. rewrite Hb.
  apply lookup_insert_Some in Hc as [[<- <-]|[_ Hc]].
  - split; [exact Hr|]. split; [exact Hd|reflexivity].
  - now apply (mo_geo _ H).
Qed.

Lemma mesh_del st t st' : mesh_ok st -> delete_triangle st t = Some st' ->
  mesh_ok st' /\ same_verts st st' /\ in_range st t /\ exists t0, t0 ∈ tri_rots t /\ is_Some (t_full st !! t0) /\ t_full st' = delete t0 (t_full st).
Proof.
  intros H. unfold delete_triangle. case_bool_decide as Hl; [|discriminate]. intros Ed. apply (inj Some) in Ed. subst st'.
  destruct (remove_first_rot _ _ t (mo_tab _ H) Hl) as (t0 & H0 & Hs & Hr). rewrite Hr.
  split; [|split; [split; reflexivity|split; [|eauto]]].
  - split; cbn; [now apply (tables_del _ _ t t0 (mo_tab _ H))|].
    intros t' c Hc. apply lookup_delete_Some in Hc as [_ Hc]. exact (mo_geo _ H _ _ Hc).
  - destruct Hs as [c Hc]. destruct (mo_geo _ H _ _ Hc) as [Hi _]. destruct t as [[a b] c']. apply in_rots in H0.
    unfold in_range in *. destruct H0 as [->|[->| ->]]; cbn in *; tauto.
Qed.

Lemma adjacent_range st u v w : mesh_ok st -> t_tris st !! (u, v) = Some w -> in_range st (u, v, w).
Proof.
  intros H Hl. destruct (to_only _ _ (mo_tab _ H) _ _ _ Hl) as (t & Ht & [c Hc]).
  destruct (mo_geo _ H _ _ Hc) as [Hi _]. apply in_rots in Ht. unfold in_range in *. destruct Ht as [->|[->| ->]]; cbn in *; tauto.
Qed.

Lemma range_same st st' t : same_verts st st' -> in_range st t -> in_range st' t.
Proof. intros [H _]. unfold in_range, n_pts. now rewrite H. Qed.

(** ** Sums of an antisymmetric edge quantity *)
Section sums.
Context {R : Type} (rO rI : R) (radd rmul rsub : R -> R -> R) (ropp : R -> R).
Hypothesis RT : ring_theory rO rI radd rmul rsub ropp eq.
Add Ring RR2 : RT.
Variable w : edge -> R.
Hypothesis anti : forall a b, radd (w (a, b)) (w (b, a)) = rO.
Local Notation total st := (tsum rO radd (around radd w) (t_full st)).
Local Notation round t := (around radd w t).

Definition grows (u : nat) st st' : Prop := forall t, is_Some (t_full st' !! t) -> is_Some (t_full st !! t) \/ t.1.1 = u.
Lemma grows_trans u st1 st2 st3 : grows u st1 st2 -> grows u st2 st3 -> grows u st1 st3.
Proof. intros H1 H2 t Ht. destruct (H2 t Ht); auto. Qed.

Lemma add_total st t st' : mesh_ok st -> in_range st t -> add_triangle g st t = Some st' ->
  mesh_ok st' /\ same_verts st st' /\ grows t.1.1 st st' /\ total st' = radd (total st) (round t).
Proof.
  intros H Hr Ha. destruct (mesh_add _ _ _ H Hr Ha) as (Hok & Hsame & Hn & Hf). split; [exact Hok|]. split; [exact Hsame|]. split.
  - intros t' Ht'. rewrite Hf in Ht'. destruct (decide (t' = t)) as [->|n]; [now right|]. rewrite lookup_insert_ne in Ht' by congruence. now left.
  - rewrite Hf, (tsum_insert _ _ _ _ _ _ RT) by exact Hn. ring.
Qed.
Lemma del_total st t st' : mesh_ok st -> delete_triangle st t = Some st' ->
  mesh_ok st' /\ same_verts st st' /\ in_range st t /\ (forall t', is_Some (t_full st' !! t') -> is_Some (t_full st !! t')) /\
  total st = radd (total st') (round t).
Proof.
  intros H Hd. destruct (mesh_del _ _ _ H Hd) as (Hok & Hsame & Hr & t0 & H0 & Hs & Hf).
  split; [exact Hok|]. split; [exact Hsame|]. split; [exact Hr|]. rewrite Hf. split.
  - intros t' [c Hc]. apply lookup_delete_Some in Hc as [_ Hc]. eauto.
  - rewrite (tsum_delete _ _ _ _ _ _ RT _ _ t0 Hs), (around_rot _ _ _ _ _ _ RT w t t0 H0). ring.
Qed.

Lemma unwrap_inv {X} (o : option X) x : unwrap o = Ret x -> o = Some x.
Proof. destruct o; cbn; congruence. Qed.

Lemma dig_total : forall fuel u v x st st', mesh_ok st -> in_range st (u, v, x) -> dig g fuel u v x st = Ret st' ->
  mesh_ok st' /\ same_verts st st' /\ grows u st st' /\ total st' = radd (total st) (round (u, v, x)).
Proof.
  induction fuel as [|fuel IH]; intros u v x st st' H Hr E; [discriminate|]. cbn [dig] in E.
  assert (Hadd : unwrap (add_triangle g st (u, v, x)) = Ret st' ->
    mesh_ok st' /\ same_verts st st' /\ grows u st st' /\ total st' = radd (total st) (round (u, v, x))).
  { intros Ha. apply unwrap_inv in Ha. exact (add_total _ _ _ H Hr Ha). }
  assert (Hdeep : forall y, t_tris st !! (x, v) = Some y ->
    (st ← unwrap (delete_triangle st (x, v, y)); st ← dig g fuel u v y st; dig g fuel u y x st) = Ret st' ->
    mesh_ok st' /\ same_verts st st' /\ grows u st st' /\ total st' = radd (total st) (round (u, v, x))).
  { intros y Hy E'. pose proof (adjacent_range _ _ _ _ H Hy) as Hry.
    apply bind_ret_inv in E' as (s1 & D & E'). apply bind_ret_inv in E' as (s2 & D1 & D2). apply unwrap_inv in D.
    destruct (del_total _ _ _ H D) as (H1 & Hs1 & _ & Hsub & T1).
    assert (Hr1 : in_range s1 (u, v, y)). { apply (range_same _ _ _ Hs1). unfold in_range in *. cbn in *. tauto. }
    destruct (IH _ _ _ _ _ H1 Hr1 D1) as (H2 & Hs2 & G2 & T2).
    assert (Hr2 : in_range s2 (u, y, x)). { apply (range_same _ _ _ Hs2), (range_same _ _ _ Hs1). unfold in_range in *. cbn in *. tauto. }
    destruct (IH _ _ _ _ _ H2 Hr2 D2) as (H3 & Hs3 & G3 & T3).
    split; [exact H3|]. split; [eapply same_trans; [exact Hs1|]; eapply same_trans; eassumption|]. split.
    - intros t Ht. destruct (G3 t Ht) as [K|K]; [|now right]. destruct (G2 t K) as [K'|K']; [left; auto|now right].
    - rewrite T3, T2, T1. generalize (total s1). intros z. unfold around. cbn [fst snd].
      pose proof (anti y u) as Q1. pose proof (anti x v) as Q2.
      transitivity (radd (radd (radd z (radd (w (v, y)) (w (y, x)))) (radd (w (u, v)) (w (x, u)))) (radd (w (y, u)) (w (u, y)))); [ring|].
      rewrite Q1, <- Q2. ring. }
  destruct (_ || _); [auto|]. unfold pl_adjacent in E. destruct (t_tris st !! (x, v)) as [y|] eqn:Hy; [|auto].
  destruct (is_negative _); [eauto|]. apply bind_ret_inv in E as ([] & _ & E); [eauto|auto].
Qed.

Lemma insert_total fuel u t st st' : mesh_ok st -> u < n_pts st -> insert_vertex g fuel u t st = Ret st' ->
  mesh_ok st' /\ same_verts st st' /\ grows u st st' /\ total st' = total st.
Proof.
  intros H Hu E. destruct t as [[a b] c]. unfold insert_vertex in E. cbn [fst snd] in E.
  apply bind_ret_inv in E as (s0' & D & E). apply bind_ret_inv in E as (s1 & D1 & E). apply bind_ret_inv in E as (s2 & D2 & D3).
  apply unwrap_inv in D. destruct (del_total _ _ _ H D) as (H0 & Hs0 & Hr & Hsub & T0).
  assert (R1 : in_range s0' (u, a, b)). { apply (range_same _ _ _ Hs0). unfold in_range in *. cbn in *. tauto. }
  destruct (dig_total _ _ _ _ _ _ H0 R1 D1) as (H1 & Hs1 & G1 & T1). pose proof (same_trans _ _ _ Hs0 Hs1) as K1.
  assert (R2 : in_range s1 (u, b, c)). { apply (range_same _ _ _ K1). unfold in_range in *. cbn in *. tauto. }
  destruct (dig_total _ _ _ _ _ _ H1 R2 D2) as (H2 & Hs2 & G2 & T2). pose proof (same_trans _ _ _ K1 Hs2) as K2.
  assert (R3 : in_range s2 (u, c, a)). { apply (range_same _ _ _ K2). unfold in_range in *. cbn in *. tauto. }
  destruct (dig_total _ _ _ _ _ _ H2 R3 D3) as (H3 & Hs3 & G3 & T3). pose proof (same_trans _ _ _ K2 Hs3) as K3.
  split; [exact H3|]. split; [exact K3|]. split.
  - intros t Ht. destruct (grows_trans _ _ _ _ (grows_trans _ _ _ _ G1 G2) G3 t Ht) as [K|K]; [left; auto|now right].
  - rewrite T3, T2, T1, T0. generalize (total s0'). intros z. unfold around. cbn [fst snd].
    pose proof (anti u a) as Q1. pose proof (anti u b) as Q2. pose proof (anti u c) as Q3.
    transitivity (radd (radd (radd (radd z (radd (radd (w (a, b)) (w (b, c))) (w (c, a)))) (radd (w (u, a)) (w (a, u))))
      (radd (w (u, b)) (w (b, u)))) (radd (w (u, c)) (w (c, u)))); [ring|]. rewrite Q1, Q2, Q3. ring.
Qed.
End sums.
End mesh.
