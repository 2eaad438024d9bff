(** C53 - C55: the plane boundary. *)
From Coq Require Import Floats Reals Lra.
From Verif Require Import DivideR MeshEx InstR InstQc InstF64.
Local Open Scope list_scope.
Local Open Scope nat_scope.

(** a triangular outline with a support on its first side and a load on its second *)
Definition outline {A : arith} : list (bd_op A) :=
  [DPoly [(sz 0, sz 0); (sz 4, sz 0); (sz 0, sz 3)]; DDcons 0 1 XYFixed; DForce 2 1 (pt2 (sz 5) (sz 7))].

(** *** C53 — a divided segment consists of equal pieces of length at least h and below
    sqrt 3 h, lying along the segment in order; the division fails exactly when no number of
    equal pieces meets these limits *)
Theorem C53_pieces (g : geo R_arith) (b : bound R_arith) polys s (h : R) b' :
  floor_ok g -> (0 < h)%R -> bd_built g b polys -> divide_segment g b s h = Ret b' ->
  exists n vs, piece_count (rdist (vget b s.1) (vget b s.2)) h n /\
    length vs = S (Z.to_nat n) /\ head vs = Some s.1 /\ last vs = Some s.2 /\
    (forall i v, vs !! i = Some v -> vget b' v = along_R (vget b s.1) (vget b s.2) n i) /\
    (forall i u v, vs !! i = Some u -> vs !! S i = Some v ->
       rdist (vget b' u) (vget b' v) = (rdist (vget b s.1) (vget b s.2) / IZR n)%R) /\
    (forall t, t ∈ b_set b' <-> (t ∈ b_set b /\ t <> s) \/ (exists i, vs !! i = Some t.1 /\ vs !! S i = Some t.2)).
Proof.
  intros Fl Hh Hb E. destruct (bd_built_inv g b polys Hb) as (base & cs & Hi & _).
  pose proof (divide_ret _ _ _ _ _ E) as (Hs & _ & Eb). cbv zeta in Eb.
  assert (Hin : s ∈ edges_of cs) by (now apply (bi_set _ _ _ Hi)).
  assert (B1 : s.1 < length (b_pts b)).
  { apply (bi_fresh _ _ _ Hi), (bi_stored _ _ _ Hi). rewrite <- edges_fst. apply elem_of_list_fmap. eauto. }
  assert (B2 : s.2 < length (b_pts b)).
  { apply (bi_fresh _ _ _ Hi), (bi_stored _ _ _ Hi). rewrite <- edges_snd. apply elem_of_list_fmap. eauto. }
  destruct (divide_positions g b s h b' Fl Hh B1 B2 E) as (Pc & Hl & Hp). cbv zeta in *.
  set (n := div_num g (vget b s.1) (vget b s.2) h) in *. set (ns := seq (length (b_pts b)) (Z.to_nat (n - 1))) in *.
  exists n, (s.1 :: ns ++ [s.2]). split; [exact Pc|]. split; [exact Hl|]. split; [reflexivity|].
  split; [change (s.1 :: ns ++ [s.2]) with ((s.1 :: ns) ++ [s.2]); apply last_snoc|]. split; [exact Hp|]. split.
  - intros i u v Hu Hv. rewrite (Hp _ _ Hu), (Hp _ _ Hv). apply along_dist. apply Pc.
  - intros t. rewrite Eb. cbn [b_set]. rewrite elem_of_set_all, elem_of_difference, elem_of_singleton.
    assert (K : forall l x, t ∈ chain x l <-> exists i, (x :: l) !! i = Some t.1 /\ (x :: l) !! S i = Some t.2).
    { clear. induction l as [|y l IH]; intros x; cbn [chain].
      - rewrite elem_of_nil. split; [contradiction|]. intros (i & _ & H). destruct i; discriminate.
      - rewrite elem_of_cons, IH. split.
        + intros [->|(i & H1 & H2)]; [exists 0; auto|]. exists (S i). auto.
        + intros ([|i] & H1 & H2).
          * left. cbn in H1, H2. destruct t. cbn in *. congruence.
          * right. exists i. auto. }
    unfold pieces. fold ns. rewrite K. tauto.
Qed.
Print Assumptions C53_pieces.
Theorem C53_fails (g : geo R_arith) (b : bound R_arith) s (h : R) :
  floor_ok g -> (0 < h)%R -> s ∈ b_set b ->
  (divide_segment g b s h = Panic <-> ~ exists n, piece_count (rdist (vget b s.1) (vget b s.2)) h n) /\
  (divide_segment g b s h = Panic \/ exists b', divide_segment g b s h = Ret b').
Proof.
  intros Fl Hh Hs. pose proof (divide_total g b s h Hs) as T. rewrite <- (count_num g Fl _ _ h Hh).
  destruct (Z.eqb_spec (div_low g (vget b s.1) (vget b s.2) h) (div_num g (vget b s.1) (vget b s.2) h)) as [E|E].
  - split; [split; auto|auto].
  - destruct T as (b' & T). split; [|right; eauto]. rewrite T. split; [discriminate|]. intros H. contradiction.
Qed.
Print Assumptions C53_fails.
(** With the upper limit included, as the comment in bounds.rs:351 has it, the statement is false:
    a side of length exactly sqrt 3 h is one piece within the limits, yet the division panics. *)
Theorem C53_refuted_closed : exists (g : geo R_arith) (b : bound R_arith) polys s,
  floor_ok g /\ bd_built g b polys /\ s ∈ b_set b /\
  (1 <= rdist (vget b s.1) (vget b s.2) / IZR 1 <= R_sqrt.sqrt 3 * 1)%R /\ divide_segment g b s (1%R : R_arith) = Panic.
Proof.
  set (g := Geo R_arith (fun _ _ _ _ => false) (fun _ _ _ => s0) (fun _ _ _ => Zero) (fun _ _ _ => s0) (fun _ => s0) Int_part).
  assert (Fl : floor_ok g) by (intros x; cbn; destruct (base_Int_part x); lra).
  set (poly := [(0%R, 0%R); (R_sqrt.sqrt 3, 0%R); (0%R, 1%R)] : list (xy R_arith)).
  destruct (poly_total g (b_new []) poly) as (r & E); [reflexivity|discriminate|].
  pose proof (polygon_ret _ _ _ _ E) as (p & rest & Ep & Er). cbv zeta in Er. injection Ep as <- <-.
  exists g, r.1, [r.2], (0, 1). split; [exact Fl|]. split; [exists [], [DPoly poly]; cbn [foldM bd_step]; rewrite E; reflexivity|].
  assert (Hs : (0, 1) ∈ b_set r.1).
  { rewrite Er. cbn [fst b_set]. apply elem_of_set_all. left. cbn. apply elem_of_list_here. }
  assert (S3 : (1 < R_sqrt.sqrt 3)%R) by (rewrite <- sqrt_1 at 1; apply sqrt_lt_1; lra).
  assert (Hd : rdist (vget r.1 0) (vget r.1 1) = R_sqrt.sqrt 3).
  { rewrite Er. unfold rdist, vget. cbn [fst snd b_pts b_new app poly nth].
    replace ((0 - R_sqrt.sqrt 3) * (0 - R_sqrt.sqrt 3) + (0 - 0) * (0 - 0))%R with (R_sqrt.sqrt 3 * R_sqrt.sqrt 3)%R by ring. apply sqrt_square. lra. }
  split; [exact Hs|]. cbn [fst snd]. split; [rewrite Hd; lra|].
  apply (proj1 (C53_fails g r.1 (0, 1) 1%R Fl Rlt_0_1 Hs)). cbn [fst snd]. rewrite Hd. intros (n & Hn & H1 & H2).
  assert (Hn' : (1 <= IZR n)%R) by (apply (IZR_le 1); lia).
  destruct (Z.eq_dec n 1%Z) as [->|Hn1]; [lra|]. assert (Hn2 : (2 <= IZR n)%R) by (apply (IZR_le 2); lia).
  assert (S2 : (R_sqrt.sqrt 3 < 2)%R) by (rewrite <- (sqrt_square 2) by lra; apply sqrt_lt_1; lra).
  apply (Rmult_le_compat_r (IZR n)) in H1; [|lra]. replace (R_sqrt.sqrt 3 / IZR n * IZR n)%R with (R_sqrt.sqrt 3) in H1 by (field; lra). lra.
Qed.
Print Assumptions C53_refuted_closed.
(** the longer side, of length 5, into pieces of at least 2 *)
Example C53_example : exists g : geo R_arith, floor_ok g /\ piece_count 5 2 2.
Proof.
  exists (Geo R_arith (fun _ _ _ _ => false) (fun _ _ _ => s0) (fun _ _ _ => Zero) (fun _ _ _ => s0) (fun _ => s0) Int_part).
  split; [intros x; cbn; destruct (base_Int_part x); lra|]. split; [lia|].
  assert (H : (1.7 < R_sqrt.sqrt 3)%R).
  { rewrite <- (sqrt_square 1.7) by lra. apply sqrt_lt_1; lra. }
  lra.
Qed.
(** and the same run in binary64: two pieces with the new vertex half way *)
Example C53_example_run :
  (r ← foldM (bd_step f64_geo) outline (b_new [], []);
   b ← divide_segment f64_geo r.1 (1, 2) (fl 2);
   Ret (vget b 3, is_segment b (1, 3), is_segment b (3, 2), is_segment b (1, 2))) = Ret ((fl 2, fl 1.5), true, true, false).
Proof. vm_refl. Qed.

(** *** C54 — the boundary stays a set of closed loops *)
Theorem C54_loops (A : arith) (g : geo A) (b : bound A) polys :
  bd_built g b polys -> polys <> [] ->
  exists loops : list loop,
    all_walls b = Ret (concat (map loop_edges loops)) /\
    NoDup (concat (map loop_edges loops)) /\ NoDup (concat (map loop_list loops)) /\
    (forall s, s ∈ b_set b <-> s ∈ concat (map loop_edges loops)) /\
    Forall2 (fun ids l => wall (b_map b) l.1 = Ret (loop_edges l) /\ head ids = Some l.1 /\ sublist ids (loop_list l)) polys loops.
Proof.
  intros Hb Hne. destruct (bd_built_inv g b polys Hb) as (base & cs & Hi & ->). exists cs.
  pose proof (bi_refines _ _ _ Hi) as F. assert (Hc : cs <> []).
  { intros ->. inversion F. subst. contradiction. }
  pose proof (bi_loops _ _ _ Hi) as L. split.
  - unfold all_walls. rewrite (bi_starts _ _ _ Hi). now apply all_walls_loops.
  - destruct L as [Ln Lm]. split.
    + apply (NoDup_fmap_1 fst). change (NoDup (edges_of cs).*1). rewrite edges_fst. exact Ln.
    + split; [exact Ln|]. split; [apply (bi_set _ _ _ Hi)|].
      assert (K : forall l, l ∈ cs -> wall (b_map b) l.1 = Ret (loop_edges l)) by (intros l Hl; now apply (wall_loop _ cs)).
      clear -F K. induction F as [|d d' ? ? [H1 H2] _ IH]; cbn [map]; constructor.
      * split; [apply K, elem_of_list_here|]. unfold loop_list. cbn [head]. split; [now rewrite H1|]. rewrite H1. now apply sublist_skip.
      * apply IH. intros l0 Hl. apply K. now apply elem_of_list_further.
Qed.
Print Assumptions C54_loops.
(** the undivided outline kept for visibility tests stays what was stored *)
Theorem C54_base (A : arith) (g : geo A) (b : bound A) polys :
  bd_built g b polys -> polys <> [] ->
  exists base : list loop, polys = map loop_list base /\ all_base_walls b = Ret (concat (map loop_edges base)).
Proof.
  intros Hb Hne. destruct (bd_built_inv g b polys Hb) as (base & cs & Hi & ->). exists base. split; [reflexivity|].
  unfold all_base_walls. rewrite (bi_base_starts _ _ _ Hi). apply all_walls_loops; [apply (bi_base _ _ _ Hi)|].
  intros ->. contradiction.
Qed.
Print Assumptions C54_base.
Example C54_example :
  (r ← foldM (bd_step f64_geo) (outline ++ [DSplit (1, 2); DNew (fl 9, fl 9); DDivide (0, 1) (fl 1)]) (b_new [], []);
   w ← all_walls r.1; w' ← all_base_walls r.1; Ret (r.2, w, w')) =
  Ret ([[0; 1; 2]], [(0, 5); (5, 6); (6, 7); (7, 1); (1, 3); (3, 2); (2, 0)], [(0, 1); (1, 2); (2, 0)]).
Proof. vm_refl. Qed.

(** *** C55 — loads and supports of a refined segment *)
(** what a segment carries: its own entry, or else that of the reversed segment *)
Definition carries {V : Type} (m : gmap (nat * nat) V) (s : nat * nat) : option V :=
  match m !! s with Some v => Some v | None => m !! (s.2, s.1) end.
(** the entry moved from [s] to exactly the given pieces, all else unchanged *)
Definition moved {V : Type} (m : gmap (nat * nat) V) (s : nat * nat) (ps : list (nat * nat)) (m' : gmap (nat * nat) V) : Prop :=
  match carries m s with
  | None => m' = m
  | Some v => forall t, m' !! t = if decide (t ∈ ps) then Some v
                                 else if decide (t = s \/ (t = (s.2, s.1) /\ m !! s = None)) then None else m !! t
  end.
Lemma put_moved {V : Type} (m : gmap (nat * nat) V) s ps : moved m s ps (put_all (removed m s) ps (carried m s)).
Proof.
  unfold moved. change (carries m s) with (carried m s). destruct (carried m s) as [v|] eqn:E.
  - intros t. rewrite put_all_Some, removed_lookup. reflexivity.
  - rewrite put_all_None. now apply removed_None.
Qed.
Theorem C55_split (A : arith) (b b' : bound A) s p q m :
  split_segment b s = Ret (b', (p, q, m)) ->
  p = (s.1, m) /\ q = (m, s.2) /\ moved (b_forces b) s [p; q] (b_forces b') /\ moved (b_dcons b) s [p; q] (b_dcons b').
Proof.
  intros E. apply split_ret in E as (_ & E). injection E as -> -> -> ->. cbn [b_forces b_dcons].
  split; [reflexivity|]. split; [reflexivity|]. split; exact (put_moved _ s (pieces b s 1)).
Qed.
Print Assumptions C55_split.
Theorem C55_divide_loads (A : arith) (g : geo A) (b b' : bound A) s h :
  divide_segment g b s h = Ret b' ->
  exists ns, (forall t, t ∈ b_set b' <-> (t ∈ b_set b /\ t <> s) \/ t ∈ chain s.1 (ns ++ [s.2])) /\
    moved (b_forces b) s (chain s.1 (ns ++ [s.2])) (b_forces b').
Proof.
  intros E. apply divide_ret in E as (_ & _ & E). cbv zeta in E. exists (seq (length (b_pts b)) (Z.to_nat (div_num g (vget b s.1) (vget b s.2) h - 1))). split.
  - intros t. rewrite E. cbn [b_set]. rewrite elem_of_set_all, elem_of_difference, elem_of_singleton. unfold pieces. tauto.
  - rewrite E. cbn [b_forces]. apply put_moved.
Qed.
Print Assumptions C55_divide_loads.
(** supports of a divided segment: full statement false, see below.  What is missing here is
    the last piece: the support is recorded on all pieces but that one; all vertices of the
    pieces, the ends included, are supported. *)
Theorem C55_divide_supports_partial (A : arith) (g : geo A) (b b' : bound A) s h :
  divide_segment g b s h = Ret b' ->
  exists ns, (forall t, t ∈ b_set b' <-> (t ∈ b_set b /\ t <> s) \/ t ∈ chain s.1 (ns ++ [s.2])) /\
    moved (b_dcons b) s (chain s.1 ns) (b_dcons b') /\
    (forall v, b_cons b' !! v = match carries (b_dcons b) s with
                                | Some c => if decide (v ∈ s.1 :: s.2 :: ns) then Some c else b_cons b !! v
                                | None => b_cons b !! v
                                end).
Proof.
  intros E. apply divide_ret in E as (_ & _ & E). cbv zeta in E. exists (seq (length (b_pts b)) (Z.to_nat (div_num g (vget b s.1) (vget b s.2) h - 1))). split.
  - intros t. rewrite E. cbn [b_set]. rewrite elem_of_set_all, elem_of_difference, elem_of_singleton. unfold pieces. tauto.
  - split; [rewrite E; cbn [b_dcons]; apply put_moved|]. intros v. rewrite E. cbn [b_cons].
    change (carries (b_dcons b) s) with (carried (b_dcons b) s). destruct (carried (b_dcons b) s) as [c|].
    + rewrite put_all_Some. set (ns := seq _ _). assert (K : v ∈ ns ++ [s.1; s.2] <-> v ∈ s.1 :: s.2 :: ns).
      { rewrite elem_of_app, !elem_of_cons, elem_of_nil. tauto. }
      destruct (decide (v ∈ ns ++ [s.1; s.2])) as [H|H].
      * now rewrite decide_True by (now apply K).
      * now rewrite decide_False by (now rewrite <- K).
    + now rewrite put_all_None.
Qed.
Print Assumptions C55_divide_supports_partial.
(** The supported side (0,1) divided into four: the last piece (5,1) carries no support; when it
    is split, the new vertex 6 is free although it lies on the supported side. *)
Theorem C55_refuted : exists (b b' : bound F64_arith) polys r,
  bd_built f64_geo b polys /\ b_dcons b !! (0, 1) = Some XYFixed /\
  divide_segment f64_geo b (0, 1) (fl 1) = Ret b' /\
  (5, 1) ∈ b_set b' /\ b_dcons b' !! (0, 3) = Some XYFixed /\ b_dcons b' !! (5, 1) = None /\
  split_segment b' (5, 1) = Ret r /\ r.2.2 = 6 /\
  all_constraints r.1 (elements (dom (b_dcons r.1))) !! 6 = None /\
  all_constraints r.1 (elements (dom (b_dcons r.1))) !! 5 = Some XYFixed.
Proof.
  assert (F : (st ← foldM (bd_step f64_geo) outline (b_new [], []); b' ← divide_segment f64_geo st.1 (0, 1) (fl 1);
               r ← split_segment b' (5, 1);
               Ret (b_dcons st.1 !! (0, 1), bool_decide ((5, 1) ∈ b_set b'), b_dcons b' !! (0, 3), b_dcons b' !! (5, 1), r.2.2,
                    all_constraints r.1 (elements (dom (b_dcons r.1))) !! 6,
                    all_constraints r.1 (elements (dom (b_dcons r.1))) !! 5)) =
              Ret (Some XYFixed, true, Some XYFixed, None, 6, None, Some XYFixed)) by vm_refl.
  apply bind_ret_inv in F as ([b polys] & Eb & F). apply bind_ret_inv in F as (b' & Ed & F). apply bind_ret_inv in F as (r & Es & F).
  injection F as H1 H2 H3 H4 H5 H6 H7. apply bool_decide_eq_true in H2.
  exists b, b', polys, r. split; [exists [], outline; exact Eb|]. repeat (split; [assumption|]). exact H7.
Qed.
Print Assumptions C55_refuted.
(** the load on the reversed segment (2,1) moves to the pieces of (1,2) *)
Example C55_example :
  (st ← foldM (bd_step f64_geo) outline (b_new [], []); r ← split_segment st.1 (1, 2);
   Ret (b_forces st.1 !! (2, 1), b_forces r.1 !! (2, 1), b_forces r.1 !! (1, 3), b_forces r.1 !! (3, 2))) =
  Ret (Some (pt2 (fl 5) (fl 7)), None, Some (pt2 (fl 5) (fl 7)), Some (pt2 (fl 5) (fl 7))).
Proof. vm_refl. Qed.
