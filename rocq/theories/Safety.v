(** Unchecked accesses: states reachable through the interface never index outside the
    buffer. *)
From Verif Require Export BiToLe.

(** states reachable from [init] by writes through get_mut and by [other] operations *)
Inductive reach {A : arith} {M : Type} `{ML : MatrixLike A M} (init : M -> Prop) (other : M -> M -> Prop) : M -> Prop :=
| reach_init m : init m -> reach init other m
| reach_write m loc f m' : reach init other m -> mmut m loc f = Ret (Some m') -> reach init other m'
| reach_other m m' : reach init other m -> other m m' -> reach init other m'.

(** every read and every write, at any index whatsoever, avoids undefined behaviour *)
Definition accesses_safe {A : arith} {M : Type} `{ML : MatrixLike A M} (m : M) : Prop :=
  forall loc f, mget m loc <> UB /\ mmut m loc f <> UB.

Lemma reach_inv {A : arith} {M : Type} `{ML : MatrixLike A M} (init : M -> Prop) (other : M -> M -> Prop) (P : M -> Prop) :
  (forall m, init m -> P m) ->
  (forall m loc f m', P m -> mmut m loc f = Ret (Some m') -> P m') ->
  (forall m m', P m -> other m m' -> P m') ->
  forall m, reach init other m -> P m.
Proof. intros H1 H2 H3 m. induction 1; eauto. Qed.

Lemma laws_safe {A : arith} {M : Type} `{ML : MatrixLike A M} wf dom (L : ml_laws wf dom) (m : M) :
  wf m -> accesses_safe m.
Proof.
  intros W [r c] f. split.
  - destruct (decide (r < (mshape m).1 /\ c < (mshape m).2)) as [[H1 H2]|H].
    + now rewrite (law_get _ _ L).
    + rewrite (law_get_out _ _ L); [discriminate|exact W|]. lia.
  - destruct (dom m r c) eqn:E.
    + destruct (law_mut _ _ L m r c f W E) as (m' & -> & _). discriminate.
    + now rewrite (law_mut_no _ _ L).
Qed.

Lemma laws_write {A : arith} {M : Type} `{ML : MatrixLike A M} wf dom (L : ml_laws wf dom) (m m' : M) loc f :
  wf m -> mmut m loc f = Ret (Some m') -> wf m'.
Proof.
  destruct loc as [r c]. intros W E. destruct (dom m r c) eqn:Ed.
  - destruct (law_mut _ _ L m r c f W Ed) as (m2 & E2 & W2 & _). congruence.
  - rewrite (law_mut_no _ _ L) in E by assumption. discriminate.
Qed.

(** inverting a successful loop *)
Lemma foldM_ret_inv {B S} (P : list B -> S -> Prop) (f : B -> S -> out S) (l : list B) :
  (forall pre x post s s', l = pre ++ x :: post -> P pre s -> f x s = Ret s' -> P (pre ++ [x]) s') ->
  forall s s', P [] s -> foldM f l s = Ret s' -> P l s'.
Proof.
  intros Hstep. enough (G : forall post pre s s', l = pre ++ post -> P pre s -> foldM f post s = Ret s' -> P l s').
  { intros s s' H. now apply (G l []). }
  induction post as [|x post IH]; intros pre s s' Hl HP E; cbn [foldM] in E.
  - injection E as <-. rewrite app_nil_r in Hl. now subst.
  - apply bind_ret_inv in E as (s1 & E1 & E2). apply (IH (pre ++ [x]) s1); [now rewrite <- app_assoc| |exact E2].
    eapply Hstep; eauto.
Qed.

Section safety.
Context {A : arith}.

(** *** dense *)
Definition lm_init (m : lm A) : Prop :=
  (exists s, m = lm_zeros s) \/ (exists s l, lm_from_flat s l = Ret m).
Definition lm_other (m m' : lm A) : Prop :=
  m' = lm_transpose m \/ (exists v, m' = lm_scale m v) \/ (exists v, m' = lm_add_scalar m v) \/
  (exists o, lm_r m = lm_r o /\ lm_c m = lm_c o /\ lm_rm m = lm_rm o /\ lm_add_assign m o = Ret m').

Lemma zip_add_length (x y : list A) : length (zip_add x y) = length x.
Proof. revert y; induction x as [|a x IH]; intros [|b y]; cbn; auto. Qed.

Lemma lm_safe (m : lm A) : reach lm_init lm_other m -> accesses_safe m.
Proof.
  intros H. apply (laws_safe lm_wf full_dom lm_laws). revert m H. apply reach_inv.
  - intros m [[[R C] ->]|([R C] & l & E)]; [apply lm_zeros_wf|].
    unfold lm_from_flat in E; cbn in E. destruct (Nat.eqb_spec (R * C) (length l)) as [Hl|]; [|discriminate].
    injection E as <-. unfold lm_wf; cbn. lia.
  - intros m loc f m' W E. exact (laws_write _ _ lm_laws m m' loc f W E).
  - intros m m' W [->|[(v & ->)|[(v & ->)|(o & H1 & H2 & H3 & E)]]].
    + now apply lm_transpose_wf.
    + now apply lm_scale_wf.
    + unfold lm_wf; cbn. rewrite map_length. exact W.
    + unfold lm_add_assign in E. rewrite H1, H2, H3, !Nat.eqb_refl in E. cbn in E.
      destruct (lm_rm o); cbn in E; injection E as <-; unfold lm_wf in *; cbn; rewrite zip_add_length; rewrite <- ?H1, <- ?H2; exact W.
Qed.

(** *** triangular and diagonal *)
Lemma lt_safe (m : ltm A) : reach (fun m => exists s, m = lt_zeros s) (fun _ _ => False) m -> accesses_safe m.
Proof.
  intros H. apply (laws_safe ltm_wf ltm_dom lt_laws). revert m H. apply reach_inv.
  - intros m [s ->]. apply lt_zeros_wf.
  - intros m loc f m' W E. exact (laws_write _ _ lt_laws m m' loc f W E).
  - intros m m' _ [].
Qed.
Lemma ut_safe (m : utm A) : reach (fun m => exists s, m = ut_zeros s) (fun _ _ => False) m -> accesses_safe m.
Proof.
  intros H. apply (laws_safe utm_wf utm_dom ut_laws). revert m H. apply reach_inv.
  - intros m [s ->]. apply ut_zeros_wf.
  - intros m loc f m' W E. exact (laws_write _ _ ut_laws m m' loc f W E).
  - intros m m' _ [].
Qed.
Lemma dg_safe (m : dg A) : accesses_safe m.
Proof. exact (laws_safe dg_wf dg_dom dg_laws m I). Qed.

(** *** compressed rows: labelled values may repeat positions or lie outside the shape *)
Definition cr_init (m : crow A) : Prop :=
  (exists s, m = cr_zeros s) \/ (exists s l, cr_from_flat s l = Ret m) \/ (exists s l, m = from_labeled_vals s l).
Definition cr_same (m : crow A) : Prop := length (cr_cols m) = length (cr_data m).

Lemma cr_find_bound cols c l i : cr_find cols c l = Ret (EData i) -> i < length cols.
Proof.
  induction l as [|j l IH]; cbn [cr_find]; [discriminate|]. intros E.
  apply bind_ret_inv in E as (ci & E1 & E2). destruct (ci =? c).
  - injection E2 as ->. unfold idx, unwrap in E1. destruct (cols !! i) eqn:El; [|discriminate].
    now apply lookup_lt_Some in El.
  - now apply IH.
Qed.

Lemma cr_find_no_ub cols c l : cr_find cols c l <> UB.
Proof.
  induction l as [|j l IH]; cbn [cr_find]; [discriminate|].
  unfold idx, unwrap. destruct (cols !! j); cbn [mbind out_bind]; [|discriminate]. now destruct (n =? c).
Qed.

Lemma cr_pos_facts (m : crow A) loc : cr_pos m loc <> UB /\ forall i, cr_pos m loc = Ret (EData i) -> i < length (cr_cols m).
Proof.
  unfold cr_pos. destruct (_ || _); [split; [discriminate|intros i E; discriminate]|].
  unfold idx, unwrap. destruct (cr_starts m !! loc.1); cbn [mbind out_bind]; [|split; [discriminate|intros i E; discriminate]].
  split; [apply cr_find_no_ub|]. intros i. apply cr_find_bound.
Qed.

Lemma cr_safe (m : crow A) : reach cr_init (fun _ _ => False) m -> accesses_safe m.
Proof.
  intros H. assert (Hs : cr_same m).
  { revert m H. apply reach_inv.
    - intros m [[s ->]|[(s & l & E)|(s & l & ->)]]; [reflexivity| |].
      + unfold cr_from_flat in E. apply bind_ret_inv in E as ([[[v d] cs] st] & E1 & E2). injection E2 as <-.
        unfold cr_same; cbn. revert E1.
        set (P := fun (_ : list nat) (st : list A * list A * list nat * list nat) => length st.1.2 = length st.1.1.2).
        intros E1. apply (foldM_ret_inv P) in E1; [exact E1| |reflexivity].
        intros pre x post [[[v1 d1] c1] s1] [[[v2 d2] c2] s2] _ HP E. unfold P in *. cbn [fst snd] in *.
        apply bind_ret_inv in E as ([[v3 d3] c3] & E3 & E4). injection E4 as <- <- <- <-. cbn [fst snd].
        set (Q := fun (_ : list nat) (st : list A * list A * list nat) => length st.2 = length st.1.2).
        apply (foldM_ret_inv Q) in E3; [exact E3| |exact HP].
        intros pre' y post' [[v4 d4] c4] [[v5 d5] c5] _ HQ E. unfold Q in *. cbn [fst snd] in *.
        destruct v4 as [|w v4]; [discriminate|]. destruct (seqb w s0); injection E as <- <- <-; [exact HQ|].
        rewrite !app_length. cbn. lia.
      + unfold cr_same; cbn. now rewrite !map_length.
    - intros m loc f m' Hs E. cbn in E. unfold cr_mut in E. apply bind_ret_inv in E as (e & E1 & E2).
      destruct e; try discriminate. apply bind_ret_inv in E2 as (d & E2 & E3). injection E3 as <-.
      unfold cr_same in *; cbn. unfold upd_unchecked in E2. destruct (cr_data m !! i); [|discriminate].
      injection E2 as <-. now rewrite insert_length.
    - intros m m' _ []. }
  intros loc f. destruct (cr_pos_facts m loc) as [Hn Hb]. cbn. unfold cr_get, cr_mut.
  destruct (cr_pos m loc) as [[| |i]| | |]; cbn [mbind out_bind]; try (split; discriminate).
  - specialize (Hb i eq_refl). rewrite Hs in Hb. unfold get_unchecked, upd_unchecked.
    destruct (lookup_lt_is_Some_2 _ _ Hb) as [x ->]. split; discriminate.
  - now destruct Hn.
Qed.

(** *** lower envelopes *)
Definition le_init (m : lenv A) : Prop :=
  (exists env, from_envelope env = Ret m) \/ (exists b, le_from_bienv b = Ret m) \/
  (exists s l, le_from_flat s l = Ret m) \/ (exists o1 o2 d, le_of_dict o1 o2 d = Ret m).
Definition le_other (m m' : lenv A) : Prop :=
  (exists i row, le_row_write m i row = Ret m') \/ (exists b k, add_scaled_bienv m b k = Ret m').

Lemma from_envelope_inv env (m : lenv A) : from_envelope env = Ret m -> le_wf m.
Proof.
  intros E. destruct (decide (Forall (fun i => 1 <= nz env i /\ nz env i <= i + 1) (seq 0 (length env)))) as [H|H].
  - destruct (from_envelope_ret (A := A) env) as (m' & E' & W & _).
    { intros i Hi. rewrite Forall_forall in H. apply H. apply elem_of_seq. lia. }
    congruence.
  - apply not_Forall_Exists in H; [|solve_decision]. apply Exists_exists in H as (i & Hi & Hn).
    apply elem_of_seq in Hi. rewrite (from_envelope_panic env i) in E; [discriminate|lia|]. cbn in Hn. lia.
Qed.

Lemma slice_length {B} (l s : list B) a b : slice l a b = Ret s -> length s = b - a.
Proof.
  unfold slice. destruct (Nat.leb_spec a b), (Nat.leb_spec b (length l)); cbn; try discriminate.
  intros E. injection E as <-. rewrite take_length, drop_length. lia.
Qed.

Lemma le_from_bienv_inv b (m : lenv A) : le_from_bienv b = Ret m -> le_wf m.
Proof.
  intros E. unfold le_from_bienv in E. apply bind_ret_inv in E as ([[d s] z] & E1 & E2). cbn [fst snd] in E2. injection E2 as <-.
  set (P := fun (pre : list nat) (st : list A * list nat * list nat) =>
    length st.2 = length pre /\ (forall i, i < length pre -> 1 <= nz st.2 i <= i + 1) /\
    st.1.2 = map (off st.2) (seq 0 (length pre)) /\ length st.1.1 = sum_list st.2).
  apply (foldM_ret_inv P) in E1.
  - unfold P, range in E1. cbn [fst snd] in E1. rewrite seq_length, Nat.sub_0_r in E1.
    destruct E1 as (H1 & H2 & H3 & H4). constructor; cbn [lev_n le_nnz le_starts le_data]; auto.
  - intros pre x post [[d1 s1] z1] [[d2 s2] z2] Hsplit (H1 & H2 & H3 & H4) E. cbn [fst snd] in *.
    assert (Hx : x = length pre).
    { assert (range 0 (be_n b) !! length pre = Some x) by (rewrite Hsplit, lookup_app_r, Nat.sub_diag by lia; reflexivity).
      unfold range in H. apply lookup_seq in H. lia. }
    apply bind_ret_inv in E as (be & E1' & E). destruct ((x <? be.1) || (be.2 <=? x)) eqn:Ec; [discriminate|].
    apply orb_false_iff in Ec as [Ec _]. apply Nat.ltb_ge in Ec.
    rewrite usub_ret in E by lia. cbn [mbind out_bind] in E.
    apply bind_ret_inv in E as (bs & _ & E). apply bind_ret_inv in E as (sl & Esl & E). injection E as <- <- <-.
    apply slice_length in Esl. unfold P; cbn [fst snd]. rewrite !app_length; cbn [length].
    assert (Hoff : forall i, i <= length pre -> off (z1 ++ [x + 1 - be.1]) i = off z1 i).
    { intros i Hi. unfold off. rewrite take_app_le by lia. reflexivity. }
    assert (Hnz : forall i, i < length pre -> nz (z1 ++ [x + 1 - be.1]) i = nz z1 i).
    { intros i Hi. unfold nz. now rewrite app_nth1 by lia. }
    split; [lia|]. split; [|split].
    + intros i Hi. destruct (decide (i = length pre)) as [->|Hne].
      * unfold nz. rewrite app_nth2, H1, Nat.sub_diag by lia. cbn. lia.
      * rewrite Hnz by lia. apply H2. lia.
    + replace (length pre + 1) with (S (length pre)) by lia. rewrite seq_S_app, map_app. f_equal.
      * rewrite H3. apply map_ext_in. intros i Hi. apply in_seq in Hi. symmetry. apply Hoff. lia.
      * cbn [map]. rewrite Nat.add_0_l, Hoff by lia. rewrite H4, <- (off_all z1), H1. reflexivity.
    + rewrite sum_list_with_app, H4. f_equal. rewrite Esl. cbn. lia.
  - split; [reflexivity|]. split; [intros i Hi; cbn in Hi; lia|]. split; reflexivity.
Qed.

Lemma le_write_list_inv (sk : (nat * nat) * A -> bool) l (m m' : lenv A) : le_wf m ->
  foldM (fun (lv : (nat * nat) * A) m => if sk lv then Ret m else le_set m lv.1 lv.2) l m = Ret m' -> le_wf m'.
Proof.
  intros W E. apply (foldM_ret_inv (fun _ m => le_wf m)) in E; [exact E| |exact W].
  intros pre x post s s' _ Ws Es. destruct (sk x); [injection Es as <-; exact Ws|]. unfold le_set in Es.
  apply bind_ret_inv in Es as (o & E1 & E2). destruct o; [|discriminate]. injection E2 as ->.
  exact (laws_write _ _ le_laws s s' x.1 _ Ws E1).
Qed.

Lemma le_row_write_inv (m m' : lenv A) i row' : le_wf m -> le_row_write m i row' = Ret m' -> le_wf m'.
Proof.
  intros W E. destruct (decide (i < lev_n m)) as [Hi|Hi].
  - destruct (decide (length row' = nz (le_nnz m) i)) as [Hl|Hl].
    + destruct (le_row_write_ret m i row' W Hi Hl) as (m2 & E2 & W2 & _). congruence.
    + exfalso. unfold le_row_write in E. rewrite le_row_pos_ret in E by assumption. cbn [mbind out_bind] in E.
      pose proof (lw_bound m W i Hi). pose proof (le_stored_bound m i W Hi).
      apply bind_ret_inv in E as (s & Es & E). apply slice_length in Es.
      rewrite (proj2 (Nat.eqb_neq _ _)) in E by lia. discriminate.
  - exfalso. unfold le_row_write, le_row_pos in E. assert (H : le_starts m !! i = None) by (rewrite (lw_starts m W); apply lookup_ge_None_2; rewrite map_length, seq_length; lia).
    unfold idx in E. rewrite H in E. discriminate.
Qed.

Definition le_built (m : lenv A) : Prop := reach le_init le_other m.
Lemma le_built_wf (m : lenv A) : le_built m -> le_wf m.
Proof.
  revert m. apply reach_inv.
  - intros m [(env & E)|[(b & E)|[(s & l & E)|(o1 & o2 & d & E)]]].
    + now apply from_envelope_inv in E.
    + now apply le_from_bienv_inv in E.
    + unfold le_from_flat in E. destruct (negb _); [discriminate|].
      apply bind_ret_inv in E as (st & _ & E). apply bind_ret_inv in E as (m0 & E0 & E).
      apply from_envelope_inv in E0. exact (le_write_list_inv (fun _ => false) _ m0 m E0 E).
    + unfold le_of_dict in E. apply bind_ret_inv in E as (env & _ & E). apply bind_ret_inv in E as (m0 & E0 & E).
      apply from_envelope_inv in E0. exact (le_write_list_inv (fun kv => kv.1.1 <? kv.1.2) _ m0 m E0 E).
  - intros m loc f m' W E. exact (laws_write _ _ le_laws m m' loc f W E).
  - intros m m' W [(i & row' & E)|(b & k & E)].
    + exact (le_row_write_inv m m' i row' W E).
    + unfold add_scaled_bienv in E. apply bind_ret_inv in E as (u & _ & E).
      apply (foldM_ret_inv (fun _ m => le_wf m)) in E; [exact E| |exact W].
      intros pre x post s s' _ Ws Es. apply bind_ret_inv in Es as (br & _ & Es). apply bind_ret_inv in Es as (sr & _ & Es).
      destruct (br.1 <? sr.1); [discriminate|]. exact (le_row_write_inv s s' x _ Ws Es).
Qed.

Lemma le_safe (m : lenv A) : reach le_init le_other m -> accesses_safe m.
Proof. intros H. apply (laws_safe le_wf le_dom le_laws). now apply le_built_wf. Qed.

(** *** bi-envelopes: the row bounds handed to from_row_bounds are arbitrary *)
Record be_ok (m : bienv A) : Prop := BeOk {
  bo_n : be_n m = length (be_bounds m);
  bo_le : forall i, i < be_n m -> (bnd m i).1 <= (bnd m i).2;
  bo_starts : be_starts m = map (off (blens m)) (seq 0 (S (be_n m)));
  bo_data : length (be_data m) = sum_list (blens m)
}.

Lemma from_row_bounds_ok bs (m : bienv A) : from_row_bounds bs = Ret m -> be_ok m.
Proof.
  intros E. destruct (decide (Forall (fun ab => ab.1 <= ab.2) bs)) as [H|H].
  - unfold from_row_bounds in E. rewrite Forall_forall in H.
    rewrite from_row_bounds_starts with (s := 0) in E; [|exact H|reflexivity].
    cbn [mbind out_bind] in E.
    assert (Hst : [0] ++ map (fun i => 0 + off (map blen bs) (S i)) (seq 0 (length bs)) = map (off (map blen bs)) (seq 0 (S (length bs)))).
    { cbn [app seq map]. f_equal. rewrite <- seq_shift, map_map. reflexivity. }
    rewrite Hst, last_map_seq in E. cbn [unwrap mbind out_bind] in E. injection E as <-.
    constructor; cbn [be_n be_bounds be_starts be_data]; auto.
    + intros i Hi. apply H. unfold bnd; cbn [be_bounds]. apply elem_of_list_In, nth_In. exact Hi.
    + rewrite replicate_length. unfold blens; cbn [be_bounds]. rewrite <- (off_all (map blen bs)), map_length. reflexivity.
  - exfalso. apply not_Forall_Exists in H; [|solve_decision]. apply Exists_exists in H as (ab & Hin & Hn).
    rewrite (from_row_bounds_panic bs ab) in E; [discriminate|exact Hin|cbn in Hn; lia].
Qed.

Lemma be_pos_facts (m : bienv A) loc : be_ok m ->
  exists e, be_pos m loc = Ret e /\ forall i, e = EData i -> i < length (be_data m).
Proof.
  intros W. destruct loc as [r c]. unfold be_pos; cbn [fst snd].
  destruct (Nat.leb_spec (be_n m) r); cbn [orb]; [eexists; split; [reflexivity|discriminate]|].
  destruct (Nat.leb_spec (be_n m) c); [eexists; split; [reflexivity|discriminate]|].
  pose proof (bo_n m W). rewrite (idx_lookup _ _ _ (bnd_lookup m r ltac:(lia))). cbn [mbind out_bind].
  destruct (Nat.ltb_spec c (bnd m r).1); [eexists; split; [reflexivity|discriminate]|].
  destruct (Nat.leb_spec (bnd m r).2 c); [eexists; split; [reflexivity|discriminate]|].
  rewrite (bo_starts m W), (idx_lookup _ _ (off (blens m) r)) by (apply map_off_lookup; lia). cbn [mbind out_bind].
  eexists; split; [reflexivity|]. intros i E. injection E as <-. rewrite (bo_data m W).
  apply seg_lt; [rewrite blens_length; lia|]. rewrite nz_blens by lia. lia.
Qed.

Definition be_init (m : bienv A) : Prop :=
  (exists bs, from_row_bounds bs = Ret m) \/ (exists o1 o2 d, be_of_dict o1 o2 d = Ret m).

Lemma be_ok_write (m m' : bienv A) loc f : be_ok m -> mmut m loc f = Ret (Some m') -> be_ok m'.
Proof.
  intros W E. cbn in E. unfold be_mut in E. apply bind_ret_inv in E as (e & _ & E). destruct e; try discriminate.
  apply bind_ret_inv in E as (d & E1 & E). injection E as <-. unfold upd_unchecked in E1.
  destruct (be_data m !! i); [|discriminate]. injection E1 as <-.
  destruct W as [w1 w2 w3 w4]. constructor; cbn; auto. now rewrite insert_length.
Qed.

Definition be_built (m : bienv A) : Prop := reach be_init (fun _ _ => False) m.
Lemma be_built_ok (m : bienv A) : be_built m -> be_ok m.
Proof.
  revert m. apply reach_inv.
    - intros m [(bs & E)|(o1 & o2 & d & E)]; [now apply from_row_bounds_ok in E|].
      unfold be_of_dict in E. apply bind_ret_inv in E as (bs & _ & E). apply bind_ret_inv in E as (m0 & E0 & E).
      apply from_row_bounds_ok in E0. apply (foldM_ret_inv (fun _ m => be_ok m)) in E; [exact E| |exact E0].
      intros pre x post s s' _ Ws Es. unfold index_set, index_upd in Es. apply bind_ret_inv in Es as (o & E1 & E2).
      destruct o; [|discriminate]. injection E2 as ->. exact (be_ok_write s s' x.1 _ Ws E1).
    - intros m loc f m' W E. exact (be_ok_write m m' loc f W E).
    - intros m m' _ [].
Qed.

Lemma be_built_wf (m : bienv A) : be_built m -> (forall i, i < be_n m -> (bnd m i).2 <= be_n m) -> be_wf m.
Proof.
  intros H Hb. destruct (be_built_ok m H) as [H1 H2 H3 H4]. constructor; auto.
Qed.

Lemma be_safe (m : bienv A) : reach be_init (fun _ _ => False) m -> accesses_safe m.
Proof.
  intros H. assert (W : be_ok m) by now apply be_built_ok.
  intros loc f. destruct (be_pos_facts m loc W) as (e & E & Hb). cbn. unfold be_get, be_mut. rewrite E.
  cbn [mbind out_bind]. destruct e as [| |i]; try (split; discriminate).
  specialize (Hb i eq_refl). unfold get_unchecked, upd_unchecked.
  destruct (lookup_lt_is_Some_2 _ _ Hb) as [x ->]. split; discriminate.
Qed.
End safety.
