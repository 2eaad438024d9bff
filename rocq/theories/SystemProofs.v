(** The linear system container and the envelope Cholesky solver, end to end. *)
From Verif Require Export CholProofs CrProofs GaussProofs EdgeProofs Solve.

(** ** what assembly should compute *)
Inductive asm (A : arith) : Type :=
| AddK (r c : nat) (v : A)
| AddM (r c : nat) (v : A)
| AddR (i : nat) (v : A).
Arguments AddK {A} _ _ _.
Arguments AddM {A} _ _ _.
Arguments AddR {A} _ _.

Section spec.
Context {A : arith}.
Definition k_vals (r c : nat) (ops : list (asm A)) : list A :=
  flat_map (fun o => match o with AddK r' c' v => if (r' =? r) && (c' =? c) then [v] else [] | _ => [] end) ops.
Definition m_vals (r c : nat) (ops : list (asm A)) : list A :=
  flat_map (fun o => match o with AddM r' c' v => if (r' =? r) && (c' =? c) then [v] else [] | _ => [] end) ops.
Definition r_vals (i : nat) (ops : list (asm A)) : list A :=
  flat_map (fun o => match o with AddR i' v => if i' =? i then [v] else [] | _ => [] end) ops.
Definition asm_ok (n : nat) (o : asm A) : Prop :=
  match o with AddK r c _ | AddM r c _ => r < n /\ c < n | AddR i _ => i < n end.

(** running a sequence of calls on the system *)
Definition asm_step (o : asm A) (s : system A) : out (system A) :=
  match o with
  | AddK r c v => add_k s (r, c) v
  | AddM r c v => add_m s (r, c) v
  | AddR i v => add_rhs s i v
  end.
Definition assemble (n : nat) (ops : list (asm A)) : out (system A) := foldM asm_step ops (sys_new n).

(** reading a system; a part never touched is all zero *)
Definition k_at (s : system A) (r c : nat) : A := match sy_k s with Some k => el k r c | None => s0 end.
Definition m_at (s : system A) (r c : nat) : A := match sy_m s with Some m => el m r c | None => s0 end.
Definition r_at (s : system A) (i : nat) : A := match sy_rhs s with Some r => vel r i | None => s0 end.

Definition od_wf (n : nat) (o : option (dict A)) : Prop :=
  match o with Some d => dict_wf d /\ d_shape d = (n, n) | None => True end.
Definition sys_wf (s : system A) : Prop :=
  od_wf (sy_dofs s) (sy_k s) /\ od_wf (sy_dofs s) (sy_m s) /\
  match sy_rhs s with Some r => length r = sy_dofs s | None => True end.

Lemma sys_new_wf n : sys_wf (sys_new n).
Proof. repeat split. Qed.
End spec.

Section assembly.
Context {A : arith} (FL : field_laws A).
Add Field Afield20 : (fl_field A FL).
Local Open Scope arith_scope.
Implicit Types s : system A.

Definition od_add (n : nat) (o : option (dict A)) (loc : nat * nat) (v : A) : out (dict A) :=
  match o with
  | Some k => index_upd k loc (fun x => sadd x v)
  | None => index_set (d_zeros (n, n)) loc v
  end.
Definition od_at (o : option (dict A)) (r c : nat) : A := match o with Some k => el k r c | None => s0 end.

Lemma od_add_ret n o r c v : od_wf n o -> (r < n)%nat -> (c < n)%nat ->
  exists k, od_add n o (r, c) v = Ret k /\ dict_wf k /\ d_shape k = (n, n) /\
    forall r' c', el k r' c' = if (r' =? r) && (c' =? c) then od_at o r c + v else od_at o r' c'.
Proof.
  intros W Hr Hc. destruct o as [k|]; cbn [od_add od_at].
  - destruct W as [W Hs].
    destruct (index_upd_ret _ _ d_laws k r c (fun x => x + v) W) as (k' & E & W' & Hs' & _ & He).
    { apply in_shape_true. cbn. rewrite Hs. cbn. lia. }
    exists k'. split; [exact E|]. split; [exact W'|]. split; [|exact He]. cbn in Hs'. congruence.
  - destruct (index_set_ret _ _ d_laws (d_zeros (A := A) (n, n)) r c v (d_zeros_wf _)) as (k' & E & W' & Hs' & _ & He).
    { apply in_shape_true. cbn. lia. }
    exists k'. split; [exact E|]. split; [exact W'|]. split; [exact Hs'|].
    intros r' c'. rewrite He. destruct ((r' =? r) && (c' =? c)); [ring|apply d_zeros_el].
Qed.

Lemma od_add_panic n o r c v : od_wf n o -> (n <= r \/ n <= c)%nat -> od_add n o (r, c) v = Panic.
Proof.
  intros W H.
  assert (G : forall (d : dict A) f, dict_wf d -> d_shape d = (n, n) -> index_upd d (r, c) f = Panic).
  { intros d f Wd Hs. unfold index_upd. rewrite (law_mut_no _ _ d_laws d r c f Wd); [reflexivity|].
    apply not_true_iff_false. intros Ht. apply in_shape_true in Ht. cbn in Ht. rewrite Hs in Ht. cbn in Ht. lia. }
  destruct o as [k|]; cbn [od_add].
  - destruct W as [W Hs]. now apply G.
  - apply (G (d_zeros (n, n)) (fun _ => v)); [apply d_zeros_wf|reflexivity].
Qed.

Lemma flat_map_snoc {X Y} (f : X -> list Y) l x : flat_map f (l ++ [x]) = flat_map f l ++ f x.
Proof. induction l as [|y l IH]; cbn; [now rewrite app_nil_r|]. now rewrite IH, app_assoc. Qed.
Lemma ssum_snoc (l : list A) v : ssum (l ++ [v]) = ssum l + v.
Proof. unfold ssum. now rewrite fold_left_app. Qed.

Definition asm_inv (n : nat) (pre : list (asm A)) s : Prop :=
  sys_wf s /\ sy_dofs s = n /\ sy_perm s = None /\
  (forall r c, k_at s r c = ssum (k_vals r c pre)) /\
  (forall r c, m_at s r c = ssum (m_vals r c pre)) /\
  (forall i, r_at s i = ssum (r_vals i pre)).

Lemma asm_step_inv n pre o s : asm_ok n o -> asm_inv n pre s ->
  exists s', asm_step o s = Ret s' /\ asm_inv n (pre ++ [o]) s'.
Proof.
  intros Ho (W & Hn & Hp & Hk & Hm & Hr). destruct W as (Wk & Wm & Wr). rewrite Hn in *.
  unfold asm_inv, k_vals, m_vals, r_vals in *.
  destruct o as [r c v|r c v|i v]; cbn [asm_step asm_ok] in *.
  - destruct Ho as [H1 H2]. destruct (od_add_ret n (sy_k s) r c v Wk H1 H2) as (k & E & W' & Hs & He).
    exists (Sys n (Some k) (sy_m s) (sy_rhs s) (sy_perm s)). split.
    { unfold add_k. rewrite Hn. destruct (sy_k s); cbn [od_add] in E; rewrite E; reflexivity. }
    split; [|split; [reflexivity|split; [exact Hp|split; [|split]]]].
    + unfold sys_wf; cbn. auto.
    + intros r' c'. rewrite flat_map_snoc. unfold k_at at 1; cbn [sy_k]. rewrite He.
      rewrite (Nat.eqb_sym r' r), (Nat.eqb_sym c' c).
      destruct (Nat.eqb_spec r r') as [->|]; cbn [andb]; [destruct (Nat.eqb_spec c c') as [->|]; cbn [andb]|].
      * rewrite ssum_snoc. f_equal. apply Hk.
      * rewrite app_nil_r. apply Hk.
      * rewrite app_nil_r. apply Hk.
    + intros r' c'. rewrite flat_map_snoc, app_nil_r. apply Hm.
    + intros i. rewrite flat_map_snoc, app_nil_r. apply Hr.
  - destruct Ho as [H1 H2]. destruct (od_add_ret n (sy_m s) r c v Wm H1 H2) as (k & E & W' & Hs & He).
    exists (Sys n (sy_k s) (Some k) (sy_rhs s) (sy_perm s)). split.
    { unfold add_m. rewrite Hn. destruct (sy_m s); cbn [od_add] in E; rewrite E; reflexivity. }
    split; [|split; [reflexivity|split; [exact Hp|split; [|split]]]].
    + unfold sys_wf; cbn. auto.
    + intros r' c'. rewrite flat_map_snoc, app_nil_r. apply Hk.
    + intros r' c'. rewrite flat_map_snoc. unfold m_at at 1; cbn [sy_m]. rewrite He.
      rewrite (Nat.eqb_sym r' r), (Nat.eqb_sym c' c).
      destruct (Nat.eqb_spec r r') as [->|]; cbn [andb]; [destruct (Nat.eqb_spec c c') as [->|]; cbn [andb]|].
      * rewrite ssum_snoc. f_equal. apply Hm.
      * rewrite app_nil_r. apply Hm.
      * rewrite app_nil_r. apply Hm.
    + intros i. rewrite flat_map_snoc, app_nil_r. apply Hr.
  - assert (G : exists rv, (match sy_rhs s with
        | Some rv => x ← idx rv i; set rv i (x + v) | None => set (replicate n s0) i v end = Ret rv) /\
        length rv = n /\ forall j, vel rv j = if j =? i then r_at s i + v else r_at s j).
    { unfold r_at. destruct (sy_rhs s) as [rv|].
      - rewrite idx_vel by (rewrite Wr; exact Ho). cbn [mbind out_bind].
        rewrite set_lookup by (rewrite Wr; exact Ho). eexists; split; [reflexivity|].
        split; [now rewrite insert_length|]. intros j. rewrite vel_insert by (rewrite Wr; exact Ho). reflexivity.
      - rewrite set_lookup by (rewrite replicate_length; exact Ho). eexists; split; [reflexivity|].
        split; [now rewrite insert_length, replicate_length|]. intros j.
        rewrite vel_insert by (rewrite replicate_length; exact Ho). destruct (j =? i); [ring|].
        apply vel_replicate. }
    destruct G as (rv & E & Hl & He).
    exists (Sys n (sy_k s) (sy_m s) (Some rv) (sy_perm s)). split.
    { unfold add_rhs. rewrite Hn. destruct (sy_rhs s) as [r0|].
      - destruct (idx r0 i); cbn [mbind out_bind] in *; try discriminate. now rewrite E.
      - now rewrite E. }
    split; [|split; [reflexivity|split; [exact Hp|split; [|split]]]].
    + unfold sys_wf; cbn. auto.
    + intros r' c'. rewrite flat_map_snoc, app_nil_r. apply Hk.
    + intros r' c'. rewrite flat_map_snoc, app_nil_r. apply Hm.
    + intros j. rewrite flat_map_snoc. unfold r_at at 1; cbn [sy_rhs]. rewrite He.
      rewrite (Nat.eqb_sym j i). destruct (Nat.eqb_spec i j) as [->|].
      * rewrite ssum_snoc. f_equal. apply Hr.
      * rewrite app_nil_r. apply Hr.
Qed.

Lemma asm_step_panic n o s : sys_wf s -> sy_dofs s = n -> ~ asm_ok n o -> asm_step o s = Panic.
Proof.
  intros (Wk & Wm & Wr) Hn Ho. rewrite Hn in *. destruct o as [r c v|r c v|i v]; cbn [asm_step asm_ok] in *.
  - pose proof (od_add_panic n (sy_k s) r c v Wk ltac:(lia)) as E. unfold add_k. rewrite Hn.
    destruct (sy_k s); cbn [od_add] in E; now rewrite E.
  - pose proof (od_add_panic n (sy_m s) r c v Wm ltac:(lia)) as E. unfold add_m. rewrite Hn.
    destruct (sy_m s); cbn [od_add] in E; now rewrite E.
  - unfold add_rhs. rewrite Hn. destruct (sy_rhs s) as [rv|].
    + unfold idx. rewrite lookup_ge_None_2 by lia. reflexivity.
    + unfold set. rewrite lookup_ge_None_2 by (rewrite replicate_length; lia). reflexivity.
Qed.

Lemma assemble_pre n (ops : list (asm A)) : (forall o, o ∈ ops -> asm_ok n o) ->
  exists s, assemble n ops = Ret s /\ asm_inv n ops s.
Proof.
  induction ops as [|o ops IH] using rev_ind; intros H.
  - exists (sys_new n). split; [reflexivity|]. split; [apply sys_new_wf|]. repeat split.
  - destruct IH as (s & E & HI); [intros o' Ho'; apply H, elem_of_app; auto|].
    unfold assemble in *. rewrite foldM_app, E. cbn [mbind out_bind].
    destruct (asm_step_inv n ops o s) as (s' & E' & HI').
    + apply H, elem_of_app. right. now apply elem_of_list_singleton.
    + exact HI.
    + exists s'. cbn [foldM]. now rewrite E'.
Qed.

Lemma assemble_panic n (ops : list (asm A)) : (exists o, o ∈ ops /\ ~ asm_ok n o) -> assemble n ops = Panic.
Proof.
  induction ops as [|o ops IH] using rev_ind; intros (b & Hb & Hbad); [now apply elem_of_nil in Hb|].
  unfold assemble in *. rewrite foldM_app.
  assert (D : (forall o : asm A, o ∈ ops -> asm_ok n o) \/ exists o : asm A, o ∈ ops /\ ~ asm_ok n o).
  { clear. induction ops as [|x ops IH]; [left; intros o Ho; now apply elem_of_nil in Ho|].
    assert (Hd : asm_ok n x \/ ~ asm_ok n x) by (destruct x; cbn; lia).
    destruct Hd as [Hx|Hx]; [|right; exists x; split; [left|exact Hx]].
    destruct IH as [IH|(o & Ho & Hn)]; [left|right; exists o; split; [now right|exact Hn]].
    intros o Ho. apply elem_of_cons in Ho as [->|Ho]; auto. }
  destruct D as [Hok|Hbad2]; [|now rewrite IH].
  destruct (assemble_pre n ops Hok) as (s & E & W & Hn & _). unfold assemble in E. rewrite E. cbn [mbind out_bind foldM].
  apply elem_of_app in Hb as [Hb|Hb]; [now apply Hok in Hb|]. apply elem_of_list_singleton in Hb as ->.
  now rewrite (asm_step_panic n o s W Hn Hbad).
Qed.

(** sums do not depend on the order of the terms *)
Lemma ssum_cons (v : A) l : ssum (v :: l) = v + ssum l.
Proof.
  unfold ssum. cbn [fold_left]. assert (G : forall (l : list A) a b, fold_left sadd l (a + b) = a + fold_left sadd l b).
  { clear l. induction l as [|x l IH]; intros a b; cbn [fold_left]; [reflexivity|]. rewrite <- IH. f_equal. ring. }
  replace (0 + v) with (v + 0) by ring. apply G.
Qed.
Lemma ssum_perm (l l' : list A) : l ≡ₚ l' -> ssum l = ssum l'.
Proof.
  induction 1 as [|x l l' _ IH|x y l|l l' l'' _ IH1 _ IH2]; rewrite ?ssum_cons; [reflexivity|now rewrite IH|ring|congruence].
Qed.
End assembly.

(** ** systems built from whole matrices *)
Section build.
Context {A : arith} (FL : field_laws A).
Add Field Afield23 : (fl_field A FL).
Local Open Scope arith_scope.

(** a listing of a square table's entries: no place twice, none of the non-zero ones missing *)
Definition listing (n : nat) (a : nat -> nat -> A) (l : list ((nat * nat) * A)) : Prop :=
  NoDup (l.*1) /\ (forall r c v, ((r, c), v) ∈ l -> (r < n)%nat /\ (c < n)%nat /\ v = a r c) /\
  (forall r c, a r c <> 0 -> (r, c) ∈ l.*1).

Lemma nzs_listing {M} `{ML : MatrixLike A M} (wf : M -> Prop) dom (L : ml_laws wf dom) (k : M) n :
  wf k -> mshape k = (n, n) ->
  exists l, nzs k = Ret l /\ listing n (el k) l /\ (forall r c, (r, c) ∈ l.*1 <-> el k r c <> 0).
Proof.
  intros W Hs. unfold nzs. rewrite Hs. cbn [fst snd].
  set (g := fun i => ((i / n, i mod n)%nat, el k (i / n) (i mod n))).
  rewrite (mapM_out_Ret _ g).
  2:{ intros i Hi. unfold range in Hi. apply elem_of_list_In, in_seq in Hi.
      assert (Hn : n <> 0%nat) by (intros ->; lia).
      assert (H1 : (i / n < n)%nat) by (apply Nat.div_lt_upper_bound; lia).
      assert (H2 : (i mod n < n)%nat) by (now apply Nat.mod_upper_bound).
      rewrite (index_ret _ _ L) by (rewrite ?Hs; assumption). reflexivity. }
  cbn [mbind out_bind]. unfold range. rewrite Nat.sub_0_r. eexists. split; [reflexivity|].
  set (l := List.filter _ _).
  assert (Hin : forall r c v, ((r, c), v) ∈ l <-> (r < n)%nat /\ (c < n)%nat /\ v = el k r c /\ v <> 0).
  { intros r c v. unfold l. rewrite elem_of_list_In, filter_In, in_map_iff. split.
    - intros [(i & E & Hi) Hz]. unfold g in E. injection E as <- <- <-. apply in_seq in Hi.
      assert (Hn : n <> 0%nat) by (intros ->; lia).
      split; [apply Nat.div_lt_upper_bound; lia|]. split; [now apply Nat.mod_upper_bound|]. split; [reflexivity|].
      cbn in Hz. apply negb_true_iff in Hz. intros E0. apply (fl_eqb A FL) in E0. congruence.
    - intros (Hr & Hc & -> & Hz). split.
      + exists (n * r + c)%nat. split; [|apply in_seq; nia]. unfold g.
        replace ((n * r + c) / n)%nat with r by (symmetry; rewrite Nat.mul_comm, Nat.div_add_l by lia; rewrite Nat.div_small by lia; lia).
        replace ((n * r + c) mod n)%nat with c by (symmetry; rewrite Nat.mul_comm, Nat.add_comm, Nat.mod_add by lia; apply Nat.mod_small; lia).
        reflexivity.
      + cbn. apply negb_true_iff. destruct (seqb (el k r c) 0) eqn:E; [|reflexivity]. apply (fl_eqb A FL) in E. contradiction. }
  assert (Hnd : NoDup (l.*1)).
  { unfold l. assert (G : forall m a, NoDup ((List.filter (fun p : (nat * nat) * A => negb (seqb p.2 0)) (map g (seq a m))).*1)).
    { induction m as [|m IH]; intros a; [constructor|]. cbn [seq map List.filter]. destruct (negb _); [|apply IH].
      cbn [fmap list_fmap]. constructor; [|apply IH]. intros Hi. apply elem_of_list_fmap in Hi as ([kk v] & E & Hi).
      apply elem_of_list_In, filter_In in Hi as [Hi _]. apply in_map_iff in Hi as (i & Ei & Hi). apply in_seq in Hi.
      unfold g in *. cbn in E. rewrite <- E in Ei. injection Ei as E1 E2 _.
      destruct (decide (n = 0%nat)) as [Hn|Hn]; [rewrite Hn in *; cbn in *; lia|].
      pose proof (Nat.div_mod i n Hn). pose proof (Nat.div_mod a n Hn). rewrite E1, E2 in *. lia. }
    apply G. }
  assert (Hk : forall r c, (r, c) ∈ l.*1 <-> el k r c <> 0).
  { intros r c. rewrite elem_of_list_fmap. split.
    - intros ([kk v] & Ek & Hv). cbn in Ek. subst kk. apply Hin in Hv as (_ & _ & -> & Hz). exact Hz.
    - intros Hz. exists ((r, c), el k r c). split; [reflexivity|].
      apply Hin. split; [|split; [|split; [reflexivity|exact Hz]]].
      + destruct (decide (r < n)%nat) as [|Hge]; [assumption|]. destruct Hz. apply (el_out _ _ L); [exact W|]. rewrite Hs. cbn. lia.
      + destruct (decide (c < n)%nat) as [|Hge]; [assumption|]. destruct Hz. apply (el_out _ _ L); [exact W|]. rewrite Hs. cbn. lia. }
  split; [|exact Hk]. split; [exact Hnd|]. split.
  - intros r c v Hv. apply Hin in Hv. tauto.
  - intros r c. apply Hk.
Qed.

Lemma d_nzs_listing (k : dict A) n ord : dict_wf k -> d_shape k = (n, n) -> ord ≡ₚ map_to_list (d_data k) ->
  listing n (el k) ord.
Proof.
  intros W Hs Ho. split; [rewrite Ho; apply NoDup_fst_map_to_list|]. split.
  - intros r c v Hv. rewrite Ho in Hv. apply elem_of_map_to_list in Hv. pose proof (W _ _ _ Hv) as Hb. rewrite Hs in Hb.
    cbn in Hb. split; [apply Hb|]. split; [apply Hb|]. rewrite d_el by exact W. now rewrite Hv.
  - intros r c Hz. rewrite d_el in Hz by exact W. destruct (d_data k !! (r, c)) as [v|] eqn:Ev; [|now destruct Hz].
    apply elem_of_list_fmap. exists ((r, c), v). split; [reflexivity|]. rewrite Ho. now apply elem_of_map_to_list.
Qed.

Lemma dict_of_nzs_ret {M} `{ML : MatrixLike A M} nz (k : M) n l : nz k = Ret l -> listing n (el k) l ->
  exists d, dict_of_nzs nz n k = Ret d /\ dict_wf d /\ d_shape d = (n, n) /\
    (forall r c, el d r c = el k r c) /\
    (forall r c, is_Some (d_data d !! (r, c)) <-> (r, c) ∈ l.*1).
Proof.
  intros El (Hnd & Hin & Hz). unfold dict_of_nzs. rewrite El. cbn [mbind out_bind].
  destruct (write_entries dict_wf full_dom d_laws (fun _ => false) l (d_zeros (n, n)) (d_zeros_wf _) Hnd) as (d & E & Wd & Hsd & _ & Hel).
  { intros r c v Hv _. apply Hin in Hv. apply in_shape_true. cbn. lia. }
  exists d. split; [exact E|]. split; [exact Wd|]. split; [exact Hsd|].
  split.
  { intros r c. rewrite Hel. rewrite d_zeros_el.
    destruct ((list_to_map l : gmap (nat * nat) A) !! (r, c)) as [v|] eqn:Ev.
    - apply elem_of_list_to_map_2, Hin in Ev. cbn. tauto.
    - cbn. destruct (seqb (el k r c) 0) eqn:Ez; [symmetry; now apply (fl_eqb A FL)|]. exfalso.
      apply not_elem_of_list_to_map_2 in Ev. apply Ev, Hz. intros E0; apply (fl_eqb A FL) in E0; congruence. }
  intros r c.
  assert (G : forall (l' : list ((nat * nat) * A)) (m m' : dict A), foldM (fun kv m => index_set m kv.1 kv.2) l' m = Ret m' ->
    is_Some (d_data m' !! (r, c)) <-> is_Some (d_data m !! (r, c)) \/ (r, c) ∈ l'.*1).
  { clear. induction l' as [|[[r0 c0] v0] l' IH]; intros m m' E; cbn [foldM] in E.
    - injection E as <-. split; [now left|]. intros [H|H]; [exact H|]. now apply elem_of_nil in H.
    - apply bind_ret_inv in E as (m1 & E1 & E2). rewrite (IH _ _ E2). cbn [fmap list_fmap fst]. rewrite elem_of_cons.
      unfold index_set, index_upd in E1. cbn in E1. unfold d_mut in E1. destruct (d_in m (r0, c0)); [|discriminate]. cbn in E1. injection E1 as <-.
      cbn. destruct (decide ((r0, c0) = (r, c))) as [->|Hne].
      + rewrite lookup_insert. split; [|intros _; left; eauto]. intros _. right. now left.
      + rewrite lookup_insert_ne by exact Hne. split; [tauto|]. intros [H|[H|H]]; [tauto|congruence|tauto]. }
  rewrite (G l _ _ E). cbn. rewrite lookup_empty. split; [intros [[? H]|H]; [discriminate|exact H]|tauto].
Qed.

Lemma from_kr_any {M} `{ML : MatrixLike A M}
    {N} `{MN : MatrixLike A N} (wfn : N -> Prop) domn (LN : ml_laws wfn domn) nz (k : M) (r : N) n l :
  nz k = Ret l -> listing n (el k) l -> wfn r -> mshape k = (n, n) -> mshape r = (n, 1%nat) ->
  exists s, from_kr nz k r = Ret s /\ sys_wf s /\ sy_dofs s = n /\ sy_perm s = None /\ sy_m s = None /\
    (exists d, sy_k s = Some d /\ (forall i j, el d i j = el k i j) /\
       (forall i j, is_Some (d_data d !! (i, j)) <-> (i, j) ∈ l.*1)) /\
    (exists v, sy_rhs s = Some v /\ length v = n /\ forall i, (i < n)%nat -> vel v i = el r i 0).
Proof.
  intros El HL Wr Hs Hr. unfold from_kr. rewrite Hs, Hr. cbn [fst snd]. rewrite !Nat.eqb_refl. cbn [negb orb].
  destruct (foldM_range_inv (fun i (v : list A) => length v = n /\ forall j, (j < i)%nat -> vel v j = el r j 0)
     (fun row rv => x ← index r (row, 0%nat); set rv row x) 0 n (replicate n 0)) as (v & E & Hl & Hv).
  - lia.
  - split; [apply replicate_length|lia].
  - intros i v Hi (Hl & Hv). rewrite (index_ret _ _ LN) by (rewrite ?Hr; cbn; auto; lia). cbn [mbind out_bind].
    rewrite set_lookup by lia. eexists; split; [reflexivity|]. split; [now rewrite insert_length|].
    intros j Hj. rewrite vel_insert by lia. destruct (Nat.eqb_spec j i) as [->|]; [reflexivity|]. apply Hv. lia.
  - rewrite E. cbn [mbind out_bind]. destruct (dict_of_nzs_ret nz k n l El HL) as (d & Ed & Wd & Hsd & Hel & Hks).
    rewrite Ed. cbn [mbind out_bind]. eexists; split; [reflexivity|].
    split; [unfold sys_wf; cbn; auto|]. split; [reflexivity|]. split; [reflexivity|]. split; [reflexivity|]. cbn. split; eauto.
Qed.

Lemma from_kr_ret {M} `{ML : MatrixLike A M} (wf : M -> Prop) dom (L : ml_laws wf dom)
    {N} `{MN : MatrixLike A N} (wfn : N -> Prop) domn (LN : ml_laws wfn domn) (k : M) (r : N) n :
  wf k -> wfn r -> mshape k = (n, n) -> mshape r = (n, 1%nat) ->
  exists s, from_kr nzs k r = Ret s /\ sys_wf s /\ sy_dofs s = n /\ sy_perm s = None /\ sy_m s = None /\
    (exists d, sy_k s = Some d /\ (forall i j, el d i j = el k i j) /\
       (forall i j, is_Some (d_data d !! (i, j)) <-> el k i j <> 0)) /\
    (exists v, sy_rhs s = Some v /\ length v = n /\ forall i, (i < n)%nat -> vel v i = el r i 0).
Proof.
  intros W Wr Hs Hr. destruct (nzs_listing wf dom L k n W Hs) as (l & El & HL & Hk).
  destruct (from_kr_any wfn domn LN nzs k r n l El HL Wr Hs Hr) as (s & E & W1 & H1 & H2 & H3 & (d & Ed & Hd & Hi) & H4).
  exists s. repeat (split; [assumption|]). split; [|exact H4]. exists d. split; [exact Ed|]. split; [exact Hd|].
  intros i j. now rewrite Hi.
Qed.

(** from a dictionary: what is stored stays stored, and nothing else is *)
Lemma from_kr_dict {N} `{MN : MatrixLike A N} (wfn : N -> Prop) domn (LN : ml_laws wfn domn) nz (k : dict A) (r : N) n ord :
  nz k = d_nzs ord -> ord ≡ₚ map_to_list (d_data k) ->
  dict_wf k -> wfn r -> d_shape k = (n, n) -> mshape r = (n, 1%nat) ->
  exists s, from_kr nz k r = Ret s /\ sys_wf s /\ sy_dofs s = n /\ sy_perm s = None /\ sy_m s = None /\
    (exists d, sy_k s = Some d /\ (forall i j, el d i j = el k i j) /\
       (forall i j, is_Some (d_data d !! (i, j)) <-> is_Some (d_data k !! (i, j)))) /\
    (exists v, sy_rhs s = Some v /\ length v = n /\ forall i, (i < n)%nat -> vel v i = el r i 0).
Proof.
  intros En Ho W Wr Hs Hr.
  destruct (from_kr_any wfn domn LN nz k r n ord En (d_nzs_listing k n ord W Hs Ho) Wr Hs Hr) as (s & E & W1 & H1 & H2 & H3 & (d & Ed & Hd & Hi) & H4).
  exists s. repeat (split; [assumption|]). split; [|exact H4]. exists d. split; [exact Ed|]. split; [exact Hd|].
  intros i j. rewrite Hi, Ho, elem_of_list_fmap. split.
  - intros ([kk v] & Ek & Hv). cbn in Ek. subst kk. apply elem_of_map_to_list in Hv. eauto.
  - intros (v & Hv). exists ((i, j), v). split; [reflexivity|]. now apply elem_of_map_to_list.
Qed.

Lemma from_km_ret {M} `{ML : MatrixLike A M}
    {N} `{MN : MatrixLike A N} nz nz' (k : M) (m : N) n l l' :
  nz k = Ret l -> listing n (el k) l -> nz' m = Ret l' -> listing n (el m) l' -> mshape k = (n, n) -> mshape m = (n, n) ->
  exists s, from_km nz nz' k m = Ret s /\ sys_wf s /\ sy_dofs s = n /\ sy_perm s = None /\ sy_rhs s = None /\
    (exists d, sy_k s = Some d /\ forall i j, el d i j = el k i j) /\
    (exists d, sy_m s = Some d /\ forall i j, el d i j = el m i j).
Proof.
  intros El HL El' HL' Hs Hm. unfold from_km. rewrite Hs, Hm. cbn [fst snd]. rewrite !Nat.eqb_refl. cbn [assert_ mbind out_bind].
  destruct (dict_of_nzs_ret nz k n l El HL) as (d & Ed & Wd & Hsd & Hel & _). rewrite Ed. cbn [mbind out_bind].
  destruct (dict_of_nzs_ret nz' m n l' El' HL') as (d' & Ed' & Wd' & Hsd' & Hel' & _). rewrite Ed'. cbn [mbind out_bind].
  eexists; split; [reflexivity|].
  split; [unfold sys_wf; cbn; auto|]. split; [reflexivity|]. split; [reflexivity|]. split; [reflexivity|]. cbn. split; eauto.
Qed.
End build.
