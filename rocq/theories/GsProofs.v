(** The Gauss-Seidel iteration. *)
From Verif Require Export SolverProofs Rep.

Section rows.
Context {A : arith}.
Implicit Types k : crow A.

(** the stored entries of one row *)
Lemma row_nzs_ret k S i : cr_repr k S -> i < (cr_shape k).1 ->
  exists L, row_nzs k i = Ret L /\ NoDup (L.*1) /\
    (forall c v, (c, v) ∈ L <-> ((i, c), v) ∈ S).
Proof.
  intros H Hi. unfold row_nzs. destruct (cr_row_range k S i H Hi) as (E1 & E2 & _). rewrite E1. cbn [mbind out_bind]. rewrite E2.
  set (a := cnt (erows S) i). set (b := cnt (erows S) (i + 1)).
  assert (Hab : a <= b) by (apply cnt_mono; lia).
  assert (Hb : b <= length S). { unfold b. pose proof (cnt_le (erows S) (i + 1)). unfold erows in *. rewrite map_length in *. lia. }
  set (g := fun j => match S !! j with Some kv => (kv.1.2, kv.2) | None => (0, s0) end).
  rewrite (mapM_out_Ret _ g).
  2:{ intros j Hj. unfold range in Hj. apply elem_of_list_In, in_seq in Hj.
      destruct (lookup_lt_is_Some_2 S j ltac:(lia)) as [[[r c] v] Ej].
      unfold g. rewrite Ej. rewrite (crr_data _ _ H), (crr_cols _ _ H).
      rewrite (idx_lookup _ j v) by (now rewrite list_lookup_fmap, Ej). cbn [mbind out_bind].
      rewrite (idx_lookup _ j c) by (unfold ecols; now rewrite list_lookup_fmap, Ej). reflexivity. }
  eexists; split; [reflexivity|].
  assert (Hrow : forall j r c v, S !! j = Some ((r, c), v) -> a <= j < b <-> r = i).
  { intros j r c v Ej. apply (cr_entry_range S j r c v i (crr_sorted _ _ H) Ej). }
  split.
  - rewrite <- list_fmap_compose. apply NoDup_fmap_2_strong; [|unfold range; apply NoDup_seq].
    intros x y Hx Hy. unfold range in *. apply elem_of_seq in Hx, Hy. cbn. unfold g.
    destruct (lookup_lt_is_Some_2 S x ltac:(lia)) as [[[r c] v] Ex]. destruct (lookup_lt_is_Some_2 S y ltac:(lia)) as [[[r' c'] v'] Ey].
    rewrite Ex, Ey. cbn. intros ->.
    apply (Hrow x r c' v Ex) in Hx as Hr || idtac.
    assert (r = i) as -> by (apply (Hrow x r c' v Ex); lia). assert (r' = i) as -> by (apply (Hrow y r' c' v' Ey); lia).
    apply (NoDup_lookup (S.*1) x y (i, c')); [exact (crr_nodup _ _ H)| |]; rewrite list_lookup_fmap; [now rewrite Ex|now rewrite Ey].
  - intros c v. rewrite elem_of_list_fmap. split.
    + intros (j & E & Hj). unfold range in Hj. apply elem_of_seq in Hj.
      destruct (lookup_lt_is_Some_2 S j ltac:(lia)) as [[[r c'] v'] Ej]. unfold g in E. rewrite Ej in E. cbn in E.
      injection E as -> ->. assert (r = i) as -> by (apply (Hrow j r c' v' Ej); lia). now apply elem_of_list_lookup_2 in Ej.
    + intros Hin. apply elem_of_list_lookup in Hin as (j & Ej). exists j.
      split; [unfold g; now rewrite Ej|]. unfold range. apply elem_of_seq.
      assert (a <= j < b) by (now apply (Hrow j i c v Ej)). lia.
Qed.

(** the value stored in the row at column c *)
Definition coef (L : list (nat * A)) (c : nat) : A := default s0 ((list_to_map L : gmap nat A) !! c).

Lemma coef_el k S i L : cr_repr k S -> NoDup (L.*1) -> (forall c v, (c, v) ∈ L <-> ((i, c), v) ∈ S) ->
  forall c, coef L c = el k i c.
Proof.
  intros H Hn HL c. unfold coef. rewrite (cr_el k S i c H).
  destruct ((list_to_map L : gmap nat A) !! c) as [v|] eqn:E.
  - apply elem_of_list_to_map_2 in E. apply HL in E. now rewrite (elem_of_list_to_map_1 S (i, c) v (crr_nodup _ _ H) E).
  - destruct ((list_to_map S : gmap (nat * nat) A) !! (i, c)) as [v|] eqn:E2; [|reflexivity].
    apply elem_of_list_to_map_2, HL in E2. apply (elem_of_list_to_map_1 (M := gmap nat)) in E2; [congruence|exact Hn].
Qed.
End rows.

Section gs.
Context {A : arith} (FL : field_laws A).
Add Field Afield22 : (fl_field A FL).
Local Open Scope arith_scope.
Implicit Types k : crow A.

Fixpoint lsum (F : nat -> A -> A) (L : list (nat * A)) : A :=
  match L with [] => 0 | cv :: L' => F cv.1 cv.2 + lsum F L' end.

Lemma lsum_bigsum (g : nat -> A) n L : NoDup (L.*1) -> (forall c v, (c, v) ∈ L -> (c < n)%nat) ->
  lsum (fun c v => g c * v) L = bigsum n (fun c => coef L c * g c).
Proof.
  induction L as [|[c0 v0] L IH]; intros Hn Hb; cbn [lsum fst snd].
  - symmetry. apply (bigsum_0 FL). intros c _. unfold coef. cbn. rewrite lookup_empty. cbn. ring.
  - cbn in Hn. apply NoDup_cons in Hn as [Hni Hn]. rewrite IH; [|exact Hn|intros c v Hin; apply (Hb c v); now right].
    assert (E : g c0 * v0 = bigsum n (fun c => if (c =? c0)%nat then g c0 * v0 else 0)).
    { rewrite (bigsum_single FL n c0); [now rewrite Nat.eqb_refl|apply (Hb c0 v0); left|].
      intros c _ Hne. now rewrite (proj2 (Nat.eqb_neq _ _)). }
    rewrite E, <- (bigsum_add FL). apply bigsum_ext. intros c _. unfold coef. cbn.
    destruct (Nat.eqb_spec c c0) as [->|Hne].
    + rewrite lookup_insert. rewrite (not_elem_of_list_to_map_1 (M := gmap nat)) by exact Hni. cbn. ring.
    + rewrite lookup_insert_ne by auto. ring.
Qed.

(** one row of the sweep *)
Definition gs_val (K : nat -> nat -> A) (n : nat) (r u x : nat -> A) (i : nat) : A :=
  u i + gs_beta * (r i - bigsum n (fun c => K i c * (if c <? i then x c else 0)) - K i i * u i
                   - bigsum n (fun c => K i c * (if i <? c then u c else 0))) / K i i.

Lemma gs_row_ret k S n (r u nu : lm A) fr fu fn i : cr_repr k S -> cr_shape k = (n, n) ->
  rep r n 1 (fun j _ => fr j) -> rep u n 1 (fun j _ => fu j) -> rep nu n 1 (fun j _ => fn j) -> (i < n)%nat ->
  (((i, i) ∈ S.*1) -> exists nu', gs_row k r u i nu = Ret nu' /\
     rep nu' n 1 (fun j _ => if j =? i then gs_val (el k) n fr fu fn i else fn j)) /\
  (((i, i) ∉ S.*1) -> gs_row k r u i nu = Panic).
Proof.
  intros H Hs Hr Hu Hn Hi. unfold gs_row.
  destruct (row_nzs_ret k S i H) as (L & EL & HnL & HL); [rewrite Hs; exact Hi|]. rewrite EL. cbn [mbind out_bind].
  assert (Hb : forall c v, (c, v) ∈ L -> (c < n)%nat).
  { intros c v Hin. apply HL in Hin. apply (crr_bound _ _ H) in Hin. rewrite Hs in Hin. cbn in Hin. lia. }
  match goal with |- context [foldM ?F L ?s] => set (body := F) end.
  assert (G : forall L' d lo up, NoDup (L'.*1) -> (forall c v, (c, v) ∈ L' -> (c < n)%nat) ->
     foldM body L' (d, lo, up) = Ret (match (list_to_map L' : gmap nat A) !! i with Some v => Some v | None => d end,
        lo + lsum (fun c v => (if c <? i then fn c else 0) * v) L',
        up + lsum (fun c v => (if i <? c then fu c else 0) * v) L')).
  { clear -Hu Hn FL. induction L' as [|[c v] L' IH]; intros d lo up Hnd Hb.
    - cbn. rewrite lookup_empty. do 2 f_equal; [f_equal|]; ring.
    - cbn in Hnd. apply NoDup_cons in Hnd as [Hni Hnd]. pose proof (Hb c v ltac:(left)) as Hc.
      assert (Hb' : forall c v, (c, v) ∈ L' -> (c < n)%nat) by (intros c' v' Hin; apply (Hb c' v'); now right).
      cbn [foldM lsum fst snd].
      assert (Hbody : body (c, v) (d, lo, up) = Ret (if c =? i then Some v else d,
          lo + (if c <? i then fn c else 0) * v, up + (if i <? c then fu c else 0) * v)).
      { unfold body; cbn [fst snd]. destruct (Nat.ltb_spec c i) as [H1|H1].
        - rewrite (rep_index nu n 1 _ c 0 Hn Hc) by lia. cbn [mbind out_bind].
          rewrite (proj2 (Nat.eqb_neq c i)) by lia. rewrite (proj2 (Nat.ltb_ge i c)) by lia. f_equal. f_equal. ring.
        - destruct (Nat.ltb_spec i c) as [H2|H2].
          + rewrite (rep_index u n 1 _ c 0 Hu Hc) by lia. cbn [mbind out_bind].
            rewrite (proj2 (Nat.eqb_neq c i)) by lia. f_equal. f_equal. f_equal. ring.
          + assert (c = i) as -> by lia. rewrite Nat.eqb_refl. f_equal. f_equal; [f_equal|]; ring. }
      rewrite Hbody. cbn [mbind out_bind]. rewrite IH by assumption. cbn [list_to_map foldr fst snd].
      f_equal. f_equal; [f_equal|]; [|ring|ring].
      cbn. destruct (Nat.eqb_spec c i) as [->|Hne].
      + rewrite lookup_insert. rewrite (not_elem_of_list_to_map_1 (M := gmap nat)) by exact Hni. reflexivity.
      + rewrite lookup_insert_ne by auto. reflexivity. }
  rewrite G by assumption. cbn [mbind out_bind].
  assert (Hco := coef_el k S i L H HnL HL).
  split; intros Hin.
  - apply elem_of_list_fmap in Hin as ([ii v] & E & Hin). cbn in E. subst ii. apply HL in Hin.
    rewrite (elem_of_list_to_map_1 L i v HnL Hin). cbn [unwrap mbind out_bind].
    rewrite (rep_index u n 1 _ i 0 Hu Hi) by lia. cbn [mbind out_bind].
    rewrite (rep_index r n 1 _ i 0 Hr Hi) by lia. cbn [mbind out_bind].
    match goal with |- exists _, index_set nu _ ?v = _ /\ _ =>
      destruct (rep_set nu n 1 _ i 0 v Hn Hi ltac:(lia)) as (nu' & E' & Hn') end.
    exists nu'. split; [exact E'|]. eapply rep_ext; [exact Hn'|]. intros j c Hj Hc. unfold fupd2.
    replace c with 0%nat by lia. rewrite Nat.eqb_refl, andb_true_r. destruct (Nat.eqb_spec j i) as [->|]; [|reflexivity].
    assert (Hv : v = el k i i).
    { rewrite <- Hco. unfold coef. now rewrite (elem_of_list_to_map_1 L i v HnL Hin). }
    unfold gs_val. rewrite !(lsum_bigsum _ n) by assumption.
    rewrite Hv. f_equal. f_equal. f_equal. f_equal.
    + f_equal. match goal with |- _ - (0 + ?a) = _ - ?b => replace b with a; [ring|] end.
      apply bigsum_ext. intros c' _. now rewrite Hco.
    + match goal with |- 0 + ?a = ?b => replace b with a; [ring|] end. apply bigsum_ext. intros c' _. now rewrite Hco.
  - destruct ((list_to_map L : gmap nat A) !! i) as [v|] eqn:E; [|reflexivity]. exfalso. apply Hin.
    apply elem_of_list_to_map_2, HL in E. apply elem_of_list_fmap. exists ((i, i), v). auto.
Qed.

(** a sweep computes the relaxed Gauss-Seidel update of every unknown *)
Lemma gs_sweep_ret k S n (r u : lm A) fr fu : cr_repr k S -> cr_shape k = (n, n) ->
  rep r n 1 (fun j _ => fr j) -> rep u n 1 (fun j _ => fu j) ->
  (forall i, (i < n)%nat -> (i, i) ∈ S.*1) ->
  exists x fx, gs_sweep k r u = Ret x /\ rep x n 1 (fun j _ => fx j) /\
    forall i, (i < n)%nat -> fx i = gs_val (el k) n fr fu fx i.
Proof.
  intros H Hs Hr Hu Hd. unfold gs_sweep. rewrite Hs. cbn [fst].
  destruct (foldM_range_inv (fun i (x : lm A) => exists fx, rep x n 1 (fun j _ => fx j) /\
     forall j, (j < i)%nat -> fx j = gs_val (el k) n fr fu fx j) (gs_row k r u) 0 n (lm_zeros (n, 1%nat))) as (x & E & fx & Hx & Hv).
  - lia.
  - exists (fun _ => 0). split; [apply rep_zeros|]. lia.
  - intros i x Hi (fx & Hx & Hv). destruct (proj1 (gs_row_ret k S n r u x fr fu fx i H Hs Hr Hu Hx ltac:(lia)) (Hd i ltac:(lia))) as (x' & E & Hx').
    exists x'. split; [exact E|]. eexists; split; [exact Hx'|].
    set (fx' := fun j => if j =? i then gs_val (el k) n fr fu fx i else fx j).
    assert (Hloc : forall j, (j <= i)%nat -> gs_val (el k) n fr fu fx' j = gs_val (el k) n fr fu fx j).
    { intros j Hj. unfold gs_val. do 3 f_equal. f_equal. f_equal. f_equal. apply bigsum_ext. intros c _. f_equal.
      destruct (Nat.ltb_spec c j) as [Hlt|]; [|reflexivity]. unfold fx'. now rewrite (proj2 (Nat.eqb_neq c i)) by lia. }
    intros j Hj. rewrite Hloc by lia. unfold fx'. destruct (Nat.eqb_spec j i) as [->|]; [reflexivity|]. apply Hv. lia.
  - exists x, fx. auto.
Qed.

Lemma gs_sweep_panic k S n (r u : lm A) fr fu i : cr_repr k S -> cr_shape k = (n, n) ->
  rep r n 1 (fun j _ => fr j) -> rep u n 1 (fun j _ => fu j) -> (i < n)%nat -> (i, i) ∉ S.*1 ->
  gs_sweep k r u = Panic.
Proof.
  intros H Hs Hr Hu Hi Hd. unfold gs_sweep. rewrite Hs. cbn [fst].
  assert (G : forall m a (x : lm A) fx, rep x n 1 (fun j _ => fx j) -> (a <= i < a + m)%nat -> (a + m <= n)%nat ->
     foldM (gs_row k r u) (seq a m) x = Panic).
  { induction m as [|m IH]; intros a x fx Hx Ha Hm; [lia|]. cbn [seq foldM].
    destruct (gs_row_ret k S n r u x fr fu fx a H Hs Hr Hu Hx ltac:(lia)) as [G1 G2].
    destruct (decide (a = i)) as [->|Hne]; [rewrite G2 by exact Hd; reflexivity|].
    destruct (decide ((a, a) ∈ S.*1)) as [Hin|Hin]; [|rewrite G2 by exact Hin; reflexivity].
    destruct (G1 Hin) as (x' & E & Hx'). rewrite E. cbn [mbind out_bind]. eapply IH; [exact Hx'|lia|lia]. }
  unfold range. rewrite Nat.sub_0_r. eapply G; [apply (rep_zeros n 1)|lia|lia].
Qed.

(** what the update says about the residual *)
Lemma split3 n i (f : nat -> A) (g h : nat -> A) : (i < n)%nat ->
  bigsum n (fun c => f c * (if c <? i then g c else 0)) + f i * h i + bigsum n (fun c => f c * (if i <? c then h c else 0))
  = bigsum n (fun c => f c * (if c <? i then g c else h c)).
Proof.
  intros Hi. replace (f i * h i) with (bigsum n (fun c => f c * (if c =? i then h c else 0))).
  - rewrite <- !(bigsum_add FL). apply bigsum_ext. intros c _.
    destruct (Nat.ltb_spec c i), (Nat.eqb_spec c i), (Nat.ltb_spec i c); try lia; ring.
  - rewrite (bigsum_single FL n i); [now rewrite Nat.eqb_refl|exact Hi|].
    intros c _ Hne. rewrite (proj2 (Nat.eqb_neq c i)) by auto. ring.
Qed.

Lemma gs_val_eq K n r u x i : (i < n)%nat -> K i i <> 0 ->
  gs_val K n r u x i = u i + gs_beta * (r i - bigsum n (fun c => K i c * (if c <? i then x c else u c))) / K i i.
Proof.
  intros Hi Hd. unfold gs_val. rewrite <- (split3 n i (K i) x u Hi). f_equal. f_equal. f_equal. ring.
Qed.

Lemma gs_residual K n r u x : gs_beta (A := A) <> 0 -> (forall i, (i < n)%nat -> K i i <> 0) ->
  (forall i, (i < n)%nat -> x i = gs_val K n r u x i) ->
  forall i, (i < n)%nat -> r i - mv n K x i =
    K i i * (x i - u i) / gs_beta - bigsum n (fun c => K i c * (if c <? i then 0 else x c - u c)).
Proof.
  intros Hb Hd Hx i Hi. pose proof (Hx i Hi) as E. rewrite gs_val_eq in E by auto.
  assert (E1 : K i i * (x i - u i) / gs_beta = r i - bigsum n (fun c => K i c * (if c <? i then x c else u c))).
  { rewrite E at 1. field. auto. }
  rewrite E1. unfold mv.
  transitivity (r i - (bigsum n (fun c => K i c * (if c <? i then x c else u c)) + bigsum n (fun c => K i c * (if c <? i then 0 else x c - u c)))); [|ring].
  f_equal. rewrite <- (bigsum_add FL). apply bigsum_ext. intros c _. destruct (c <? i); ring.
Qed.

Lemma gs_fixed K n r u x : gs_beta (A := A) <> 0 -> (forall i, (i < n)%nat -> K i i <> 0) ->
  (forall i, (i < n)%nat -> x i = gs_val K n r u x i) ->
  (forall i, (i < n)%nat -> x i = u i) <-> (forall i, (i < n)%nat -> mv n K u i = r i).
Proof.
  intros Hb Hd Hx. split; intros H i Hi.
  - pose proof (gs_residual K n r u x Hb Hd Hx i Hi) as E.
    rewrite (bigsum_0 FL) in E by (intros c Hc; destruct (c <? i); [ring|rewrite H by exact Hc; ring]).
    rewrite H in E by exact Hi.
    assert (E2 : r i - mv n K x i = 0) by (rewrite E; field; auto).
    replace (mv n K u i) with (mv n K x i).
    + replace (r i) with (r i - mv n K x i + mv n K x i) by ring. rewrite E2. ring.
    + apply bigsum_ext. intros c Hc. now rewrite H.
  - induction i as [i IH] using lt_wf_ind. rewrite Hx, gs_val_eq by auto.
    replace (bigsum n (fun c => K i c * (if c <? i then x c else u c))) with (mv n K u i).
    + rewrite H by exact Hi. field. now apply Hd.
    + apply bigsum_ext. intros c Hc. destruct (Nat.ltb_spec c i) as [Hlt|]; [|reflexivity]. rewrite IH by lia. reflexivity.
Qed.
End gs.

(** ** norms of column vectors and the outer loop *)
Section gsloop.
Context {A : arith}.
Definition vnorm (n : nat) (f : nat -> A) : A := ssqrt (bigsum n (fun i => ssq (f i))).

Lemma rm_list_col (n : nat) (f : nat -> nat -> A) : rm_list n 1 f = map (fun r => f r 0) (seq 0 n).
Proof.
  apply list_eq. intros i. destruct (decide (i < n)) as [Hi|Hi].
  - rewrite (map_seq_lookup (fun r => f r 0) 0 n i (f i 0)) by (auto; lia).
    replace i with (1 * i + 0) at 1 by lia. apply rm_list_lookup; lia.
  - rewrite !lookup_ge_None_2; [reflexivity| |]; rewrite ?map_length, ?seq_length, ?rm_list_length; lia.
Qed.

Lemma flat_col (m : lm A) n f : rep m n 1 (fun j _ => f j) -> flat m = Ret (map f (seq 0 n)).
Proof.
  intros (W & Hs & He). rewrite (flat_ret _ _ lm_laws m W), Hs. cbn [fst snd]. rewrite rm_list_col. f_equal.
  apply map_ext_in. intros i Hi. apply in_seq in Hi. apply He; lia.
Qed.

Lemma frobenius_col (m : lm A) n f : rep m n 1 (fun j _ => f j) -> frobenius m = Ret (vnorm n f).
Proof.
  intros H. unfold frobenius. rewrite (flat_col m n f H). cbn [mbind out_bind]. unfold vnorm.
  rewrite map_map, ssum_seq. reflexivity.
Qed.

Lemma rep_sub (a b : lm A) n f g : rep a n 1 (fun j _ => f j) -> rep b n 1 (fun j _ => g j) ->
  exists d, lm_sub a b = Ret d /\ rep d n 1 (fun j _ => ssub (f j) (g j)).
Proof.
  intros (Wa & Ha & Hea) (Wb & Hb & Heb). destruct (proj1 (lm_sub_spec a b Wa Wb)) as (d & E & Wd & Hd & Hed); [congruence|].
  exists d. split; [exact E|]. split; [exact Wd|]. split; [congruence|]. intros r c Hr Hc.
  rewrite Hed by (rewrite Ha; cbn; lia). now rewrite Hea, Heb.
Qed.
End gsloop.

Section gsrun.
Context {A : arith} (FL : field_laws A).

Lemma gs_loop_ret k S n (r : lm A) fr tol : cr_repr k S -> cr_shape k = (n, n) ->
  rep r n 1 (fun j _ => fr j) -> (forall i, i < n -> (i, i) ∈ S.*1) ->
  forall rounds (u : lm A) fu, rep u n 1 (fun j _ => fu j) ->
  gs_loop k r tol rounds u = Panic \/
  exists x fx fu', gs_loop k r tol rounds u = Ret x /\ rep x n 1 (fun j _ => fx j) /\
    (forall i, i < n -> fx i = gs_val (el k) n fr fu' fx i) /\
    sleb (sdiv (vnorm n (fun i => ssub (fu' i) (fx i))) (vnorm n fx)) tol = true.
Proof.
  intros H Hs Hr Hd. induction rounds as [|rounds IH]; intros u fu Hu; cbn [gs_loop];
    destruct (gs_sweep_ret FL k S n r u fr fu H Hs Hr Hu Hd) as (x & fx & E & Hx & Hv); rewrite E; cbn [mbind out_bind];
    destruct (rep_sub u x n fu fx Hu Hx) as (d & Ed & Hdf); rewrite Ed; cbn [mbind out_bind];
    rewrite (frobenius_col d n _ Hdf), (frobenius_col x n _ Hx); cbn [mbind out_bind];
    destruct (sleb (sdiv (vnorm n (fun j => ssub (fu j) (fx j))) (vnorm n fx)) tol) eqn:Et.
  - right. exists x, fx, fu. auto.
  - left. reflexivity.
  - right. exists x, fx, fu. auto.
  - exact (IH x fx Hx).
Qed.
End gsrun.

Section gssolver.
Context {A : arith} (FL : field_laws A).

Lemma cr_stored k (S : list ((nat * nat) * A)) i : cr_repr k S -> el k i i <> s0 -> (i, i) ∈ S.*1.
Proof.
  intros H Hne. destruct (decide ((i, i) ∈ S.*1)) as [|Hno]; [assumption|]. destruct Hne.
  rewrite (cr_el k S i i H). now rewrite not_elem_of_list_to_map_1.
Qed.

Lemma gauss_seidel_ret k n (r : lm A) fr tol mi : cr_wf k -> cr_shape k = (n, n) ->
  rep r n 1 (fun j _ => fr j) -> (forall i, i < n -> el k i i <> s0) ->
  gauss_seidel k r tol mi = Panic \/
  exists x fx fu, gauss_seidel k r tol mi = Ret x /\ rep x n 1 (fun j _ => fx j) /\
    (forall i, i < n -> fx i = gs_val (el k) n fr fu fx i) /\
    sleb (sdiv (vnorm n (fun i => ssub (fu i) (fx i))) (vnorm n fx)) tol = true.
Proof.
  intros (S & H) Hs Hr Hd. unfold gauss_seidel. rewrite Hs. cbn [fst snd]. rewrite Nat.eqb_refl. cbn [assert_ mbind out_bind].
  destruct Hr as (Wr & Hsr & Her). cbn in Hsr. injection Hsr as Hsr1 Hsr2. rewrite Hsr1, Hsr2, !Nat.eqb_refl. cbn [assert_ mbind out_bind].
  apply (gs_loop_ret FL k S n r fr tol H Hs) with (fu := fun _ => s0).
  - split; [exact Wr|]. split; [cbn; congruence|exact Her].
  - intros i Hi. apply (cr_stored k S i H), Hd, Hi.
  - apply rep_zeros.
Qed.

Lemma gauss_seidel_solver_ret ho (s : system A) k rv n : oracle_ok ho -> dict_wf k -> d_shape k = (n, n) ->
  sy_k s = Some k -> sy_rhs s = Some rv -> length rv = n -> (forall i, i < n -> el k i i <> s0) ->
  gauss_seidel_solver ho s = Panic \/
  exists x fu, gauss_seidel_solver ho s = Ret (Ok x) /\ length x = n /\
    (forall i, i < n -> vel x i = gs_val (el k) n (vel rv) fu (vel x) i) /\
    sleb (sdiv (vnorm n (fun i => ssub (fu i) (vel x i))) (vnorm n (vel x))) (slit 1 1000) = true.
Proof.
  intros Ho W Hs Hk Hr Hl Hd. unfold gauss_seidel_solver, into_krp. rewrite Hk, Hr. cbn [unwrap mbind out_bind].
  destruct (lm_of_vec_ret rv n Hl) as (b & Eb & Hb). rewrite Eb. cbn [mbind out_bind fst snd].
  set (cr := cr_of_dict (ho 0 (d_data k)) k).
  destruct (from_labeled_vals_spec (d_shape k) (ho 0 (d_data k))) as (Wc & Hsc & Hin & Hout).
  - apply (order_nodup _ k), Ho.
  - intros r c v Hv. apply (order_lookup _ k) in Hv; [|apply Ho]. now apply W in Hv.
  - fold cr in Wc, Hsc, Hin, Hout.
    assert (Hel : forall i j, el cr i j = el k i j).
    { intros i j. rewrite (d_el k) by exact W. destruct (d_data k !! (i, j)) as [v|] eqn:E.
      - apply Hin. apply (order_lookup _ k); [apply Ho|exact E].
      - apply Hout. intros Hi. apply elem_of_list_fmap in Hi as ([kk v] & E2 & Hi). cbn in E2. subst kk.
        apply (order_lookup _ k) in Hi; [congruence|apply Ho]. }
    clear Hsc. assert (Hsc : cr_shape cr = (n, n)) by exact Hs.
    destruct (gauss_seidel_ret cr n b (vel rv) (slit 1 1000) 200 Wc Hsc Hb) as [E|(x & fx & fu & E & Hx & Hv & Ht)].
    + intros i Hi. rewrite Hel. now apply Hd.
    + left. change (CRow _ _ _ _ _) with cr || idtac. rewrite E. reflexivity.
    + right. rewrite E. cbn [mbind out_bind]. rewrite (flat_col x n fx Hx). cbn [mbind out_bind].
      exists (map fx (seq 0 n)), fu. split; [reflexivity|]. split; [now rewrite map_length, seq_length|].
      assert (Hve : forall i, i < n -> vel (map fx (seq 0 n)) i = fx i) by (intros i Hi; now apply vel_map_seq).
      split.
      * intros i Hi. rewrite Hve by exact Hi. rewrite Hv by exact Hi. unfold gs_val. rewrite Hel.
        do 4 f_equal; [|apply bigsum_ext; intros c Hc; now rewrite Hel].
        do 2 f_equal. apply bigsum_ext. intros c Hc. rewrite Hel. f_equal. destruct (c <? i); [|reflexivity]. now rewrite Hve.
      * unfold vnorm in *.
        replace (bigsum n (fun i => ssq (ssub (fu i) (vel (map fx (seq 0 n)) i)))) with (bigsum n (fun i => ssq (ssub (fu i) (fx i))))
          by (apply bigsum_ext; intros i Hi; now rewrite Hve).
        replace (bigsum n (fun i => ssq (vel (map fx (seq 0 n)) i))) with (bigsum n (fun i => ssq (fx i)))
          by (apply bigsum_ext; intros i Hi; now rewrite Hve).
        exact Ht.
Qed.
End gssolver.
