(** Proofs about the Cholesky factorisation in envelope storage. *)
From Verif Require Export LdlProofs Ord.

(** Specification *)
Definition posdef {A : arith} (n : nat) (a : nat -> nat -> A) : Prop :=
  forall x : nat -> A, (exists i, i < n /\ x i <> s0) ->
    lts s0 (bigsum n (fun i => smul (x i) (mv n a x i))).
Definition sqrt_law (A : arith) : Prop :=
  forall x : A, lts s0 x -> lts s0 (ssqrt x) /\ smul (ssqrt x) (ssqrt x) = x.

Lemma map_seq_lookup {B} (f : nat -> B) s n k v : k < n -> f (s + k) = v -> map f (seq s n) !! k = Some v.
Proof.
  intros H <-. rewrite list_lookup_fmap, (lookup_seq_lt _ _ _ H). reflexivity.
Qed.

Section chol.
Context {A : arith} (OL : ord_laws A) (SQ : sqrt_law A).
Let FL : field_laws A := ol_field A OL.
Add Field AfieldCH : (fl_field A FL).
Local Open Scope arith_scope.
Implicit Types (a l : lenv A).

Lemma quad_restrict n k (a : nat -> nat -> A) (x : nat -> A) : (k <= n)%nat ->
  (forall j, (k <= j < n)%nat -> x j = 0) ->
  bigsum n (fun i => x i * mv n a x i) = bigsum k (fun i => x i * mv k a x i).
Proof.
  intros Hk Hx. rewrite (bigsum_split FL n k) by lia. rewrite (bigsum_0 FL (n - k)).
  2:{ intros j Hj. rewrite Hx by lia. ring. }
  transitivity (bigsum k (fun i => x i * mv n a x i)); [ring|]. apply bigsum_ext. intros i Hi. f_equal.
  unfold mv. rewrite (bigsum_split FL n k) by lia. rewrite (bigsum_0 FL (n - k)); [ring|].
  intros j Hj. rewrite Hx by lia. ring.
Qed.

Lemma pd_pivot n (a : nat -> nat -> A) i (l : nat -> nat -> A) (W : nat -> A) :
  posdef n a -> (forall r c, a r c = a c r) -> (i < n)%nat ->
  (forall r c, (r < c)%nat -> l r c = 0) -> (forall r, (r < i)%nat -> l r r <> 0) ->
  (forall r c, (r < i)%nat -> (c < i)%nat -> bigsum i (fun t => l r t * l c t) = a r c) ->
  (forall c, (c < i)%nat -> bigsum i (fun t => l c t * W t) = a i c) ->
  lts 0 (a i i - bigsum i (fun t => W t * W t)).
Proof.
  intros HP Hsym Hi Hl Hd HL HW.
  destruct (upper_exists FL i (fun t q => l q t) W Hd) as (y & Hy0).
  assert (Hy : forall t, (t < i)%nat -> bigsum i (fun q => l q t * y q) = W t).
  { intros t Ht. rewrite <- (Hy0 t Ht). rewrite (bigsum_split FL i t) by lia.
    rewrite (bigsum_0 FL t); [ring|]. intros q Hq. rewrite Hl by lia. ring. }
  set (x := fun j => if (j <? i)%nat then y j else if (j =? i)%nat then - (1) else 0).
  assert (Hxi : x i = - (1)). { unfold x. now rewrite Nat.ltb_irrefl, Nat.eqb_refl. }
  assert (Hxy : forall j, (j < i)%nat -> x j = y j).
  { intros j Hj. unfold x. now rewrite (proj2 (Nat.ltb_lt _ _) Hj). }
  assert (Hq : bigsum n (fun j => x j * mv n a x j) = a i i - bigsum i (fun t => W t * W t)).
  { rewrite (quad_restrict n (S i)) by (try lia; intros j Hj; unfold x;
      rewrite (proj2 (Nat.ltb_ge _ _)), (proj2 (Nat.eqb_neq _ _)) by lia; reflexivity).
    assert (Hmv : forall r, mv (S i) a x r = bigsum i (fun c => a r c * y c) - a r i).
    { intros r. unfold mv. cbn [bigsum]. rewrite Hxi.
      rewrite (bigsum_ext _ (fun c => a r c * y c)) by (intros; rewrite Hxy by lia; reflexivity). ring. }
    cbn [bigsum]. rewrite (bigsum_0 FL).
    - rewrite Hxi, Hmv.
      assert (bigsum i (fun c => a i c * y c) = bigsum i (fun t => W t * W t)) as ->; [|ring].
      transitivity (bigsum i (fun c => bigsum i (fun t => W t * (l c t * y c)))).
      + apply bigsum_ext. intros c Hc. rewrite <- (HW c Hc), <- (bigsum_scale_r FL). apply bigsum_ext. intros. ring.
      + rewrite (bigsum_swap FL). apply bigsum_ext. intros t Ht. rewrite (bigsum_scale_l FL).
        f_equal. now apply Hy.
    - intros r Hr. rewrite Hmv.
      assert (bigsum i (fun c => a r c * y c) = a r i) as ->; [|ring].
      rewrite Hsym, <- (HW r Hr).
      transitivity (bigsum i (fun c => bigsum i (fun t => l r t * (l c t * y c)))).
      + apply bigsum_ext. intros c Hc. rewrite <- (HL r c Hr Hc), <- (bigsum_scale_r FL). apply bigsum_ext. intros. ring.
      + rewrite (bigsum_swap FL). apply bigsum_ext. intros t Ht. rewrite (bigsum_scale_l FL).
        f_equal. now apply Hy. }
  rewrite <- Hq. apply HP. exists i. split; [exact Hi|]. rewrite Hxi. intros E.
  apply (neq_1_0 FL). transitivity (- - (1) : A); [ring|]. rewrite E. ring.
Qed.

Definition chol_inv a (i : nat) l : Prop :=
  le_wf l /\ le_nnz l = le_nnz a /\ lev_n l = lev_n a /\
  (forall r, (r < i)%nat -> lts 0 (el l r r)) /\
  (forall r c, (r < i)%nat -> (c <= r)%nat -> bigsum (S c) (fun t => el l r t * el l c t) = el a r c).

(** extending the factor by a row *)
Lemma chol_extend a i l l' : le_wf a -> (i < lev_n a)%nat -> posdef (lev_n a) (sym_el a) -> chol_inv a i l ->
  le_wf l' -> le_nnz l' = le_nnz l -> lev_n l' = lev_n l ->
  (forall r c, r <> i -> el l' r c = el l r c) ->
  (forall c, (c < i)%nat -> bigsum (S c) (fun t => el l' i t * el l c t) = el a i c) ->
  (el l' i i = ssqrt (el a i i - bigsum i (fun t => el l' i t * el l' i t))) ->
  chol_inv a (S i) l'.
Proof.
  intros Wa Hi HP (W & Hnn & Hn & Hpos & Heq) W' Hnn' Hn' Ho Hrow Hdiag.
  assert (Hpv : lts 0 (el a i i - bigsum i (fun t => el l' i t * el l' i t))).
  { rewrite <- (sym_el_lower a i i) by lia.
    apply (pd_pivot (lev_n a) (sym_el a) i (el l)).
    - exact HP.
    - intros. apply sym_el_sym.
    - exact Hi.
    - intros. now apply el_right.
    - intros r Hr. apply not_eq_sym, (lts_neq OL). now apply Hpos.
    - assert (G : forall r c, (r < i)%nat -> (c <= r)%nat -> bigsum i (fun t => el l r t * el l c t) = sym_el a r c).
      { intros r c Hr Hc. rewrite sym_el_lower by lia. rewrite <- (Heq r c Hr Hc).
        rewrite (bigsum_split FL i (S c)) by lia. rewrite (bigsum_0 FL (i - S c)); [ring|].
        intros t Ht. rewrite (el_right l c) by (assumption || lia). ring. }
      intros r c Hr Hc. destruct (Nat.le_gt_cases c r); [now apply G|].
      rewrite sym_el_sym, <- G by lia. apply bigsum_ext. intros. ring.
    - intros c Hc. rewrite sym_el_lower by lia. rewrite <- (Hrow c Hc).
      rewrite (bigsum_split FL i (S c)) by lia. rewrite (bigsum_0 FL (i - S c)).
      + rewrite (bigsum_ext _ (fun t => el l' i t * el l c t)) by (intros; ring). ring.
      + intros t Ht. rewrite (el_right l c) by (assumption || lia). ring. }
  destruct (SQ _ Hpv) as [Hs1 Hs2]. rewrite <- Hdiag in Hs1, Hs2.
  split; [exact W'|]. split; [congruence|]. split; [congruence|]. split.
  - intros r Hr. destruct (decide (r = i)) as [->|Hne]; [exact Hs1|]. rewrite Ho by lia. apply Hpos. lia.
  - intros r c Hr Hc. destruct (decide (r = i)) as [->|Hne].
    + destruct (decide (c = i)) as [->|Hci].
      * cbn [bigsum]. rewrite Hs2. ring.
      * rewrite <- (Hrow c) by lia. apply bigsum_ext. intros t Ht. rewrite (Ho c) by lia. reflexivity.
    + rewrite <- (Heq r c) by lia. apply bigsum_ext. intros t Ht. rewrite !Ho by lia. reflexivity.
Qed.

Lemma chol_row_ret a i l : le_wf a -> (1 <= i < lev_n a)%nat -> posdef (lev_n a) (sym_el a) -> chol_inv a i l ->
  exists l', chol_row a i l = Ret l' /\ chol_inv a (S i) l'.
Proof.
  intros Wa Hi HP HI. pose proof HI as (W & Hnn & Hn & Hpos & Heq). unfold chol_row.
  rewrite le_row_stored_ret by (assumption || lia). cbn [mbind out_bind fst snd].
  destruct (lsc_le a i Wa ltac:(lia)) as [Hs1 Hs2]. pose proof (lw_bound a Wa i ltac:(lia)) as Hb.
  rewrite map_length, seq_length, usub_ret by lia. cbn [mbind out_bind].
  assert (Hlsc : lsc l i = lsc a i) by (unfold lsc; now rewrite Hnn).
  destruct (Nat.eqb_spec (nz (le_nnz a) i - 1) 0) as [H0|H0].
  - assert (lsc a i = i) as Es by lia. rewrite Es.
    replace (nz (le_nnz a) i) with 1%nat by lia. cbn [seq map idx list_lookup]. 
    rewrite (idx_lookup _ _ (el a i i)) by reflexivity. cbn [mbind out_bind].
    destruct (le_index_set l i i (ssqrt (el a i i)) W) as (l' & E & W' & Hnn' & Hn' & He).
    { apply le_dom_true. lia. }
    exists l'. split; [exact E|].
    assert (Hz : forall t, (t < i)%nat -> el l' i t = 0).
    { intros t Ht. rewrite He, Nat.eqb_refl, (proj2 (Nat.eqb_neq _ _)) by lia. cbn [andb]. apply el_left; [exact W|lia]. }
    apply (chol_extend a i l l'); auto; try lia.
    + intros r c Hr. rewrite He, (proj2 (Nat.eqb_neq _ _) Hr). reflexivity.
    + intros c Hc. rewrite (el_left a i c) by (assumption || lia). apply (bigsum_0 FL).
      intros t Ht. rewrite Hz by lia. ring.
    + rewrite He, !Nat.eqb_refl. cbn [andb]. f_equal. rewrite (bigsum_0 FL); [ring|]. intros t Ht. rewrite Hz by lia. ring.
  - rewrite (idx_lookup _ _ (el a i i)).
    2:{ apply map_seq_lookup; [lia|]. f_equal. lia. }
    cbn [mbind out_bind].
    rewrite slice_ret by (rewrite ?map_length, ?seq_length; lia). cbn [mbind out_bind].
    rewrite Nat.sub_0_r. rewrite drop_0, firstn_map, take_seq.
    replace ((nz (le_nnz a) i - 1) `min` nz (le_nnz a) i)%nat with (i - lsc a i)%nat by lia.
    replace (nz (le_nnz a) i - 1)%nat with (i - lsc a i)%nat by lia.
    set (s := lsc a i) in *.
    destruct (le_solve_sub_full FL l (map (el a i) (seq s (i - s))) s i W) as (w & Ew & Hw & Hwe & _);
      [lia|lia|now rewrite map_length, seq_length| |].
    { intros r Hr. apply not_eq_sym, (lts_neq OL), Hpos. lia. }
    rewrite Ew. cbn [mbind out_bind].
    set (t := ssqrt _).
    destruct (le_row_write_ret l i (w ++ [t]) W ltac:(lia)) as (l' & E & W' & Hnn' & Hn' & He).
    { rewrite app_length, Hnn. cbn. lia. }
    exists l'. split; [exact E|]. rewrite Hlsc in He.
    assert (Hlo : forall c, (c < s)%nat -> el l' i c = 0).
    { intros c Hc. apply el_left; [exact W'|]. unfold lsc in *. rewrite Hnn', Hnn. exact Hc. }
    assert (Hmid : forall k, (k < i - s)%nat -> el l' i (s + k) = vel w k).
    { intros k Hk. rewrite He, Nat.eqb_refl. cbn [andb].
      assert (le_dom l i (s + k) = true) as -> by (apply le_dom_true; lia).
      replace (s + k - s)%nat with k by lia. unfold vel. apply app_nth1. lia. }
    apply (chol_extend a i l l'); auto; try lia.
    + intros r c Hr. rewrite He, (proj2 (Nat.eqb_neq _ _) Hr). reflexivity.
    + intros c Hc. destruct (decide (c < s)%nat) as [Hcs|Hcs].
      * rewrite (el_left a i c) by (assumption || lia). apply (bigsum_0 FL).
        intros k Hk. rewrite Hlo by lia. ring.
      * specialize (Hwe (c - s)%nat ltac:(lia)).
        rewrite (mv_lower FL) in Hwe; [|lia|intros r q Hrq; apply el_right; [exact W|lia]].
        rewrite (bigsum_split FL (S c) s) by lia. rewrite (bigsum_0 FL s).
        2:{ intros k Hk. rewrite Hlo by lia. ring. }
        replace (S c - s)%nat with (S (c - s)) by lia. replace (s + (c - s))%nat with c in Hwe by lia.
        unfold vel at 2 in Hwe. rewrite (nth_lookup_Some _ _ _ (el a i c)) in Hwe.
        2:{ apply map_seq_lookup; [lia|]. f_equal. lia. }
        rewrite <- Hwe. rewrite (bigsum_ext _ (fun k => el l c (s + k) * vel w k)); [ring|].
        intros k Hk. rewrite Hmid by lia. ring.
    + rewrite He, Nat.eqb_refl. cbn [andb].
      assert (le_dom l i i = true) as -> by (apply le_dom_true; lia).
      unfold vel at 1. rewrite app_nth2, Hw, Nat.sub_diag by lia. cbn [nth]. unfold t. f_equal. f_equal.
      rewrite (bigsum_split FL i s) by lia. rewrite (bigsum_0 FL s).
      2:{ intros k Hk. rewrite Hlo by lia. ring. }
      rewrite (list_vel w) at 1. rewrite map_map, ssum_seq, Hw.
      rewrite (bigsum_ext (fun k => el l' i (s + k) * el l' i (s + k)) (fun k => vel w k * vel w k)); [ring|].
      intros k Hk. now rewrite Hmid by lia.
Qed.

Lemma chol_spec a : le_wf a -> (0 < lev_n a)%nat -> posdef (lev_n a) (sym_el a) ->
  exists l, cholesky_envelope a = Ret l /\ chol_inv a (lev_n a) l.
Proof.
  intros Wa Hn0 HP. unfold cholesky_envelope, le_envelope.
  destruct (from_envelope_ret (A := A) (le_nnz a)) as (l0 & E0 & W0 & Hnn0 & He0).
  { rewrite <- (lw_n a Wa). apply (lw_bound a Wa). }
  rewrite E0. cbn [mbind out_bind].
  assert (Hn : lev_n l0 = lev_n a) by (rewrite (lw_n l0 W0), (lw_n a Wa); congruence).
  rewrite (index_ret _ _ le_laws) by (assumption || (cbn; lia)). cbn [mbind out_bind].
  destruct (le_index_set l0 0 0 (ssqrt (el a 0 0)) W0) as (l1 & E1 & W1 & Hnn1 & Hn1 & He1).
  { apply le_dom_true. pose proof (lw_bound l0 W0 0 ltac:(lia)). unfold lsc. lia. }
  rewrite E1. cbn [mbind out_bind mshape le_like fst].
  assert (I1 : chol_inv a 1 l1).
  { apply (chol_extend a 0 l0 l1); auto.
    - split; [exact W0|]. split; [exact Hnn0|]. split; [exact Hn|]. split; intros; lia.
    - intros r c Hr. rewrite He1, (proj2 (Nat.eqb_neq _ _) Hr). reflexivity.
    - intros; lia.
    - rewrite He1. cbn. f_equal. ring. }
  destruct (foldM_range_inv (chol_inv a) (chol_row a) 1 (lev_n a) l1) as (l & E & HI); [lia|exact I1| |].
  - intros i l Hi HI. apply chol_row_ret; auto.
  - exists l. split; [exact E|exact HI].
Qed.

Lemma chol_table a l : chol_inv a (lev_n a) l -> forall r c, (r < lev_n a)%nat -> (c < lev_n a)%nat ->
  mm (lev_n a) (el l) (fun t c => el l c t) r c = sym_el a r c.
Proof.
  intros (W & Hnn & Hn & Hpos & Heq).
  assert (G : forall r c, (r < lev_n a)%nat -> (c <= r)%nat ->
     mm (lev_n a) (el l) (fun t c => el l c t) r c = sym_el a r c).
  { intros r c Hr Hc. rewrite sym_el_lower, <- (Heq r c) by lia. unfold mm.
    rewrite (bigsum_split FL (lev_n a) (S c)) by lia. rewrite (bigsum_0 FL (lev_n a - S c)); [ring|].
    intros t Ht. rewrite (el_right l c) by (assumption || lia). ring. }
  intros r c Hr Hc. destruct (Nat.le_gt_cases c r); [now apply G|].
  rewrite sym_el_sym, <- G by lia. unfold mm. apply bigsum_ext. intros. ring.
Qed.

Lemma solve_ll_ret l (b x0 : list A) : le_wf l -> length b = lev_n l -> length x0 = lev_n l ->
  (forall i, (i < lev_n l)%nat -> el l i i <> 0) ->
  exists x, solve_ll l b x0 = Ret x /\ length x = lev_n l /\
    forall i, (i < lev_n l)%nat -> mv (lev_n l) (mm (lev_n l) (el l) (fun t c => el l c t)) (vel x) i = vel b i.
Proof.
  intros W Hb Hx0 Hd. unfold solve_ll. cbn [mshape le_like fst].
  rewrite (proj2 (Nat.eqb_eq _ _)) by congruence. cbn [assert_ mbind out_bind].
  rewrite (proj2 (Nat.eqb_eq _ _)) by congruence. cbn [assert_ mbind out_bind].
  destruct (le_solve_full FL l b W Hb Hd) as (y & Ey & Hy & Hye & _). rewrite Ey. cbn [mbind out_bind].
  destruct (le_solve_t_full FL l y x0 W Hy Hx0 Hd) as (x & Ex & Hx & Hxe & _).
  exists x. split; [exact Ex|]. split; [exact Hx|]. intros i Hi. rewrite <- (Hye i Hi).
  unfold mv at 1, mm.
  transitivity (bigsum (lev_n l) (fun k => bigsum (lev_n l) (fun t => el l i t * (el l k t * vel x k)))).
  { apply bigsum_ext. intros k Hk. rewrite <- (bigsum_scale_r FL). apply bigsum_ext. intros. ring. }
  rewrite (bigsum_swap FL). unfold mv. apply bigsum_ext. intros t Ht. rewrite (bigsum_scale_l FL).
  f_equal. apply (Hxe t Ht).
Qed.
End chol.
