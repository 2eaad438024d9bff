(** The root-free factorisation and the scaled update, step by step, for any scalars. *)
From Verif Require Export LdlProofs BiEnvProofs.

Section free.
Context {A : arith}.
Implicit Types (a l m : lenv A) (d : dg A) (b : bienv A).

(** entries inside the rows of [b] are updated, the others are left alone *)
Lemma add_scaled_free m b (k : A) : le_wf m -> be_wf b -> lev_n m = be_n b ->
  (forall i, i < be_n b -> lsc m i <= (bnd b i).1) ->
  exists m' : lenv A, add_scaled_bienv m b k = Ret m' /\ le_wf m' /\ le_nnz m' = le_nnz m /\ lev_n m' = lev_n m /\
    forall r c, c <= r -> r < lev_n m -> el m' r c = if be_dom b r c then sadd (el m r c) (smul (el b r c) k) else el m r c.
Proof.
  intros W Wb Hn Hsc. unfold add_scaled_bienv.
  rewrite (proj2 (Nat.eqb_eq _ _)) by congruence. cbn [assert_ mbind out_bind].
  match goal with |- exists x, foldM ?F _ _ = _ /\ _ => set (body := F) end.
  destruct (foldM_range_inv
    (fun q (m' : lenv A) => le_wf m' /\ le_nnz m' = le_nnz m /\ lev_n m' = lev_n m /\
       forall r c, c <= r -> el m' r c = if (r <? q) && be_dom b r c then sadd (el m r c) (smul (el b r c) k) else el m r c)
    body 0 (lev_n m) m) as (m' & E & W' & Hz & Hn' & Hel).
  - lia.
  - split; [exact W|]. split; [reflexivity|]. split; [reflexivity|]. intros r c _.
    now rewrite (proj2 (Nat.ltb_ge r 0)) by lia.
  - intros i m1 Hi (W1 & Hz1 & Hn1 & Hel1). subst body. cbn beta.
    rewrite be_row_stored_ret by (assumption || lia). cbn [mbind out_bind fst snd].
    rewrite le_row_stored_ret by (assumption || lia). cbn [mbind out_bind fst snd].
    assert (Hs1 : lsc m1 i = lsc m i) by (unfold lsc; now rewrite Hz1).
    pose proof (Hsc i ltac:(lia)) as Hsci. pose proof (bw_bound b Wb i ltac:(lia)) as Hbb.
    rewrite (proj2 (Nat.ltb_ge _ _)) by lia.
    destruct (lsc_le m1 i W1 ltac:(lia)) as [Hq1 Hq2].
    set (o := (bnd b i).1 - lsc m1 i).
    set (row := map (el m1 i) (seq (lsc m1 i) (nz (le_nnz m1) i))).
    set (brow := map (el b i) (seq (bnd b i).1 ((bnd b i).2 - (bnd b i).1))).
    assert (Hrl : length row = nz (le_nnz m1) i) by (subst row; now rewrite map_length, seq_length).
    destruct (le_row_write_ret m1 i (take o row ++ zip_axpy (drop o row) brow k)) as (m2 & E2 & W2 & Hz2 & Hn2 & Hel2).
    { exact W1. } { lia. }
    { rewrite app_length, zip_axpy_length, take_length, drop_length. lia. }
    exists m2. split; [exact E2|]. split; [exact W2|]. split; [congruence|]. split; [congruence|].
    intros r c Hcr. rewrite Hel2.
    destruct (Nat.eqb_spec r i) as [Ei|Hne]; cbn [andb].
    + subst r. rewrite (proj2 (Nat.ltb_lt i (S i))) by lia. cbn [andb].
      assert (Hold : el m1 i c = el m i c).
      { rewrite Hel1 by exact Hcr. now rewrite (proj2 (Nat.ltb_ge i i)) by lia. }
      destruct (le_dom m1 i c) eqn:Hd.
      * apply le_dom_true in Hd. destruct Hd as (_ & _ & Hd).
        assert (Hrow : forall j, j < nz (le_nnz m1) i -> vel row j = el m1 i (lsc m1 i + j)).
        { intros j Hj. apply vel_lookup. subst row. rewrite list_lookup_fmap, lookup_seq_lt by lia. reflexivity. }
        destruct (decide (c < (bnd b i).1)) as [Hlt|Hge].
        -- unfold vel. rewrite app_nth1 by (rewrite take_length; lia). rewrite nth_take by lia.
           fold (vel row (c - lsc m1 i)). rewrite Hrow by lia.
           replace (lsc m1 i + (c - lsc m1 i)) with c by lia. rewrite Hold.
           destruct (be_dom b i c) eqn:Hdb; [|reflexivity]. apply be_dom_true in Hdb. lia.
        -- unfold vel. rewrite app_nth2 by (rewrite take_length; lia). rewrite take_length.
           fold (vel (zip_axpy (drop o row) brow k) (c - lsc m1 i - o `min` length row)).
           rewrite zip_axpy_vel by (rewrite drop_length; lia).
           assert (Hv : vel (drop o row) (c - lsc m1 i - o `min` length row) = el m i c).
           { unfold vel. rewrite nth_drop. fold (vel row (o + (c - lsc m1 i - o `min` length row))).
             rewrite Hrow by lia. rewrite <- Hold. f_equal. lia. }
           rewrite Hv. assert (Hbl : length brow = (bnd b i).2 - (bnd b i).1)
             by (subst brow; now rewrite map_length, seq_length).
           rewrite Hbl.
           destruct (Nat.ltb_spec (c - lsc m1 i - o `min` length row) ((bnd b i).2 - (bnd b i).1)) as [Hin|Hout].
           ++ rewrite (proj2 (be_dom_true b i c)) by lia.
              f_equal. f_equal. apply vel_lookup. subst brow. rewrite list_lookup_fmap, lookup_seq_lt by lia.
              cbn. do 2 f_equal. lia.
           ++ destruct (be_dom b i c) eqn:Hdb; [|reflexivity]. apply be_dom_true in Hdb. lia.
      * rewrite Hold. destruct (be_dom b i c) eqn:Hdb; [|reflexivity]. apply be_dom_true in Hdb. exfalso.
        assert (le_dom m1 i c = true) by (apply le_dom_true; lia). congruence.
    + rewrite Hel1 by exact Hcr.
      destruct (Nat.ltb_spec r i), (Nat.ltb_spec r (S i)); try lia; reflexivity.
  - exists m'. split; [exact E|]. split; [exact W'|]. split; [exact Hz|]. split; [exact Hn'|].
    intros r c Hcr Hr. rewrite Hel by exact Hcr. now rewrite (proj2 (Nat.ltb_lt _ _) Hr).
Qed.

(** what the inner loop computes for row [r] of column [i], over the common part of the rows *)
Definition ldl_sum l d (i r : nat) : A :=
  let s := lsc l i `max` lsc l r in
  bigsum (i - s) (fun k => smul (smul (el l i (s + k)) (el l r (s + k))) (vel (dg_data d) (s + k))).
Definition ldl_quot a l d (i r : nat) : A := sdiv (ssub (el a r i) (ldl_sum l d i r)) (vel (dg_data d) i).
Definition ldl_piv a l d (i : nat) : A :=
  ssub (el a i i) (bigsum (i - lsc l i) (fun k => smul (smul (el l i (lsc l i + k)) (el l i (lsc l i + k))) (vel (dg_data d) (lsc l i + k)))).

Lemma ldl_entry_free a l d i j : le_wf a -> le_wf l -> lev_n l = lev_n a ->
  length (dg_data d) = lev_n a -> i < j < lev_n a ->
  exists l', ldl_entry a d i j l = Ret l' /\ le_wf l' /\ le_nnz l' = le_nnz l /\ lev_n l' = lev_n l /\
    forall r c, el l' r c = if (r =? j) && (c =? i) && (lsc l j <=? i) then ldl_quot a l d i j else el l r c.
Proof.
  intros Wa W Hn Hd Hij. unfold ldl_entry.
  rewrite le_row_stored_ret by (assumption || lia). cbn [mbind out_bind fst snd].
  destruct (Nat.ltb_spec i (lsc l j)) as [Hlt|Hge].
  { exists l. split; [reflexivity|]. split; [exact W|]. split; [reflexivity|]. split; [reflexivity|].
    intros r c. rewrite (proj2 (Nat.leb_gt _ _)) by lia. now rewrite andb_false_r. }
  rewrite (le_row_stored_ret l i) by (assumption || lia). cbn [mbind out_bind fst snd].
  destruct (lsc_le l i W ltac:(lia)) as [Hi1 Hi2]. destruct (lsc_le l j W ltac:(lia)) as [Hj1 Hj2].
  set (s := lsc l i `max` lsc l j) in *.
  rewrite slice_map_seq by lia. cbn [mbind out_bind].
  rewrite slice_map_seq by lia. cbn [mbind out_bind].
  replace (lsc l i + (s - lsc l i)) with s by lia. replace (lsc l j + (s - lsc l j)) with s by lia.
  rewrite ldl_dot2_ret by lia. cbn [mbind out_bind].
  rewrite (index_ret _ _ le_laws) by (assumption || (cbn; lia)). cbn [mbind out_bind].
  rewrite idx_vel by lia. cbn [mbind out_bind].
  destruct (le_index_set l j i (ldl_quot a l d i j) W) as (l' & E & W' & Hnn & Hn' & He).
  { apply le_dom_true. lia. }
  exists l'. split; [exact E|]. split; [exact W'|]. split; [exact Hnn|]. split; [exact Hn'|].
  intros r c. rewrite He. rewrite (proj2 (Nat.leb_le _ _)) by lia. now rewrite andb_true_r.
Qed.

Lemma ldl_sum_ext l l' d d' i r : le_nnz l' = le_nnz l -> (forall q t, t < i -> el l' q t = el l q t) ->
  (forall t, t < i -> vel (dg_data d') t = vel (dg_data d) t) -> ldl_sum l' d' i r = ldl_sum l d i r.
Proof.
  intros Hnn He Hd. unfold ldl_sum, lsc. rewrite Hnn. apply bigsum_ext. intros t Ht. now rewrite !He, Hd by lia.
Qed.

Lemma ldl_inner_free a l d i : le_wf a -> le_wf l -> lev_n l = lev_n a ->
  length (dg_data d) = lev_n a -> i < lev_n a ->
  exists l', foldM (ldl_entry a d i) (range (i + 1) (lev_n a)) l = Ret l' /\
    le_wf l' /\ le_nnz l' = le_nnz l /\ lev_n l' = lev_n l /\
    forall r c, el l' r c = if (i <? r) && (r <? lev_n a) && (c =? i) && (lsc l r <=? i)
                            then ldl_quot a l d i r else el l r c.
Proof.
  intros Wa W Hn Hd Hi.
  destruct (foldM_range_inv (fun j (l' : lenv A) => le_wf l' /\ le_nnz l' = le_nnz l /\ lev_n l' = lev_n l /\
    forall r c, el l' r c = if (i <? r) && (r <? j) && (c =? i) && (lsc l r <=? i)
                            then ldl_quot a l d i r else el l r c)
    (ldl_entry a d i) (i + 1) (lev_n a) l) as (l' & E & HI); [lia| | |].
  - split; [exact W|]. split; [reflexivity|]. split; [reflexivity|]. intros r c.
    destruct (Nat.ltb_spec i r), (Nat.ltb_spec r (i + 1)); try lia; reflexivity.
  - intros j l1 Hj (W1 & Hnn1 & Hn1 & He1).
    destruct (ldl_entry_free a l1 d i j Wa W1) as (l2 & E2 & W2 & Hnn2 & Hn2 & He2); [congruence|exact Hd|lia|].
    exists l2. split; [exact E2|]. split; [exact W2|]. split; [congruence|]. split; [congruence|].
    intros r c. rewrite He2. unfold lsc at 1. rewrite Hnn1. fold (lsc l j).
    assert (Hv : ldl_quot a l1 d i j = ldl_quot a l d i j).
    { unfold ldl_quot. do 2 f_equal. apply ldl_sum_ext; [exact Hnn1| |reflexivity]. intros q t Ht. rewrite He1.
      rewrite (proj2 (Nat.eqb_neq t i)) by lia. rewrite !andb_false_r. reflexivity. }
    rewrite Hv. destruct (Nat.eqb_spec r j) as [->|Hr]; cbn [andb].
    + rewrite He1. destruct (Nat.ltb_spec i j); [|lia]. destruct (Nat.ltb_spec j j); [lia|].
      destruct (Nat.ltb_spec j (S j)); [|lia]. cbn [andb]. destruct (c =? i), (lsc l j <=? i); reflexivity.
    + rewrite He1. destruct (Nat.ltb_spec r j), (Nat.ltb_spec r (S j)); try lia; reflexivity.
  - exists l'. split; [exact E|exact HI].
Qed.

(** the assignments that produced the factors, in terms of the final factors *)
Definition ldl_steps a (i : nat) (ld : lenv A * dg A) : Prop :=
  let l := ld.1 in let d := ld.2 in
  le_wf l /\ le_nnz l = le_nnz a /\ lev_n l = lev_n a /\ length (dg_data d) = lev_n a /\
  (forall c, c < i -> el l c c = s1) /\
  (forall c, c < i -> vel (dg_data d) c = ldl_piv a l d c) /\
  (forall c r, c < i -> c < r < lev_n a -> lsc a r <= c -> el l r c = ldl_quot a l d c r).

Lemma ldl_steps_all a : le_wf a ->
  exists ld, cholesky_envelope_no_root a = Ret ld /\ ldl_steps a (lev_n a) ld.
Proof.
  intros Wa. unfold cholesky_envelope_no_root, le_envelope. cbn [mshape le_like fst].
  destruct (from_envelope_ret (A := A) (le_nnz a)) as (l0 & E0 & W0 & Hnn0 & He0).
  { rewrite <- (lw_n a Wa). apply (lw_bound a Wa). }
  rewrite E0. cbn [mbind out_bind].
  unfold dg_zeros. cbn [fst snd]. rewrite Nat.eqb_refl. cbn [mbind out_bind].
  assert (Hn0 : lev_n l0 = lev_n a) by (rewrite (lw_n l0 W0), (lw_n a Wa); congruence).
  destruct (foldM_range_inv (ldl_steps a) (ldl_col a (lev_n a)) 0 (lev_n a)
              (l0, DG (replicate (lev_n a) s0))) as (ld & E & HI); [lia| | |].
  - unfold ldl_steps. cbn [fst snd dg_data]. rewrite replicate_length.
    split; [exact W0|]. split; [exact Hnn0|]. split; [exact Hn0|]. split; [reflexivity|].
    split; [|split]; intros; lia.
  - intros i [l d] Hi (W & Hnn & Hn & Hd & H1 & H2 & H3). cbn [fst snd] in *. unfold ldl_col. cbn [fst snd].
    rewrite le_row_stored_ret by (assumption || lia). cbn [mbind out_bind fst snd].
    destruct (lsc_le l i W ltac:(lia)) as [Hi1 Hi2].
    rewrite ldl_dot1_ret by lia. cbn [mbind out_bind].
    rewrite (index_ret _ _ le_laws) by (assumption || (cbn; lia)). cbn [mbind out_bind].
    change (ssub (el a i i) (bigsum (i - lsc l i) _)) with (ldl_piv a l d i).
    assert (Ed : index_set d (i, i) (ldl_piv a l d i) = Ret (DG (<[i := ldl_piv a l d i]> (dg_data d)))).
    { unfold index_set, index_upd. cbn. unfold dg_mut. cbn [fst snd]. rewrite Nat.eqb_refl.
      rewrite (proj2 (Nat.ltb_lt _ _)) by lia. cbn [andb]. unfold upd_unchecked.
      rewrite (lookup_vel (dg_data d) i) by lia. reflexivity. }
    rewrite Ed. cbn [mbind out_bind]. set (d' := DG _).
    assert (Hd' : length (dg_data d') = lev_n a) by (cbn; now rewrite insert_length).
    assert (Hv : forall t, vel (dg_data d') t = if t =? i then ldl_piv a l d i else vel (dg_data d) t).
    { intros t. cbn [dg_data d']. rewrite vel_insert by lia. destruct (Nat.eqb_spec t i); destruct (decide (i = t)) as [?|?]; try lia; try reflexivity. }
    destruct (ldl_inner_free a l d' i Wa W Hn Hd' ltac:(lia)) as (l1 & E1 & W1 & Hnn1 & Hn1 & He1).
    rewrite E1. cbn [mbind out_bind].
    destruct (le_index_set l1 i i s1 W1) as (l2 & E2 & W2 & Hnn2 & Hn2 & He2).
    { apply le_dom_true. pose proof (lw_bound l1 W1 i ltac:(lia)). unfold lsc. lia. }
    rewrite E2. cbn [mbind out_bind]. eexists. split; [reflexivity|].
    unfold ldl_steps. cbn [fst snd].
    assert (Hnn' : le_nnz l2 = le_nnz l) by congruence.
    assert (Hlsc : forall q, lsc l2 q = lsc l q) by (intros q; unfold lsc; now rewrite Hnn').
    assert (Hlow : forall r t, t < i -> el l2 r t = el l r t).
    { intros r t Ht. rewrite He2, He1. rewrite !(proj2 (Nat.eqb_neq t i)) by lia.
      rewrite !andb_false_r. reflexivity. }
    assert (Hvo : forall t, t < i -> vel (dg_data d') t = vel (dg_data d) t).
    { intros t Ht. rewrite Hv. now rewrite (proj2 (Nat.eqb_neq t i)) by lia. }
    assert (Hpiv : forall c, c <= i -> ldl_piv a l2 d' c = ldl_piv a l d c).
    { intros c Hc. unfold ldl_piv. rewrite Hlsc. f_equal. apply bigsum_ext. intros t Ht. now rewrite !Hlow, Hvo by lia. }
    split; [exact W2|]. split; [congruence|]. split; [congruence|]. split; [exact Hd'|].
    split; [|split].
    + intros c Hc. destruct (decide (c = i)) as [->|Hne].
      * rewrite He2, !Nat.eqb_refl. reflexivity.
      * rewrite Hlow by lia. apply H1. lia.
    + intros c Hc. rewrite Hpiv by lia. destruct (decide (c = i)) as [->|Hne].
      * now rewrite Hv, Nat.eqb_refl.
      * rewrite Hvo by lia. apply H2. lia.
    + intros c r Hc Hr Hin. unfold ldl_quot. rewrite (ldl_sum_ext l l2 d d' c r Hnn') by (intros; (apply Hlow || apply Hvo); lia).
      destruct (decide (c = i)) as [->|Hne].
      * rewrite (He2 r i), (proj2 (Nat.eqb_neq r i)) by lia. cbn [andb].
        rewrite He1, Nat.eqb_refl. destruct (Nat.ltb_spec i r); [|lia]. destruct (Nat.ltb_spec r (lev_n a)); [|lia].
        cbn [andb]. rewrite (proj2 (Nat.leb_le _ _)). 2:{ unfold lsc in *. rewrite Hnn. exact Hin. }
        unfold ldl_quot. rewrite (ldl_sum_ext l l d d' i r) by (auto). reflexivity.
      * rewrite Hlow, Hvo by lia. apply H3; lia.
  - exists ld. split; [exact E|exact HI].
Qed.
End free.
