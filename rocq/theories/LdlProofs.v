(** Proofs about the root-free factorisation. *)
From Verif Require Export Solve SparseFull LuProofs.

(** Specification: the symmetric matrix whose lower triangle is stored. *)
Definition sym_el {A : arith} (a : lenv A) (r c : nat) : A :=
  if (c <=? r)%nat then el a r c else el a c r.

Lemma zip_map_min {B C} (f : nat -> B) (g : nat -> C) : forall k p s,
  zip (map f (seq s k)) (map g (seq s p)) = map (fun t => (f t, g t)) (seq s (k `min` p)).
Proof.
  induction k as [|k IH]; intros [|p] s; try reflexivity.
  cbn [seq map zip_with Nat.min]. now rewrite IH.
Qed.

Section ldl.
Context {A : arith} (FL : field_laws A).
Add Field AfieldLDL : (fl_field A FL).
Local Open Scope arith_scope.
Implicit Types (a l : lenv A) (d : dg A).

Lemma sym_el_sym a r c : sym_el a r c = sym_el a c r.
Proof.
  unfold sym_el. destruct (Nat.leb_spec c r), (Nat.leb_spec r c); try reflexivity; try lia.
  now replace c with r by lia.
Qed.

Lemma sym_el_lower a r c : (c <= r)%nat -> sym_el a r c = el a r c.
Proof. intros H. unfold sym_el. now rewrite (proj2 (Nat.leb_le _ _)). Qed.

Lemma le_index_set (l : lenv A) r c v : le_wf l -> le_dom l r c = true ->
  exists l', index_set l (r, c) v = Ret l' /\ le_wf l' /\ le_nnz l' = le_nnz l /\ lev_n l' = lev_n l /\
    forall r' c', el l' r' c' = if (r' =? r)%nat && (c' =? c)%nat then v else el l r' c'.
Proof.
  intros W Hd. destruct (index_set_ret _ _ le_laws l r c v W Hd) as (l' & E & W' & Hs & _ & He).
  exists l'. split; [exact E|]. split; [exact W'|].
  split; [|split; [cbn in Hs; congruence|exact He]].
  unfold index_set, index_upd in E. apply bind_ret_inv in E as (o & E & Eo).
  cbn in E. unfold le_mut in E. apply bind_ret_inv in E as (e & Ee & E).
  destruct e; try (injection E as <-; discriminate).
  apply bind_ret_inv in E as (dd & _ & E). injection E as <-. injection Eo as <-. reflexivity.
Qed.

Lemma row_list l i : le_wf l -> (i < lev_n l)%nat ->
  map (el l i) (seq (lsc l i) (nz (le_nnz l) i)) = map (el l i) (seq (lsc l i) (i + 1 - lsc l i)).
Proof. intros W Hi. destruct (lsc_le l i W Hi). do 2 f_equal. lia. Qed.

Lemma ldl_dot1_ret (f : nat -> A) s i p d : (i - s <= p)%nat -> (i <= length (dg_data d))%nat ->
  ldl_dot1 s i (map f (seq s p)) d
  = Ret (bigsum (i - s) (fun k => f (s + k)%nat * f (s + k)%nat * vel (dg_data d) (s + k))).
Proof.
  intros Hp Hd. unfold ldl_dot1, range.
  rewrite <- (map_id (seq s (i - s))), zip_map_min.
  rewrite (mapM_out_Ret _ (fun jx : nat * A => jx.2 * jx.2 * vel (dg_data d) jx.1)).
  - cbn [mbind out_bind]. rewrite map_map. cbn [fst snd]. rewrite ssum_map_seq.
    now replace (Nat.min (i - s) p) with (i - s)%nat by lia.
  - intros [j x] Hin. apply elem_of_list_In, in_map_iff in Hin as (t & [= <- <-] & Ht).
    apply in_seq in Ht. cbn [fst snd]. rewrite idx_vel by lia. reflexivity.
Qed.

Lemma ldl_dot2_ret (f g : nat -> A) s i p q d : (i - s <= p)%nat -> (i - s <= q)%nat ->
  (i <= length (dg_data d))%nat ->
  ldl_dot2 s i (map f (seq s p)) (map g (seq s q)) d
  = Ret (bigsum (i - s) (fun k => f (s + k)%nat * g (s + k)%nat * vel (dg_data d) (s + k))).
Proof.
  intros Hp Hq Hd. unfold ldl_dot2, range.
  rewrite zip_map_min, <- (map_id (seq s (i - s))), zip_map_min.
  rewrite (mapM_out_Ret _ (fun jx : nat * (A * A) => jx.2.1 * jx.2.2 * vel (dg_data d) jx.1)).
  - cbn [mbind out_bind]. rewrite map_map. cbn [fst snd]. rewrite ssum_map_seq.
    now replace (Nat.min (i - s) (Nat.min p q)) with (i - s)%nat by lia.
  - intros [j x] Hin. apply elem_of_list_In, in_map_iff in Hin as (t & [= <- <-] & Ht).
    apply in_seq in Ht. cbn [fst snd]. rewrite idx_vel by lia. reflexivity.
Qed.

Lemma slice_map_seq (f : nat -> A) s n k : (k <= n)%nat ->
  slice (map f (seq s n)) k (length (map f (seq s n))) = Ret (map f (seq (s + k) (n - k))).
Proof.
  intros H. rewrite map_length, seq_length. rewrite slice_ret by (rewrite ?map_length, ?seq_length; lia).
  rewrite skipn_map, drop_seq. rewrite take_ge; [reflexivity|]. rewrite map_length, seq_length. lia.
Qed.

(** what the inner loop computes for row [r] of column [i] *)
Definition ldl_val a l d (i r : nat) : A :=
  (el a r i - bigsum i (fun t => el l i t * el l r t * vel (dg_data d) t)) / vel (dg_data d) i.

Lemma ldl_entry_ret a l d i j : le_wf a -> le_wf l -> lev_n l = lev_n a ->
  length (dg_data d) = lev_n a -> (i < j < lev_n a)%nat ->
  exists l', ldl_entry a d i j l = Ret l' /\ le_wf l' /\ le_nnz l' = le_nnz l /\ lev_n l' = lev_n l /\
    forall r c, el l' r c = if (r =? j)%nat && (c =? i)%nat && (lsc l j <=? i)%nat
                            then ldl_val a l d i j else el l r c.
Proof.
  intros Wa W Hn Hd Hij. unfold ldl_entry.
  rewrite le_row_stored_ret by (assumption || lia). cbn [mbind out_bind fst snd].
  destruct (Nat.ltb_spec i (lsc l j)) as [Hlt|Hge].
  { exists l. split; [reflexivity|]. split; [exact W|]. split; [reflexivity|]. split; [reflexivity|].
    intros r c. rewrite (proj2 (Nat.leb_gt _ _)) by lia. now rewrite andb_false_r. }
  rewrite (le_row_stored_ret l i) by (assumption || lia). cbn [mbind out_bind fst snd].
  destruct (lsc_le l i W ltac:(lia)) as [Hi1 Hi2]. destruct (lsc_le l j W ltac:(lia)) as [Hj1 Hj2].
  set (s := (lsc l i `max` lsc l j)%nat) in *.
  rewrite slice_map_seq by lia. cbn [mbind out_bind].
  rewrite slice_map_seq by lia. cbn [mbind out_bind].
  replace (lsc l i + (s - lsc l i))%nat with s by lia. replace (lsc l j + (s - lsc l j))%nat with s by lia.
  rewrite ldl_dot2_ret by lia. cbn [mbind out_bind].
  rewrite (index_ret _ _ le_laws) by (assumption || (cbn; lia)). cbn [mbind out_bind].
  rewrite idx_vel by lia. cbn [mbind out_bind].
  destruct (le_index_set l j i ((el a j i - bigsum (i - s)
     (fun k => el l i (s + k) * el l j (s + k) * vel (dg_data d) (s + k))) / vel (dg_data d) i) W)
    as (l' & E & W' & Hnn & Hn' & He).
  { apply le_dom_true. lia. }
  exists l'. split; [exact E|]. split; [exact W'|]. split; [exact Hnn|]. split; [exact Hn'|].
  intros r c. rewrite He. rewrite (proj2 (Nat.leb_le _ _)) by lia. rewrite andb_true_r.
  destruct (_ && _); [|reflexivity]. unfold ldl_val. do 2 f_equal.
  rewrite (bigsum_split FL i s) by lia. rewrite (bigsum_0 FL s); [ring|].
  intros t Ht. destruct (decide (t < lsc l i)%nat).
  - rewrite (el_left l i t) by assumption. ring.
  - rewrite (el_left l j t) by (assumption || lia). ring.
Qed.

Lemma ldl_inner a l d i : le_wf a -> le_wf l -> lev_n l = lev_n a ->
  length (dg_data d) = lev_n a -> (i < lev_n a)%nat ->
  exists l', foldM (ldl_entry a d i) (range (i + 1) (lev_n a)) l = Ret l' /\
    le_wf l' /\ le_nnz l' = le_nnz l /\ lev_n l' = lev_n l /\
    forall r c, el l' r c = if (i <? r)%nat && (r <? lev_n a)%nat && (c =? i)%nat && (lsc l r <=? i)%nat
                            then ldl_val a l d i r else el l r c.
Proof.
  intros Wa W Hn Hd Hi.
  destruct (foldM_range_inv (fun j (l' : lenv A) => le_wf l' /\ le_nnz l' = le_nnz l /\ lev_n l' = lev_n l /\
    forall r c, el l' r c = if (i <? r)%nat && (r <? j)%nat && (c =? i)%nat && (lsc l r <=? i)%nat
                            then ldl_val a l d i r else el l r c)
    (ldl_entry a d i) (i + 1) (lev_n a) l) as (l' & E & HI); [lia| | |].
  - split; [exact W|]. split; [reflexivity|]. split; [reflexivity|]. intros r c.
    destruct (Nat.ltb_spec i r), (Nat.ltb_spec r (i + 1)); try lia; reflexivity.
  - intros j l1 Hj (W1 & Hnn1 & Hn1 & He1).
    destruct (ldl_entry_ret a l1 d i j Wa W1) as (l2 & E2 & W2 & Hnn2 & Hn2 & He2); [congruence|exact Hd|lia|].
    exists l2. split; [exact E2|]. split; [exact W2|]. split; [congruence|]. split; [congruence|].
    intros r c. rewrite He2. unfold lsc at 1. rewrite Hnn1. fold (lsc l j).
    assert (Hv : ldl_val a l1 d i j = ldl_val a l d i j).
    { unfold ldl_val. do 2 f_equal. apply bigsum_ext. intros t Ht. rewrite !He1.
      rewrite (proj2 (Nat.eqb_neq t i)) by lia. rewrite !andb_false_r. reflexivity. }
    rewrite Hv. destruct (Nat.eqb_spec r j) as [->|Hr]; cbn [andb].
    + rewrite He1. destruct (Nat.ltb_spec i j); [|lia]. destruct (Nat.ltb_spec j j); [lia|].
      destruct (Nat.ltb_spec j (S j)); [|lia]. cbn [andb]. destruct (c =? i)%nat, (lsc l j <=? i)%nat; reflexivity.
    + rewrite He1. destruct (Nat.ltb_spec r j), (Nat.ltb_spec r (S j)); try lia; reflexivity.
  - exists l'. split; [exact E|exact HI].
Qed.

(** the equations the factors satisfy column by column *)
Definition ldl_inv a (i : nat) (ld : lenv A * dg A) : Prop :=
  let l := ld.1 in let d := vel (dg_data ld.2) in
  le_wf l /\ le_nnz l = le_nnz a /\ lev_n l = lev_n a /\ length (dg_data ld.2) = lev_n a /\
  (forall c, (c < i)%nat -> el l c c = 1) /\
  (forall c, (c < i)%nat -> d c = el a c c - bigsum c (fun t => el l c t * el l c t * d t)) /\
  (forall c r, (c < i)%nat -> (c < r < lev_n a)%nat -> d c <> 0 ->
     bigsum c (fun t => el l c t * el l r t * d t) + el l r c * d c = el a r c).

Lemma ldl_inv_all a : le_wf a ->
  exists ld, cholesky_envelope_no_root a = Ret ld /\ ldl_inv a (lev_n a) ld.
Proof.
  intros Wa. unfold cholesky_envelope_no_root, le_envelope. cbn [mshape le_like fst].
  destruct (from_envelope_ret (A := A) (le_nnz a)) as (l0 & E0 & W0 & Hnn0 & He0).
  { rewrite <- (lw_n a Wa). apply (lw_bound a Wa). }
  rewrite E0. cbn [mbind out_bind].
  unfold dg_zeros. cbn [fst snd]. rewrite Nat.eqb_refl. cbn [mbind out_bind].
  assert (Hn0 : lev_n l0 = lev_n a) by (rewrite (lw_n l0 W0), (lw_n a Wa); congruence).
  destruct (foldM_range_inv (ldl_inv a) (ldl_col a (lev_n a)) 0 (lev_n a)
              (l0, DG (replicate (lev_n a) 0))) as (ld & E & HI); [lia| | |].
  - unfold ldl_inv. cbn [fst snd dg_data]. rewrite replicate_length.
    split; [exact W0|]. split; [exact Hnn0|]. split; [exact Hn0|]. split; [reflexivity|].
    split; [|split]; intros; lia.
  - intros i [l d] Hi (W & Hnn & Hn & Hd & H1 & H2 & H3). cbn [fst snd] in *. unfold ldl_col. cbn [fst snd].
    rewrite le_row_stored_ret by (assumption || lia). cbn [mbind out_bind fst snd].
    destruct (lsc_le l i W ltac:(lia)) as [Hi1 Hi2].
    rewrite ldl_dot1_ret by lia. cbn [mbind out_bind].
    rewrite (index_ret _ _ le_laws) by (assumption || (cbn; lia)). cbn [mbind out_bind].
    set (dot := bigsum (i - lsc l i) _).
    assert (Hdot : dot = bigsum i (fun t => el l i t * el l i t * vel (dg_data d) t)).
    { unfold dot. rewrite (bigsum_split FL i (lsc l i)) by lia. rewrite (bigsum_0 FL (lsc l i)); [ring|].
      intros t Ht. rewrite (el_left l i t) by assumption. ring. }
    assert (Ed : index_set d (i, i) (el a i i - dot) = Ret (DG (<[i := el a i i - dot]> (dg_data d)))).
    { unfold index_set, index_upd. cbn. unfold dg_mut. cbn [fst snd]. rewrite Nat.eqb_refl.
      rewrite (proj2 (Nat.ltb_lt _ _)) by lia. cbn [andb]. unfold upd_unchecked.
      rewrite (lookup_vel (dg_data d) i) by lia. reflexivity. }
    rewrite Ed. cbn [mbind out_bind]. set (d' := DG _).
    assert (Hd' : length (dg_data d') = lev_n a) by (cbn; now rewrite insert_length).
    assert (Hv : forall t, vel (dg_data d') t = if (t =? i)%nat then el a i i - dot else vel (dg_data d) t).
    { intros t. cbn [dg_data d']. rewrite vel_insert by lia. destruct (Nat.eqb_spec t i); destruct (decide (i = t)) as [?|?]; try lia; try reflexivity. }
    destruct (ldl_inner a l d' i Wa W Hn Hd' ltac:(lia)) as (l1 & E1 & W1 & Hnn1 & Hn1 & He1).
    rewrite E1. cbn [mbind out_bind].
    destruct (le_index_set l1 i i 1 W1) as (l2 & E2 & W2 & Hnn2 & Hn2 & He2).
    { apply le_dom_true. pose proof (lw_bound l1 W1 i ltac:(lia)). unfold lsc. lia. }
    rewrite E2. cbn [mbind out_bind]. eexists. split; [reflexivity|].
    unfold ldl_inv. cbn [fst snd].
    assert (Hlow : forall r t, (t < i)%nat -> el l2 r t = el l r t).
    { intros r t Ht. rewrite He2, He1. rewrite !(proj2 (Nat.eqb_neq t i)) by lia.
      rewrite !andb_false_r. reflexivity. }
    assert (Hvo : forall t, (t < i)%nat -> vel (dg_data d') t = vel (dg_data d) t).
    { intros t Ht. rewrite Hv. now rewrite (proj2 (Nat.eqb_neq t i)) by lia. }
    split; [exact W2|]. split; [congruence|]. split; [congruence|]. split; [exact Hd'|].
    split; [|split].
    + intros c Hc. destruct (decide (c = i)) as [->|Hne].
      * rewrite He2, !Nat.eqb_refl. reflexivity.
      * rewrite Hlow by lia. apply H1. lia.
    + intros c Hc. destruct (decide (c = i)) as [->|Hne].
      * rewrite Hv, Nat.eqb_refl, Hdot. f_equal. apply bigsum_ext. intros t Ht.
        rewrite Hlow, Hvo by lia. reflexivity.
      * rewrite Hvo by lia. rewrite H2 by lia. f_equal. apply bigsum_ext. intros t Ht.
        rewrite !Hlow, Hvo by lia. reflexivity.
    + intros c r Hc Hr Hnz.
      assert (HS : bigsum c (fun t => el l2 c t * el l2 r t * vel (dg_data d') t)
                   = bigsum c (fun t => el l c t * el l r t * vel (dg_data d) t)).
      { apply bigsum_ext. intros t Ht. rewrite !Hlow, Hvo by lia. reflexivity. }
      destruct (decide (c = i)) as [->|Hne].
      * rewrite HS. rewrite (He2 r i), (proj2 (Nat.eqb_neq r i)) by lia. cbn [andb].
        rewrite He1, Nat.eqb_refl. destruct (Nat.ltb_spec i r); [|lia]. destruct (Nat.ltb_spec r (lev_n a)); [|lia].
        cbn [andb]. destruct (Nat.leb_spec (lsc l r) i) as [Hle|Hgt].
        -- unfold ldl_val.
           rewrite (bigsum_ext (fun t => el l i t * el l r t * vel (dg_data d') t)
                               (fun t => el l i t * el l r t * vel (dg_data d) t)).
           2:{ intros t Ht. rewrite Hvo by lia. reflexivity. }
           field. exact Hnz.
        -- rewrite (el_left l r i) by assumption.
           rewrite (el_left a r i); [|exact Wa|unfold lsc in *; rewrite <- Hnn; lia].
           rewrite (bigsum_0 FL); [ring|]. intros t Ht. rewrite (el_left l r t) by (assumption || lia). ring.
      * rewrite HS, Hlow, Hvo by lia. apply H3; [lia|lia|]. rewrite <- Hvo by lia. exact Hnz.
  - exists ld. split; [exact E|exact HI].
Qed.

(** as an equation between tables *)
Definition ldl_table n (l : nat -> nat -> A) (d : nat -> A) (r c : nat) : A :=
  bigsum n (fun t => l r t * d t * l c t).

Lemma ldl_table_lower n (l : nat -> nat -> A) (d : nat -> A) r c : (c <= r)%nat -> (r < n)%nat ->
  (forall r c, (r < c)%nat -> l r c = 0) ->
  ldl_table n l d r c = bigsum c (fun t => l c t * l r t * d t) + l r c * d c * l c c.
Proof.
  intros Hc Hr Hl. unfold ldl_table. rewrite (bigsum_split FL n (S c)) by lia.
  rewrite (bigsum_0 FL (n - S c)). 2:{ intros t Ht. rewrite (Hl c) by lia. ring. }
  cbn [bigsum]. rewrite (bigsum_ext _ (fun t => l c t * l r t * d t)) by (intros; ring). ring.
Qed.

Lemma ldl_table_sym n (l : nat -> nat -> A) (d : nat -> A) r c : ldl_table n l d r c = ldl_table n l d c r.
Proof. unfold ldl_table. apply bigsum_ext. intros. ring. Qed.

Lemma ldl_block a (ld : lenv A * dg A) k : ldl_inv a (lev_n a) ld -> (k <= lev_n a)%nat ->
  (forall c, (c < k)%nat -> (S c < k)%nat -> vel (dg_data ld.2) c <> 0) ->
  forall r c, (r < k)%nat -> (c < k)%nat ->
    ldl_table k (el ld.1) (vel (dg_data ld.2)) r c = sym_el a r c.
Proof.
  intros (W & Hnn & Hn & Hd & H1 & H2 & H3) Hk Hnz.
  assert (G : forall r c, (r < k)%nat -> (c <= r)%nat ->
    ldl_table k (el ld.1) (vel (dg_data ld.2)) r c = sym_el a r c).
  { intros r c Hr Hc. rewrite sym_el_lower by lia. rewrite ldl_table_lower; [|lia|lia|intros; now apply el_right].
    rewrite H1 by lia. destruct (decide (c = r)) as [->|Hne].
    - rewrite H1 by lia. rewrite (H2 r) by lia. ring.
    - rewrite <- (H3 c r) by (lia || (apply Hnz; lia)). ring. }
  intros r c Hr Hc. destruct (Nat.le_gt_cases c r) as [Hle|Hgt].
  - now apply G.
  - rewrite ldl_table_sym, sym_el_sym. apply G; lia.
Qed.

(** non-singular leading blocks make the pivots non-zero *)
Lemma ldl_pivots a (ld : lenv A * dg A) : ldl_inv a (lev_n a) ld ->
  (forall k, (1 <= k <= lev_n a)%nat -> nonsingular k (sym_el a)) ->
  forall c, (c < lev_n a)%nat -> vel (dg_data ld.2) c <> 0.
Proof.
  intros HI Hns c. induction (Nat.lt_wf_0 c) as [c _ IH]. intros Hc Hz.
  pose proof HI as (W & Hnn & Hn & Hd & H1 & H2 & H3).
  set (d := vel (dg_data ld.2)) in *. set (l := el ld.1) in *.
  destruct (upper_kernel FL c (fun t q => d t * l q t)) as (x & Hx1 & Hx0).
  - intros r q Hq. unfold l. rewrite el_right by assumption. ring.
  - intros r Hr. unfold l. rewrite H1 by lia. intros E. apply (IH r Hr ltac:(lia)).
    transitivity (d r * 1); [ring|exact E].
  - rewrite Hz. ring.
  - assert (Hxi : x c = 0).
    { apply (Hns (S c) ltac:(lia) x); [|lia]. intros r Hr. unfold mv.
      transitivity (bigsum (S c) (fun q => bigsum (S c) (fun t => l r t * (d t * l q t * x q)))).
      - apply bigsum_ext. intros q Hq.
        rewrite <- (ldl_block a ld (S c) HI ltac:(lia)) by (try lia; intros; apply IH; lia).
        unfold ldl_table. rewrite <- (bigsum_scale_r FL). apply bigsum_ext. intros. fold l d. ring.
      - rewrite (bigsum_swap FL). apply (bigsum_0 FL). intros t Ht.
        rewrite (bigsum_scale_l FL). unfold mv in Hx0. rewrite Hx0 by lia. ring. }
    rewrite Hx1 in Hxi. now apply (neq_1_0 FL).
Qed.

Lemma dg_solve_ret d (x : list A) : length x = length (dg_data d) ->
  exists y, dg_solve d x = Ret y /\ length y = length x /\
    forall i, (i < length x)%nat -> vel y i = vel x i / vel (dg_data d) i.
Proof.
  intros Hx. unfold dg_solve. rewrite (proj2 (Nat.eqb_eq _ _) Hx). cbn [assert_ mbind out_bind].
  destruct (foldM_range_inv (fun k (y : list A) => length y = length x /\
     forall i, (i < length x)%nat -> vel y i = if (i <? k)%nat then vel x i / vel (dg_data d) i else vel x i)
    (fun i x => xi ← idx x i; dd ← idx (dg_data d) i; set x i (xi / dd)) 0 (length (dg_data d)) x)
    as (y & E & Hl & Hy); [lia| | |].
  - split; [reflexivity|]. intros i Hi. reflexivity.
  - intros i y Hi (Hl & Hy). rewrite !idx_vel by lia. cbn [mbind out_bind].
    rewrite set_lookup by lia. eexists. split; [reflexivity|].
    rewrite insert_length. split; [exact Hl|]. intros j Hj. rewrite vel_insert by lia.
    destruct (Nat.eqb_spec j i) as [->|Hne].
    + rewrite Hy by lia. destruct (Nat.ltb_spec i i), (Nat.ltb_spec i (S i)); try lia. reflexivity.
    + rewrite Hy by lia. destruct (Nat.ltb_spec j i), (Nat.ltb_spec j (S i)); try lia; reflexivity.
  - exists y. split; [exact E|]. split; [exact Hl|]. intros i Hi. rewrite Hy by lia.
    rewrite (proj2 (Nat.ltb_lt _ _)) by lia. reflexivity.
Qed.

Lemma mv_lower n (l : nat -> nat -> A) (x : nat -> A) i : (i < n)%nat ->
  (forall r c, (r < c)%nat -> l r c = 0) -> mv n l x i = bigsum (S i) (fun t => l i t * x t).
Proof.
  intros Hi Hl. unfold mv. rewrite (bigsum_split FL n (S i)) by lia.
  rewrite (bigsum_0 FL (n - S i)); [ring|]. intros t Ht. rewrite Hl by lia. ring.
Qed.

Lemma solve_ldl_ret l d (b x0 : list A) : le_wf l -> length (dg_data d) = lev_n l ->
  length b = lev_n l -> length x0 = lev_n l ->
  (forall i, (i < lev_n l)%nat -> el l i i <> 0) -> (forall i, (i < lev_n l)%nat -> vel (dg_data d) i <> 0) ->
  exists x, solve_ldl l d b x0 = Ret x /\ length x = lev_n l /\
    forall i, (i < lev_n l)%nat ->
      mv (lev_n l) (ldl_table (lev_n l) (el l) (vel (dg_data d))) (vel x) i = vel b i.
Proof.
  intros W Hd Hb Hx0 Hl1 Hdn. unfold solve_ldl. cbn [mshape le_like dg_like fst].
  rewrite bool_decide_eq_true_2 by congruence. cbn [assert_ mbind out_bind].
  rewrite (proj2 (Nat.eqb_eq _ _)) by congruence. cbn [assert_ mbind out_bind].
  rewrite (proj2 (Nat.eqb_eq _ _)) by congruence. cbn [assert_ mbind out_bind].
  destruct (le_solve_full FL l b W Hb Hl1) as (z & Ez & Hz & Hze & _). rewrite Ez. cbn [mbind out_bind].
  destruct (dg_solve_ret d z ltac:(congruence)) as (y & Ey & Hy & Hye). rewrite Ey. cbn [mbind out_bind].
  destruct (le_solve_t_full FL l y x0 W ltac:(congruence) Hx0 Hl1) as (x & Ex & Hx & Hxe & _).
  exists x. split; [exact Ex|]. split; [exact Hx|]. intros i Hi. rewrite <- (Hze i Hi).
  unfold mv at 1, ldl_table.
  transitivity (bigsum (lev_n l) (fun k => bigsum (lev_n l) (fun t => el l i t * vel (dg_data d) t * (el l k t * vel x k)))).
  { apply bigsum_ext. intros k Hk. rewrite <- (bigsum_scale_r FL). apply bigsum_ext. intros. ring. }
  rewrite (bigsum_swap FL). unfold mv. apply bigsum_ext. intros t Ht. rewrite (bigsum_scale_l FL).
  pose proof (Hxe t Ht) as Ht'. unfold mv in Ht'. rewrite Ht', Hye by lia. field. now apply Hdn.
Qed.
End ldl.
