(** Properties of the storage layouts and sparse operations: C02, C03, C14 - C19. *)
From Coq Require Import Floats NArith.
From Verif Require Import SparseFull OverflowProofs InstQc InstF64.

(** *** C02 — reads and writes of every matrix reachable through constructors, writes and
    in-place operations never leave the buffer, whatever the index.  [UB] is the outcome
    of an unchecked access outside the buffer. *)
Theorem C02_dense (A : arith) (m : lm A) : reach lm_init lm_other m ->
  forall loc f, mget m loc <> UB /\ mmut m loc f <> UB.
Proof. exact (lm_safe m). Qed.
Print Assumptions C02_dense.
Theorem C02_lower (A : arith) (m : ltm A) : reach (fun m => exists s, m = lt_zeros s) (fun _ _ => False) m ->
  forall loc f, mget m loc <> UB /\ mmut m loc f <> UB.
Proof. exact (lt_safe m). Qed.
Print Assumptions C02_lower.
Theorem C02_upper (A : arith) (m : utm A) : reach (fun m => exists s, m = ut_zeros s) (fun _ _ => False) m ->
  forall loc f, mget m loc <> UB /\ mmut m loc f <> UB.
Proof. exact (ut_safe m). Qed.
Print Assumptions C02_upper.
Theorem C02_diagonal (A : arith) (m : dg A) : forall loc f, mget m loc <> UB /\ mmut m loc f <> UB.
Proof. exact (dg_safe m). Qed.
Print Assumptions C02_diagonal.
Theorem C02_compressed_row (A : arith) (m : crow A) : reach cr_init (fun _ _ => False) m ->
  forall loc f, mget m loc <> UB /\ mmut m loc f <> UB.
Proof. exact (cr_safe m). Qed.
Print Assumptions C02_compressed_row.
Theorem C02_lower_envelope (A : arith) (m : lenv A) : reach le_init le_other m ->
  forall loc f, mget m loc <> UB /\ mmut m loc f <> UB.
Proof. exact (le_safe m). Qed.
Print Assumptions C02_lower_envelope.
Theorem C02_bi_envelope (A : arith) (m : bienv A) : reach be_init (fun _ _ => False) m ->
  forall loc f, mget m loc <> UB /\ mmut m loc f <> UB.
Proof. exact (be_safe m). Qed.
Print Assumptions C02_bi_envelope.

(** labelled values with a repeated and an out-of-shape label, written to afterwards; a row
    bound beyond the matrix; an envelope after a write *)
Example C02_example :
  (exists m m' : crow Qc_arith, m = from_labeled_vals (2, 2) [((0, 1), qc 5); ((0, 1), qc 6); ((4, 0), qc 7)] /\
     mmut m (0, 1) (fun _ => qc 8) = Ret (Some m') /\ reach cr_init (fun _ _ => False) m' /\
     mget m' (0, 1) = Ret (Some (qc 8)) /\ mget m' (2, 0) = Ret None) /\
  (exists m : bienv Qc_arith, from_row_bounds [(0, 5); (1, 2)] = Ret m /\ reach be_init (fun _ _ => False) m /\
     mget m (0, 1) = Ret (Some (qc 0)) /\ mget m (0, 4) = Ret None) /\
  (exists m m' : lenv Qc_arith, from_envelope [1; 2] = Ret m /\ mmut m (1, 0) (fun _ => qc 3) = Ret (Some m') /\
     reach le_init le_other m' /\ mget m' (1, 0) = Ret (Some (qc 3))).
Proof.
  split; [|split].
  - eexists _, _. split; [reflexivity|]. split; [vm_refl|]. split; [|split; vm_refl].
    eapply (reach_write _ _ (from_labeled_vals (2, 2) [((0, 1), qc 5); ((0, 1), qc 6); ((4, 0), qc 7)]) (0, 1) (fun _ => qc 8)).
    + apply reach_init. right. right. eauto.
    + vm_refl.
  - eexists. split; [vm_refl|]. split; [|split; vm_refl].
    apply reach_init. left. exists [(0, 5); (1, 2)]. vm_refl.
  - eexists _, _. split; [vm_refl|]. split; [vm_refl|]. split; [|vm_refl].
    eapply reach_write with (loc := (1, 0)) (f := fun _ => qc 3).
    + apply reach_init. left. exists [1; 2]. vm_refl.
    + vm_refl.
Qed.

(** *** C03 — a debug build either panics or has one cell per position; both builds are
    right when the size fits the address space; a release build can return an empty buffer
    for a 2^32 x 2^32 matrix, and reading an accepted position is then undefined. *)
Theorem C03_debug (r c : N) (m : wdense) : wd_zeros Debug r c = Ret m ->
  wd_r m = r /\ wd_c m = c /\ wd_len m = (r * c)%N.
Proof. exact (wd_zeros_debug r c m). Qed.
Print Assumptions C03_debug.
Theorem C03_fits (p : profile) (r c : N) : (r * c * 8 < 2 ^ 63)%N -> exists m, wd_zeros p r c = Ret m /\
  wd_r m = r /\ wd_c m = c /\ wd_len m = (r * c)%N /\
  forall i j, exists o, wd_get p m (i, j) = Ret o /\ ((i < r -> j < c -> o = Some (c * i + j)))%N.
Proof. exact (wd_zeros_fits p r c). Qed.
Print Assumptions C03_fits.
Theorem C03_refuted : exists (r c : N) (m : wdense), (r < 2 ^ 64 /\ c < 2 ^ 64)%N /\
  wd_zeros Release r c = Ret m /\ wd_len m <> (r * c)%N /\
  (7 < wd_r m /\ 11 < wd_c m)%N /\ wd_get Release m (7, 11)%N = UB.
Proof.
  exists (2 ^ 32)%N, (2 ^ 32)%N. eexists. split; [split; reflexivity|]. split; [vm_refl|].
  split; [vm_compute; discriminate|]. split; [split; reflexivity|]. vm_refl.
Qed.
Print Assumptions C03_refuted.
Example C03_example : exists m, wd_zeros Debug 3 5 = Ret m /\ wd_len m = 15%N /\
  wd_zeros Debug (2 ^ 32) (2 ^ 32) = Panic.
Proof. eexists. split; [vm_refl|]. split; vm_refl. Qed.

(** *** C14 — compressed rows. *)
Theorem C14_from_flat (A : arith) (FL : field_laws A) (R C : nat) (vals : list A) : length vals = R * C ->
  exists m : crow A, mfrom_flat (R, C) vals = Ret m /\ mshape m = (R, C) /\
    forall r c, mget m (r, c) = Ret (if (r <? R) && (c <? C) then vals !! (C * r + c) else None).
Proof.
  intros H. destruct (cr_from_flat_spec R C vals) as (m & E & W & Hs & He); [lia|].
  exists m. split; [exact E|]. split; [exact Hs|]. intros r c.
  destruct (Nat.ltb_spec r R), (Nat.ltb_spec c C); cbn [andb].
  1: { rewrite (law_get _ _ cr_laws), He by (rewrite ?Hs; auto).
       assert (Hi : C * r + c < length vals) by nia.
       destruct (lookup_lt_is_Some_2 _ _ Hi) as [v Hv]. rewrite (vel_lookup _ _ _ Hv), Hv.
       destruct (seqb v s0) eqn:Ez; [|reflexivity]. apply (fl_eqb A FL) in Ez. now subst. }
  all: apply (law_get_out _ _ cr_laws); [exact W|rewrite Hs; cbn; lia].
Qed.
Print Assumptions C14_from_flat.
Theorem C14_from_labeled (A : arith) (shape : nat * nat) (vals : list ((nat * nat) * A)) :
  NoDup (vals.*1) -> (forall r c v, ((r, c), v) ∈ vals -> r < shape.1 /\ c < shape.2) ->
  let m := from_labeled_vals shape vals in
  mshape m = shape /\
  (forall r c v, ((r, c), v) ∈ vals -> mget m (r, c) = Ret (Some v)) /\
  (forall r c, r < shape.1 -> c < shape.2 -> (r, c) ∉ vals.*1 -> mget m (r, c) = Ret (Some s0)) /\
  (forall r c, shape.1 <= r \/ shape.2 <= c -> mget m (r, c) = Ret None).
Proof.
  intros H1 H2 m. destruct (from_labeled_vals_spec shape vals H1 H2) as (W & Hs & Ha & Hb). fold m in W, Hs, Ha, Hb.
  split; [exact Hs|]. split; [|split].
  - intros r c v Hin. destruct (H2 r c v Hin). rewrite (law_get _ _ cr_laws) by (rewrite ?Hs; auto). now rewrite (Ha r c v).
  - intros r c Hr Hc Hn. rewrite (law_get _ _ cr_laws) by (rewrite ?Hs; auto). now rewrite Hb.
  - intros r c Ho. apply (law_get_out _ _ cr_laws); [exact W|]. now rewrite Hs.
Qed.
Print Assumptions C14_from_labeled.
Theorem C14_product (A : arith) (FL : field_laws A) (shape : nat * nat) (vals : list ((nat * nat) * A)) (o : lm A) :
  NoDup (vals.*1) -> (forall r c v, ((r, c), v) ∈ vals -> r < shape.1 /\ c < shape.2) -> dense_built o ->
  let m := from_labeled_vals shape vals in
  (shape.2 = (mshape o).1 ->
   exists p : lm A, cr_mul m o = Ret p /\ mshape p = (shape.1, (mshape o).2) /\
    forall r c, r < shape.1 -> c < (mshape o).2 ->
      el p r c = bigsum shape.2 (fun k => smul (el m r k) (el o k c))) /\
  (shape.2 <> (mshape o).1 -> cr_mul (U := lm A) m o = Panic).
Proof.
  intros H1 H2 Ho m. apply dense_built_wf in Ho.
  destruct (from_labeled_vals_spec shape vals H1 H2) as (W & _). fold m in W. split.
  - intros He. destruct (cr_mul_spec FL lm_wf full_dom lm_laws m o W Ho He) as (p & E & _ & Hp & Hel).
    exists p. auto.
  - intros Hne. now apply cr_mul_refuses.
Qed.
Print Assumptions C14_product.
Theorem C14_zeros_refuted : exists (s : nat * nat) (m : crow Qc_arith),
  mzeros s = Ret m /\ mshape m = (2, 2) /\ mget m (1, 0) = Panic.
Proof. exists (2, 2). eexists. split; [reflexivity|]. split; vm_refl. Qed.
Print Assumptions C14_zeros_refuted.
Definition c14_m : crow Qc_arith := from_labeled_vals (3, 3) [((2, 0), qc 4); ((0, 1), qc 2); ((2, 2), qc 5); ((0, 0), qc 1)].
Example C14_example :
  map (fun rc => mget c14_m rc) [(0, 0); (0, 1); (1, 1); (2, 0); (2, 2); (3, 0)]
  = [Ret (Some (qc 1)); Ret (Some (qc 2)); Ret (Some (qc 0)); Ret (Some (qc 4)); Ret (Some (qc 5)); Ret None] /\
  (p ← cr_mul (U := lm Qc_arith) c14_m (LM (A := Qc_arith) 3 1 true (map qc [1; 2; 3]%Z)); flat p)
  = Ret (map qc [5; 0; 19]%Z).
Proof. split; qc_compute. Qed.

(** *** C15 — conversion of a dictionary to the envelope layouts, for all traversal orders
    of its hash map. *)
Theorem C15_lower_envelope (A : arith) (ord1 ord2 : list ((nat * nat) * A)) (d : dict A) (n : nat) :
  dict_wf d -> mshape d = (n, n) -> hash_order ord1 d -> hash_order ord2 d ->
  (forall r, r < n -> exists c v, c <= r /\ d_data d !! (r, c) = Some v) ->
  exists m : lenv A, le_of_dict ord1 ord2 d = Ret m /\ mshape m = (n, n) /\
    (forall r c, r < n -> c < n -> mget m (r, c) = Ret (Some (if c <=? r then el d r c else s0))) /\
    (forall r c v, d_data d !! (r, c) = Some v -> c <= r -> forall w, exists m', index_set m (r, c) w = Ret m' /\
       forall r' c', el m' r' c' = if (r' =? r) && (c' =? c) then w else el m r' c').
Proof.
  intros H1 H2 H3 H4 H5. destruct (le_of_dict_spec ord1 ord2 d n H1 H2 H3 H4 H5) as (m & E & W & Hn & Henv & Ha & Hb & Hc).
  exists m. split; [exact E|]. split; [cbn; now rewrite Hn|]. split.
  - intros r c Hr Hcn. rewrite (law_get _ _ le_laws) by (cbn; try lia; exact W).
    destruct (Nat.leb_spec c r); [now rewrite Ha|now rewrite Hb].
  - intros r c v Hv Hcr w. destruct (H1 r c v Hv) as [Hr _]. cbn in H2. rewrite H2 in Hr. cbn in Hr.
    assert (Hd : le_dom m r c = true).
    { apply le_dom_true. split; [lia|]. split; [exact Hcr|]. unfold lsc.
      destruct (d_envelope_spec ord1 d H1 H3) as (env & Ee & _ & _ & Hin & _).
      rewrite Henv in Ee. injection Ee as <-. now apply (Hin r c v). }
    destruct (index_set_ret le_wf le_dom le_laws m r c w W Hd) as (m' & E' & _ & _ & _ & He). eauto.
Qed.
Print Assumptions C15_lower_envelope.
Theorem C15_bi_envelope (A : arith) (ord1 ord2 : list ((nat * nat) * A)) (d : dict A) (n : nat) :
  dict_wf d -> mshape d = (n, n) -> hash_order ord1 d -> hash_order ord2 d ->
  (forall r, r < n -> exists c v, d_data d !! (r, c) = Some v) ->
  exists m : bienv A, be_of_dict ord1 ord2 d = Ret m /\ mshape m = (n, n) /\
    (forall r c, r < n -> c < n -> mget m (r, c) = Ret (Some (el d r c))) /\
    (forall r c v, d_data d !! (r, c) = Some v -> forall w, exists m', index_set m (r, c) w = Ret m' /\
       forall r' c', el m' r' c' = if (r' =? r) && (c' =? c) then w else el m r' c').
Proof.
  intros H1 H2 H3 H4 H5. destruct (be_of_dict_spec ord1 ord2 d n H1 H2 H3 H4 H5) as (m & E & W & Hn & Hbd & Ha & _).
  exists m. split; [exact E|]. split; [cbn; now rewrite Hn|]. split.
  - intros r c Hr Hcn. rewrite (law_get _ _ be_laws) by (cbn; try lia; exact W). now rewrite Ha.
  - intros r c v Hv w. destruct (H1 r c v Hv) as [Hr _]. cbn in H2. rewrite H2 in Hr. cbn in Hr.
    assert (Hd : be_dom m r c = true).
    { apply be_dom_true. split; [lia|].
      destruct (d_row_bounds_spec ord1 d H1 H3) as (b & Eb & _ & _ & Hin & _).
      rewrite Hbd in Eb. injection Eb as <-. now apply (Hin r c v). }
    destruct (index_set_ret be_wf be_dom be_laws m r c w W Hd) as (m' & E' & _ & _ & _ & He). eauto.
Qed.
Print Assumptions C15_bi_envelope.
Theorem C15_refuses (A : arith) (ord1 ord2 : list ((nat * nat) * A)) (d : dict A) (r : nat) :
  dict_wf d -> hash_order ord1 d -> r < (mshape d).1 ->
  ((forall c v, c <= r -> d_data d !! (r, c) <> Some v) -> le_of_dict ord1 ord2 d = Panic) /\
  (0 < (mshape d).2 -> (forall c v, d_data d !! (r, c) <> Some v) -> be_of_dict ord1 ord2 d = Panic).
Proof.
  intros H1 H2 H3. split; intros.
  - now apply (le_of_dict_refuses ord1 ord2 d r).
  - now apply (be_of_dict_refuses ord1 ord2 d r).
Qed.
Print Assumptions C15_refuses.
Definition c15_ents : list ((nat * nat) * Qc_arith) :=
  [((2, 2), qc 7); ((0, 0), qc 4); ((1, 2), qc 9); ((2, 0), qc 5); ((1, 1), qc 6)].
Definition c15_d : dict Qc_arith := Dict (3, 3) (list_to_map c15_ents).
Example C15_example : dict_wf c15_d /\ hash_order c15_ents c15_d /\ hash_order (rev c15_ents) c15_d /\
  (forall r, r < 3 -> exists c v, c <= r /\ d_data c15_d !! (r, c) = Some v) /\
  (m ← le_of_dict c15_ents (rev c15_ents) c15_d; flat m) = Ret (map qc [4; 0; 0; 0; 6; 0; 5; 0; 7]%Z) /\
  (m ← be_of_dict (rev c15_ents) c15_ents c15_d; flat m) = Ret (map qc [4; 0; 0; 0; 6; 9; 5; 0; 7]%Z).
Proof.
  assert (Hnd : NoDup c15_ents.*1) by (apply (bool_decide_unpack _); vm_compute; exact I).
  assert (Ho : hash_order c15_ents c15_d) by (unfold hash_order; symmetry; apply map_to_list_to_map; exact Hnd).
  split; [|split; [exact Ho|split; [|split; [|split; qc_compute]]]].
  - intros r c v Hv. apply elem_of_list_to_map_2 in Hv.
    repeat (apply elem_of_cons in Hv as [Hv|Hv]; [injection Hv as -> -> ->; cbn; lia|]). now apply elem_of_nil in Hv.
  - unfold hash_order. rewrite <- Ho. symmetry. apply Permutation_rev.
  - intros [|[|[|r]]] Hr; [| | |lia].
    + exists 0, (qc 4). split; [lia|]. vm_refl.
    + exists 1, (qc 6). split; [lia|]. vm_refl.
    + exists 0, (qc 5). split; [lia|]. vm_refl.
Qed.

(** *** C16 — hash-backed sparse operations. *)
Theorem C16_read_write (A : arith) (s : nat * nat) (d : dict A) (r c : nat) (v : A) :
  (exists d0 : dict A, mzeros s = Ret d0 /\ dict_wf d0 /\ mshape d0 = s /\
     forall r c, r < s.1 -> c < s.2 -> mget d0 (r, c) = Ret (Some s0)) /\
  (dict_wf d ->
    (r < (mshape d).1 -> c < (mshape d).2 ->
      exists d', index_set d (r, c) v = Ret d' /\ dict_wf d' /\ mshape d' = mshape d /\
        forall r' c', el d' r' c' = if (r' =? r) && (c' =? c) then v else el d r' c') /\
    ((mshape d).1 <= r \/ (mshape d).2 <= c -> index_set d (r, c) v = Panic /\ index d (r, c) = Panic)).
Proof.
  split.
  - exists (d_zeros s). split; [reflexivity|]. pose proof (d_zeros_wf (A := A) s) as W.
    split; [exact W|]. split; [reflexivity|].
    intros i j Hi Hj. rewrite (law_get _ _ d_laws) by (try exact W; assumption). now rewrite d_zeros_el.
  - intros W. split.
    + intros Hr Hc. destruct (index_set_ret dict_wf full_dom d_laws d r c v W) as (d' & E & W' & Hs & _ & He); [|eauto].
      unfold full_dom. apply in_shape_true. auto.
    + intros Ho. split; [|now apply (index_panic dict_wf full_dom d_laws)].
      apply (index_set_panic dict_wf full_dom d_laws); [exact W|]. unfold full_dom. now apply in_shape_false.
Qed.
Print Assumptions C16_read_write.
Theorem C16_permute (A : arith) (ord : list ((nat * nat) * A)) (d : dict A) (pl : list nat) (n : nat) :
  dict_wf d -> hash_order ord d -> mshape d = (n, n) -> length pl = n -> NoDup pl -> (forall x, x ∈ pl -> x < n) ->
  exists p d', from_placement pl = Ret p /\ d_permute ord d p = Ret d' /\ dict_wf d' /\ mshape d' = (n, n) /\
    forall i j r c, pl !! i = Some r -> pl !! j = Some c -> el d' i j = el d r c.
Proof.
  intros H1 H2 H3 Hl Hnd Hlt. destruct (from_placement_ret pl) as (p & Ep & Wp & Hpb); [exact Hnd|intros x Hx; specialize (Hlt x Hx); lia|].
  rewrite Hl in Wp. destruct (d_permute_spec ord d p n H1 H2 H3 Wp) as (d' & E & W' & Hs & He).
  exists p, d'. split; [exact Ep|]. split; [exact E|]. split; [exact W'|].
  split; [cbn in *; congruence|]. intros i j r c Hi Hj.
  assert (Hpf : forall i r, pl !! i = Some r -> r < n /\ pf p r = i).
  { intros i0 r0 Hi0. assert (i0 < n) by (apply lookup_lt_Some in Hi0; lia).
    assert (Hr0 : r0 < n) by (apply Hlt; now apply elem_of_list_lookup_2 in Hi0). split; [exact Hr0|].
    destruct (pb_lookup n p i0 Wp ltac:(lia)) as (Hq & _ & _ & Hf). rewrite Hpb in Hq.
    assert (pb p i0 = r0) as <- by congruence. exact Hf. }
  destruct (Hpf i r Hi) as [Hr <-], (Hpf j c Hj) as [Hc <-]. now apply He.
Qed.
Print Assumptions C16_permute.
Theorem C16_mask (A : arith) (ord : list ((nat * nat) * A)) (d : dict A) (mask : list bool) (n : nat) :
  dict_wf d -> hash_order ord d -> mshape d = (n, n) ->
  (length mask = n -> exists d' keep, d_mask ord d mask = Ret d' /\ dict_wf d' /\
     keep = List.filter (fun i => nth i mask false) (seq 0 n) /\ mshape d' = (length keep, length keep) /\
     forall i j r c, keep !! i = Some r -> keep !! j = Some c -> el d' i j = el d r c) /\
  (length mask <> n -> d_mask ord d mask = Panic).
Proof.
  intros H1 H2 H3. split.
  - intros <-. destruct (d_mask_spec ord d mask (length mask) H1 H2 H3 eq_refl) as (d' & E & W & Hs & He).
    exists d', (kept mask). auto.
  - intros Hn. apply d_mask_refuses. right. cbn in H3. rewrite H3. cbn. auto.
Qed.
Print Assumptions C16_mask.
Theorem C16_transposed_square (A : arith) (ord : list ((nat * nat) * A)) (d : dict A) (n : nat) :
  dict_wf d -> hash_order ord d -> mshape d = (n, n) ->
  mshape (d_transposed ord d) = (n, n) /\ forall r c, el (d_transposed ord d) r c = el d c r.
Proof. intros H1 H2 H3. now apply (d_transposed_spec ord d n). Qed.
Print Assumptions C16_transposed_square.
(** a 1 x 2 matrix: the transpose keeps shape 1 x 2 and position (1, 0) cannot be read *)
Theorem C16_transposed_refuted : exists (ord : list ((nat * nat) * Qc_arith)) (d : dict Qc_arith),
  dict_wf d /\ hash_order ord d /\ mshape d = (1, 2) /\ mget d (0, 1) = Ret (Some (qc 3)) /\
  mshape (d_transposed ord d) = (1, 2) /\ mget (d_transposed ord d) (1, 0) = Ret None.
Proof.
  exists [((0, 1), qc 3)], (Dict (1, 2) {[ (0, 1) := qc 3 ]}). split; [|split; [|repeat split; vm_refl]].
  - intros r c v Hv. cbn [d_data] in Hv. apply lookup_singleton_Some in Hv as [E _]. injection E as <- <-. cbn. lia.
  - unfold hash_order. cbn [d_data]. now rewrite map_to_list_singleton.
Qed.
Print Assumptions C16_transposed_refuted.
Theorem C16_product (A : arith) (FL : field_laws A) (ord1 ord2 : list ((nat * nat) * A)) (a b : dict A) :
  dict_wf a -> dict_wf b -> hash_order ord1 a -> hash_order ord2 b ->
  StronglySorted (fun x y => x.1.1 <= y.1.1) ord2 ->
  ((mshape a).2 = (mshape b).1 ->
   exists d, mul_dict ord1 ord2 a b = Ret d /\ dict_wf d /\ mshape d = ((mshape a).1, (mshape b).2) /\
    forall r c, r < (mshape a).1 -> c < (mshape b).2 ->
      el d r c = bigsum (mshape a).2 (fun k => smul (el a r k) (el b k c))) /\
  ((mshape a).2 <> (mshape b).1 -> mul_dict ord1 ord2 a b = Panic).
Proof.
  intros H1 H2 H3 H4 H5. split.
  - now apply (mul_dict_spec FL).
  - apply mul_dict_refuses.
Qed.
Print Assumptions C16_product.
Definition c16_sorted : list ((nat * nat) * Qc_arith) :=
  [((0, 0), qc 4); ((1, 2), qc 9); ((1, 1), qc 6); ((2, 2), qc 7); ((2, 0), qc 5)].
Example C16_example :
  (p ← from_placement [2; 0; 1]; d ← d_permute (rev c15_ents) c15_d p; m ← lm_of_dict d; flat m)
    = Ret (map qc [7; 5; 0; 0; 4; 0; 9; 0; 6]%Z) /\
  (d ← d_mask c15_ents c15_d [true; false; true]; m ← lm_of_dict d; flat m) = Ret (map qc [4; 0; 5; 7]%Z) /\
  (m ← lm_of_dict (d_transposed c15_ents c15_d); flat m) = Ret (map qc [4; 0; 5; 0; 6; 0; 0; 9; 7]%Z) /\
  StronglySorted (fun x y => x.1.1 <= y.1.1) c16_sorted /\ hash_order c16_sorted c15_d /\
  (d ← mul_dict c15_ents c16_sorted c15_d c15_d; m ← lm_of_dict d; flat m) = Ret (map qc [16; 0; 0; 45; 36; 117; 55; 0; 49]%Z).
Proof.
  split; [qc_compute|]. split; [qc_compute|]. split; [qc_compute|]. split.
  { repeat constructor; cbn; lia. }
  split; [|qc_compute].
  unfold hash_order. rewrite <- (map_to_list_to_map (M := gmap (nat * nat)) c16_sorted) at 1
    by (apply (bool_decide_unpack _); vm_compute; exact I).
  f_equiv. cbn [d_data c15_d]. apply list_to_map_proper.
  - apply (bool_decide_unpack _). vm_compute. exact I.
  - unfold c16_sorted, c15_ents. solve_Permutation.
Qed.

(** *** C17 — triangular solves in envelope storage; the exact solution is unique. *)
Theorem C17_forward (A : arith) (FL : field_laws A) (m : lenv A) (b : list A) :
  le_built m -> length b = (mshape m).1 -> (forall i, i < (mshape m).1 -> el m i i <> s0) ->
  exists x, le_solve m b (replicate (length b) s0) = Ret x /\ length x = (mshape m).1 /\
    (forall i, i < (mshape m).1 -> mv (mshape m).1 (el m) (vel x) i = vel b i) /\
    (forall y, length y = (mshape m).1 ->
       (forall i, i < (mshape m).1 -> mv (mshape m).1 (el m) (vel y) i = vel b i) -> y = x).
Proof. intros H Hb. rewrite Hb. apply (le_solve_full FL m b); [now apply le_built_wf|exact Hb]. Qed.
Print Assumptions C17_forward.
Theorem C17_transposed (A : arith) (FL : field_laws A) (m : lenv A) (y x0 : list A) :
  le_built m -> length y = (mshape m).1 -> length x0 = (mshape m).1 -> (forall i, i < (mshape m).1 -> el m i i <> s0) ->
  exists x, le_solve_t m y x0 = Ret x /\ length x = (mshape m).1 /\
    (forall i, i < (mshape m).1 -> mv (mshape m).1 (fun r c => el m c r) (vel x) i = vel y i) /\
    (forall z, length z = (mshape m).1 ->
       (forall i, i < (mshape m).1 -> mv (mshape m).1 (fun r c => el m c r) (vel z) i = vel y i) -> z = x).
Proof. intros H. apply (le_solve_t_full FL m y x0). now apply le_built_wf. Qed.
Print Assumptions C17_transposed.
Theorem C17_window (A : arith) (FL : field_laws A) (m : lenv A) (b : list A) (lo hi : nat) :
  le_built m -> lo <= hi -> hi <= (mshape m).1 -> length b = hi - lo ->
  (forall i, lo <= i < hi -> el m i i <> s0) ->
  exists x, le_solve_sub m b (replicate (hi - lo) s0) lo hi = Ret x /\ length x = hi - lo /\
    (forall i, i < hi - lo -> mv (hi - lo) (fun r c => el m (lo + r) (lo + c)) (vel x) i = vel b i) /\
    (forall y, length y = hi - lo ->
       (forall i, i < hi - lo -> mv (hi - lo) (fun r c => el m (lo + r) (lo + c)) (vel y) i = vel b i) -> y = x).
Proof. intros H. apply (le_solve_sub_full FL m b lo hi). now apply le_built_wf. Qed.
Print Assumptions C17_window.
Definition c17_ex : out (lenv Qc_arith) :=
  m ← from_envelope [1; 1; 3]; m ← le_row_write m 0 [qc 2]; m ← le_row_write m 1 [qc 4]; le_row_write m 2 [qc 1; qc 3; qc 5].
Example C17_example : exists m, c17_ex = Ret m /\ le_built m /\
  (forall i, i < (mshape m).1 -> el m i i <> s0) /\
  le_solve m (map qc [2; 8; 17]%Z) (map qc [0; 0; 0]%Z) = Ret (map qc [1; 2; 2]%Z) /\
  le_solve_t m (map qc [3; 7; 5]%Z) (map qc [9; 9; 9]%Z) = Ret [qc 1; qc 1; qc 1] /\
  le_solve_sub m (map qc [4; 8]%Z) (map qc [0; 0]%Z) 1 3 = Ret [qc 1; qc 1].
Proof.
  vm_run (from_envelope (A := Qc_arith) [1; 1; 3]) m0 E0.
  vm_run (le_row_write m0 0 [qc 2]) m1 E1.
  vm_run (le_row_write m1 1 [qc 4]) m2 E2.
  vm_run (le_row_write m2 2 [qc 1; qc 3; qc 5]) m3 E3.
  exists m3. split. { unfold c17_ex. rewrite E0; cbn [mbind out_bind]. rewrite E1; cbn [mbind out_bind]. rewrite E2. exact E3. }
  split.
  { assert (le_built m0) by (apply reach_init; left; eauto).
    assert (le_built m1) by (eapply reach_other; [eassumption|left; eauto]).
    assert (le_built m2) by (eapply reach_other; [eassumption|left; eauto]).
    eapply reach_other; [eassumption|left; eauto]. }
  split; [|split; [qc_compute|split; qc_compute]].
  intros i Hi. cbn in Hi. destruct i as [|[|[|i]]]; [apply qc_neq; vm_refl..|lia].
Qed.

(** *** C18 — false: the forward solve adds diag(L) times the previous contents. *)
Theorem C18_refuted : exists (m : lenv Qc_arith) (b x0 x1 y0 y1 : list Qc_arith),
  from_envelope [1] ≫= (fun m => index_set m (0, 0) (qc 2)) = Ret m /\
  le_solve m b x0 = Ret y0 /\ le_solve m b x1 = Ret y1 /\ length x0 = length x1 /\ y0 <> y1.
Proof.
  eexists _, [qc 4], [qc 0], [qc 1], _, _. split; [vm_refl|].
  split; [vm_refl|]. split; [vm_refl|]. split; [reflexivity|]. discriminate.
Qed.
Print Assumptions C18_refuted.
(** what the solve computes for any previous contents *)
Theorem C18_prior_contents (A : arith) (FL : field_laws A) (m : lenv A) (b x0 : list A) :
  le_built m -> length b = (mshape m).1 -> length x0 = (mshape m).1 -> (forall i, i < (mshape m).1 -> el m i i <> s0) ->
  exists x, le_solve m b x0 = Ret x /\ length x = (mshape m).1 /\
    forall i, i < (mshape m).1 ->
      mv (mshape m).1 (el m) (vel x) i = ssub (vel b i) (smul (el m i i) (vel x0 i)).
Proof. intros H. apply (le_solve_spec FL). now apply le_built_wf. Qed.
Print Assumptions C18_prior_contents.

(** *** C19 — banded product and scaled update. *)
Theorem C19_mul_vec (A : arith) (FL : field_laws A) (m : bienv A) (x y0 : list A) :
  be_built m -> (forall i, i < be_n m -> (bnd m i).2 <= be_n m) ->
  (length x = (mshape m).1 -> length y0 = (mshape m).1 ->
   exists y, be_mul_vec m x y0 = Ret y /\ length y = (mshape m).1 /\
    forall i, i < (mshape m).1 -> vel y i = mv (mshape m).1 (el m) (vel x) i) /\
  (length x <> length y0 \/ length y0 <> (mshape m).1 -> be_mul_vec m x y0 = Panic).
Proof.
  intros H Hb. split; [|apply be_mul_vec_refuses].
  apply (be_mul_vec_spec FL). now apply be_built_wf.
Qed.
Print Assumptions C19_mul_vec.
Theorem C19_add_scaled (A : arith) (FL : field_laws A) (m : lenv A) (b : bienv A) (k : A) :
  le_built m -> be_built b -> (forall i, i < be_n b -> (bnd b i).2 <= be_n b) -> (mshape m).1 = (mshape b).1 ->
  ((forall i, i < be_n b -> lsc m i <= (bnd b i).1) ->
   exists m' : lenv A, add_scaled_bienv m b k = Ret m' /\ mshape m' = mshape m /\
     (forall r c, c <= r -> el m' r c = sadd (el m r c) (smul (el b r c) k)) /\
     (forall r c, r < c -> el m' r c = s0)) /\
  ((exists i, i < be_n b /\ (bnd b i).1 < lsc m i) -> add_scaled_bienv m b k = Panic).
Proof.
  intros H1 H2 H3 H4. apply le_built_wf in H1. apply be_built_wf in H2; [|exact H3]. split.
  - intros Hi. destruct (add_scaled_spec FL m b k H1 H2 H4 Hi) as (m' & E & W & _ & Hn & He).
    exists m'. split; [exact E|]. split; [cbn; congruence|]. split; [exact He|].
    intros r c Hrc. now apply el_right.
  - intros (i & Hi & Hl). now apply (add_scaled_refuses m b k i).
Qed.
Print Assumptions C19_add_scaled.
Definition c19_b : out (bienv Qc_arith) :=
  m ← from_row_bounds [(0, 2); (1, 2); (1, 3)]; m ← index_set m (0, 1) (qc 2); m ← index_set m (1, 1) (qc 3); index_set m (2, 1) (qc 5).
Example C19_example :
  (b ← c19_b; be_mul_vec b (map qc [1; 1; 2]%Z) (map qc [7; 7; 7]%Z)) = Ret (map qc [2; 3; 5]%Z) /\
  (b ← c19_b; l ← from_envelope [1; 1; 3]; m ← add_scaled_bienv l b (qc 2); flat m)
    = Ret (map qc [0; 0; 0; 0; 6; 0; 0; 10; 0]%Z) /\
  (b ← c19_b; l ← from_envelope [1; 1; 1]; m ← add_scaled_bienv l b (qc 2); flat m) = Panic.
Proof. split; [|split]; qc_compute. Qed.
Example C19_example_built : exists b, c19_b = Ret b /\ be_built b /\ (forall i, i < be_n b -> (bnd b i).2 <= be_n b).
Proof.
  vm_run (from_row_bounds (A := Qc_arith) [(0, 2); (1, 2); (1, 3)]) m0 E0.
  assert (B0 : be_built m0) by (apply reach_init; left; eauto).
  vm_run (index_set m0 (0, 1) (qc 2)) m1 E1.
  vm_run (index_set m1 (1, 1) (qc 3)) m2 E2.
  vm_run (index_set m2 (2, 1) (qc 5)) m3 E3.
  exists m3. split; [vm_refl|]. split.
  - apply (reach_write _ _ m2 (2, 1) (fun _ => qc 5)); [|vm_refl].
    apply (reach_write _ _ m1 (1, 1) (fun _ => qc 3)); [|vm_refl].
    apply (reach_write _ _ m0 (0, 1) (fun _ => qc 2)); [exact B0|vm_refl].
  - intros i Hi. cbn in Hi. destruct i as [|[|[|i]]]; [vm_compute; lia..|lia].
Qed.
