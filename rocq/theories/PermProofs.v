(** Permutations built from placements. *)
From Verif Require Export Perm.

(** [p] is a permutation of 0..n-1: forward and back tables are inverse to each other *)
Record perm_wf (n : nat) (p : permutation) : Prop := PermWf {
  pw_fwd : length (p_fwd p) = n;
  pw_back : length (p_back p) = n;
  pw_fb : forall i, i < n -> exists j, j < n /\ p_fwd p !! i = Some j /\ p_back p !! j = Some i;
  pw_bf : forall j, j < n -> exists i, i < n /\ p_back p !! j = Some i /\ p_fwd p !! i = Some j
}.

Definition pf (p : permutation) (i : nat) : nat := nth i (p_fwd p) 0.
Definition pb (p : permutation) (i : nat) : nat := nth i (p_back p) 0.

Lemma pf_lookup n p i : perm_wf n p -> i < n ->
  p_fwd p !! i = Some (pf p i) /\ pf p i < n /\ p_back p !! pf p i = Some i /\ pb p (pf p i) = i.
Proof.
  intros W H. destruct (pw_fb n p W i H) as (j & Hj & E1 & E2). unfold pf, pb.
  rewrite (nth_lookup_Some _ _ _ _ E1). repeat split; auto. now apply nth_lookup_Some.
Qed.

Lemma pb_lookup n p j : perm_wf n p -> j < n ->
  p_back p !! j = Some (pb p j) /\ pb p j < n /\ p_fwd p !! pb p j = Some j /\ pf p (pb p j) = j.
Proof.
  intros W H. destruct (pw_bf n p W j H) as (i & Hi & E1 & E2). unfold pf, pb.
  rewrite (nth_lookup_Some _ _ _ _ E1). repeat split; auto. now apply nth_lookup_Some.
Qed.

Lemma pf_inj n p i j : perm_wf n p -> i < n -> j < n -> pf p i = pf p j -> i = j.
Proof.
  intros W Hi Hj E. destruct (pf_lookup n p i W Hi) as (_ & _ & _ & <-).
  destruct (pf_lookup n p j W Hj) as (_ & _ & _ & H). congruence.
Qed.

Lemma permute_ret n p i : perm_wf n p -> i < n -> permute p i = Ret (pf p i).
Proof. intros W H. unfold permute. apply idx_lookup. now apply (pf_lookup n). Qed.

Lemma permute_panic n p i : perm_wf n p -> n <= i -> permute p i = Panic.
Proof.
  intros W H. unfold permute, idx. rewrite lookup_ge_None_2; [reflexivity|]. rewrite (pw_fwd n p W). lia.
Qed.

Lemma unpermute_ret n p i : perm_wf n p -> i < n -> unpermute p i = Ret (pb p i).
Proof. intros W H. unfold unpermute. apply idx_lookup. now apply (pb_lookup n). Qed.

Lemma invert_wf n p : perm_wf n p -> perm_wf n (invert p).
Proof.
  intros [W1 W2 W3 W4]. constructor; cbn; auto.
Qed.

Lemma identity_wf n : perm_wf n (perm_identity n).
Proof.
  constructor; cbn; rewrite ?seq_length; auto; intros i H; exists i; rewrite !lookup_seq_lt by lia; auto.
Qed.

Lemma all_new_spec len seen p :
  all_new len seen p = true <-> NoDup p /\ forall x, x ∈ p -> x < len /\ x ∉ seen.
Proof.
  revert seen; induction p as [|x p IH]; intros seen; cbn [all_new].
  - split; [intros _; split; [constructor|]|auto]. intros x H; now apply elem_of_nil in H.
  - rewrite !andb_true_iff, IH, negb_true_iff, bool_decide_eq_false, Nat.ltb_lt, NoDup_cons.
    split.
    + intros [[H1 H2] [H3 H4]]. split; [split; [|exact H3]|].
      * intros Hx. destruct (H4 x Hx) as [_ H5]. apply H5. left.
      * intros y Hy. apply elem_of_cons in Hy as [->|Hy]; [auto|].
        destruct (H4 y Hy) as [? H5]. split; [auto|]. intros H6. apply H5. now right.
    + intros [[H1 H2] H3]. destruct (H3 x ltac:(left)) as [H4 H5].
      split; [auto|]. split; [exact H2|]. intros y Hy.
      destruct (H3 y ltac:(now right)) as [H6 H7]. split; [auto|].
      intros H8. apply elem_of_cons in H8 as [->|H8]; auto.
Qed.

(** a duplicate-free list of n numbers below n contains every number below n *)
Lemma pigeon (p : list nat) : NoDup p -> (forall x, x ∈ p -> x < length p) ->
  forall x, x < length p -> x ∈ p.
Proof.
  intros Hnd Hb x Hx.
  assert (Hincl : incl (seq 0 (length p)) p).
  { apply NoDup_length_incl.
    - now apply NoDup_ListNoDup.
    - rewrite seq_length. lia.
    - intros y Hy. apply in_seq. apply elem_of_list_In, Hb in Hy. lia. }
  apply elem_of_list_In, Hincl, in_seq. lia.
Qed.

Lemma set_fwd_loop (p : list nat) : NoDup p -> (forall x, x ∈ p -> x < length p) ->
  exists f b, foldM (fun (ix : nat * nat) (fb : list nat * list nat) =>
                f ← set fb.1 ix.2 ix.1; b ← set fb.2 ix.1 ix.2; Ret (f, b))
             (zip (seq 0 (length p)) p) (replicate (length p) 0, replicate (length p) 0) = Ret (f, b) /\
    length f = length p /\ length b = length p /\
    forall i x, p !! i = Some x -> f !! x = Some i /\ b !! i = Some x.
Proof.
  intros Hnd Hb.
  destruct (foldM_list_inv
    (fun (pre : list (nat * nat)) (fb : list nat * list nat) =>
       length fb.1 = length p /\ length fb.2 = length p /\
       forall i x, (i, x) ∈ pre -> fb.1 !! x = Some i /\ fb.2 !! i = Some x)
    (fun (ix : nat * nat) (fb : list nat * list nat) =>
                f ← set fb.1 ix.2 ix.1; b ← set fb.2 ix.1 ix.2; Ret (f, b))
    (zip (seq 0 (length p)) p) (replicate (length p) 0, replicate (length p) 0))
    as ((f & b) & E & H1 & H2 & H3).
  - cbn. rewrite !replicate_length. split; [auto|]. split; [auto|]. intros i x H; now apply elem_of_nil in H.
  - intros pre [i x] post [f b] Hsplit (H1 & H2 & H3). cbn [fst snd] in *.
    assert (Hlk : zip (seq 0 (length p)) p !! length pre = Some (i, x)).
    { rewrite Hsplit, lookup_app_r, Nat.sub_diag by lia. reflexivity. }
    assert (Hpi : forall k j y, zip (seq 0 (length p)) p !! k = Some (j, y) -> k = j /\ p !! j = Some y).
    { intros k j y Hk. apply lookup_zip_with_Some in Hk as (a & c & Hac & Ha & Hc).
      apply lookup_seq in Ha as [-> Ha]. injection Hac as -> ->. split; [lia|]. exact Hc. }
    destruct (Hpi _ _ _ Hlk) as [<- Hx].
    pose proof (lookup_lt_Some _ _ _ Hx) as Hi.
    assert (Hxl : x < length p) by (apply Hb; eapply elem_of_list_lookup_2; exact Hx).
    rewrite set_lookup by lia. cbn [mbind out_bind]. rewrite set_lookup by lia. cbn [mbind out_bind].
    eexists; split; [reflexivity|]. cbn [fst snd]. rewrite !insert_length.
    split; [exact H1|]. split; [exact H2|].
    intros j y Hj. apply elem_of_app in Hj as [Hj|Hj].
    + pose proof Hj as Hj0. apply elem_of_list_lookup in Hj as [k Hk].
      pose proof (lookup_lt_Some _ _ _ Hk) as Hkl.
      assert (Hk' : zip (seq 0 (length p)) p !! k = Some (j, y)).
      { rewrite Hsplit, lookup_app_l by lia. exact Hk. }
      destruct (Hpi _ _ _ Hk') as [<- Hy].
      assert (x <> y).
      { intros ->. assert (length pre = k) by (eapply NoDup_lookup; eauto). lia. }
      rewrite !list_lookup_insert_ne by (auto; lia). now apply H3.
    + apply elem_of_list_singleton in Hj. injection Hj as -> ->.
      rewrite !list_lookup_insert by lia. auto.
  - exists f, b. split; [exact E|]. cbn in *. split; [auto|]. split; [auto|].
    intros i x Hx. apply H3. apply elem_of_list_lookup. exists i.
    apply lookup_zip_with_Some. exists i, x. split; [reflexivity|]. split; [|exact Hx].
    apply lookup_seq. split; [reflexivity|]. now apply lookup_lt_Some in Hx.
Qed.

Lemma from_placement_ret (p : list nat) : NoDup p -> (forall x, x ∈ p -> x < length p) ->
  exists q, from_placement p = Ret q /\ perm_wf (length p) q /\ p_back q = p.
Proof.
  intros Hnd Hb. unfold from_placement.
  rewrite (proj2 (all_new_spec (length p) [] p)).
  2:{ split; [exact Hnd|]. intros x Hx. split; [now apply Hb|]. apply not_elem_of_nil. }
  cbn [assert_ mbind out_bind].
  destruct (set_fwd_loop p Hnd Hb) as (f & b & E & H1 & H2 & H3). rewrite E. cbn [mbind out_bind fst snd].
  eexists; split; [reflexivity|].
  assert (Hbp : b = p).
  { apply list_eq. intros i. destruct (decide (i < length p)) as [Hi|Hi].
    - destruct (lookup_lt_is_Some_2 p i Hi) as [x Hx]. rewrite Hx. now apply H3.
    - rewrite !lookup_ge_None_2 by lia. reflexivity. }
  subst b. split; [|reflexivity]. constructor; cbn; auto.
  - intros i Hi. pose proof (pigeon p Hnd Hb i Hi) as Hin. apply elem_of_list_lookup in Hin as [j Hj].
    exists j. split; [now apply lookup_lt_Some in Hj|]. destruct (H3 j i Hj). auto.
  - intros j Hj. destruct (lookup_lt_is_Some_2 p j Hj) as [x Hx]. exists x.
    split; [apply Hb; eapply elem_of_list_lookup_2; exact Hx|]. destruct (H3 j x Hx). auto.
Qed.

Lemma from_placement_panic (p : list nat) : ~ (NoDup p /\ forall x, x ∈ p -> x < length p) ->
  from_placement p = Panic.
Proof.
  intros H. unfold from_placement. destruct (all_new (length p) [] p) eqn:E; [|reflexivity].
  exfalso. apply H. apply all_new_spec in E as [H1 H2]. split; [exact H1|]. intros x Hx. now apply H2.
Qed.

Lemma permute_slice_ret {B} n p (vals : list B) : perm_wf n p -> length vals = n ->
  exists v', permute_slice p vals = Ret v' /\ length v' = n /\
    forall i, i < n -> v' !! pf p i = vals !! i.
Proof.
  intros W Hl. unfold permute_slice.
  rewrite (proj2 (Nat.eqb_eq _ _)) by (rewrite (pw_fwd n p W); exact Hl). cbn [assert_ mbind out_bind].
  match goal with |- exists x, foldM ?F _ _ = _ /\ _ => set (body := F) end.
  destruct (foldM_list_inv
    (fun (pre : list (nat * B)) (v : list B) => length v = n /\
       forall i, i < length pre -> v !! pf p i = vals !! i)
    body (zip (seq 0 (length vals)) vals) vals) as (v & E & H1 & H2).
  - split; [exact Hl|]. cbn. lia.
  - intros pre [i x] post v Hsplit (H1 & H2). subst body. cbn beta. cbn [fst snd].
    assert (Hlk : zip (seq 0 (length vals)) vals !! length pre = Some (i, x)).
    { rewrite Hsplit, lookup_app_r, Nat.sub_diag by lia. reflexivity. }
    apply lookup_zip_with_Some in Hlk as (a & c & Hac & Ha & Hc). injection Hac as -> ->.
    apply lookup_seq in Ha as [-> Ha]. rewrite Nat.add_0_l in *.
    rewrite (permute_ret n) by (assumption || lia). cbn [mbind out_bind].
    destruct (pf_lookup n p (length pre) W ltac:(lia)) as (_ & Hlt & _).
    rewrite set_lookup by lia. eexists; split; [reflexivity|]. rewrite insert_length.
    split; [exact H1|]. intros k Hk. rewrite app_length in Hk; cbn in Hk.
    destruct (decide (k = length pre)) as [->|Hne].
    + rewrite list_lookup_insert by lia. auto.
    + rewrite list_lookup_insert_ne; [apply H2; lia|]. intros E.
      apply (pf_inj n) in E; [lia|assumption|lia|lia].
  - exists v. split; [exact E|]. split; [exact H1|]. intros i Hi. apply H2.
    rewrite zip_with_length, seq_length. lia.
Qed.

Lemma permute_slice_panic {B} p (vals : list B) : length vals <> length (p_fwd p) ->
  permute_slice p vals = Panic.
Proof. intros H. unfold permute_slice. rewrite (proj2 (Nat.eqb_neq _ _)) by auto. reflexivity. Qed.
