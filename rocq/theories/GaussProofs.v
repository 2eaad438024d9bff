(** Proofs about dense Gaussian elimination. *)
From Verif Require Export LuProofs Ord.

(** ** Specification *)

(** p is the last position in [k, n) at which g is largest (signed comparison) *)
Definition last_max {A : arith} (k n : nat) (g : nat -> A) (p : nat) : Prop :=
  k <= p < n /\ (forall r, k <= r < p -> les (g r) (g p)) /\ (forall r, p < r < n -> lts (g r) (g p)).

(** textbook elimination of column k with pivot row p: exchange rows k and p, divide row k
    by the pivot, subtract the multiple of row k from the rows below *)
Definition elim_step {A : arith} (k p : nat) (M : nat -> nat -> A) : nat -> nat -> A :=
  let S := fun r c => M (swapf k p r) c in
  fun r c => if r <? k then S r c
             else if r =? k then sdiv (S k c) (S k k)
             else ssub (S r c) (smul (sdiv (S k c) (S k k)) (S r k)).

(** the elimination of the n x n table [a] meets only non-zero pivots: there is a sequence
    of tables starting at [a], each obtained from its predecessor by eliminating the next
    column with the largest candidate as pivot, and every pivot is non-zero *)
Definition pivots_nonzero {A : arith} (n : nat) (a : nat -> nat -> A) : Prop :=
  exists Ms : nat -> nat -> nat -> A,
    (forall r c, r < n -> c < n -> Ms 0 r c = a r c) /\
    forall k, k < n -> exists p, last_max k n (fun r => Ms k r k) p /\ Ms k p k <> s0 /\
      forall r c, r < n -> c < n -> Ms (S k) r c = elim_step k p (Ms k) r c.

Section gauss.
Context {A : arith} (OL : ord_laws A).
Let FL : field_laws A := ol_field A OL.
Add Field Afield4 : (fl_field A FL).
Local Open Scope arith_scope.

Lemma last_max_unique k n (g : nat -> A) p q : last_max k n g p -> last_max k n g q -> p = q.
Proof.
  intros (H1 & H2 & H3) (G1 & G2 & G3).
  destruct (lt_eq_lt_dec p q) as [[H|H]|H]; [|exact H|].
  - specialize (H3 q ltac:(lia)). specialize (G2 p ltac:(lia)).
    exfalso. apply (lts_irr OL (g p)). now apply (les_lts_trans OL) with (g q).
  - specialize (G3 p ltac:(lia)). specialize (H2 q ltac:(lia)).
    exfalso. apply (lts_irr OL (g p)). now apply (lts_les_trans OL) with (g q).
Qed.

Lemma max_by_spec (g : nat -> A) k m :
  exists p, max_by (fun p q : nat * A => cmp_unwrap p.2 q.2) (map (fun r => (r, g r)) (seq k (S m)))
            = Ret (Some (p, g p)) /\ last_max k (k + S m) g p.
Proof.
  cbn [seq map max_by].
  assert (G : forall m, exists p,
     foldM (fun (y : nat * A) acc => c ← cmp_unwrap acc.2 y.2; Ret match c with Gt => acc | _ => y end)
           (map (fun r => (r, g r)) (seq (S k) m)) (k, g k) = Ret (p, g p) /\ last_max k (k + S m) g p).
  { clear m. induction m as [|m (p & E & Hp)].
    - exists k. split; [reflexivity|]. split; [lia|]. split; intros; lia.
    - rewrite seq_S_app, map_app, foldM_app, E. cbn [mbind out_bind foldM map fst snd].
      destruct (scmp_spec OL (g p) (g (S k + m)%nat)) as (c & Ec & Hc).
      unfold cmp_unwrap. rewrite Ec. cbn [unwrap mbind out_bind].
      destruct Hp as (H1 & H2 & H3).
      assert (Hnew : les (g p) (g (S k + m)%nat) -> last_max k (k + S (S m)) g (S k + m)%nat).
      { intros Hle. split; [lia|]. split; [|intros; lia]. intros r Hr.
        destruct (decide (r = p)) as [->|]; [exact Hle|]. apply (les_trans OL) with (g p); [|exact Hle].
        destruct (decide (r < p)); [apply H2; lia|apply (lts_les OL); apply H3; lia]. }
      destruct c; eexists; (split; [reflexivity|]).
      + apply Hnew. rewrite Hc. apply (les_refl OL).
      + apply Hnew. now apply (lts_les OL).
      + split; [lia|]. split; [exact H2|]. intros r Hr.
        destruct (decide (r = S k + m)%nat) as [->|]; [exact Hc|]. apply H3. lia. }
  destruct (G m) as (p & E & Hp). rewrite E. exists p. split; [reflexivity|exact Hp].
Qed.

Lemma zip_seq_map {B} (f : nat -> B) k n :
  drop k (zip (seq 0 (length (map f (seq 0 n)))) (map f (seq 0 n))) = map (fun r => (r, f r)) (seq k (n - k)).
Proof.
  rewrite map_length, seq_length.
  rewrite <- (map_id (seq 0 n)) at 1. rewrite (zip_with_seq pair (fun i => i) f).
  rewrite <- fmap_drop, drop_seq. reflexivity.
Qed.

(** one row is eliminated *)
Lemma gauss_row_spec n k r (a b : lm A) fa fb : (k < r < n)%nat -> rep a n n fa -> rep b n 1 fb ->
  exists a' b', gauss_row k r n (a, b) = Ret (a', b') /\
    rep a' n n (fun i c => if (i =? r)%nat && (k <=? c)%nat then fa r c - fa k c * fa r k else fa i c) /\
    rep b' n 1 (fun i c => if (i =? r)%nat then fb r c - fb k c * fa r k else fb i c).
Proof.
  intros Hr Ha Hb. unfold gauss_row. cbn [fst snd].
  rewrite (rep_index a n n fa r k Ha) by lia. cbn [mbind out_bind].
  destruct (foldM_range_inv
     (fun j a' => rep a' n n (fun i c => if (i =? r)%nat && ((k <=? c)%nat && (c <? j)%nat) then fa r c - fa k c * fa r k else fa i c))
     (fun i a => x ← index a (k, i); index_upd a (r, i) (fun y => y - x * fa r k)) k n a)
     as (a' & E & Ha'); [lia| | |].
  - eapply rep_ext; [exact Ha|]. intros i c Hi Hc. cbn.
    destruct (Nat.eqb_spec i r), (Nat.leb_spec k c), (Nat.ltb_spec c k); cbn; try lia; reflexivity.
  - intros i a1 Hi Ha1. rewrite (rep_index a1 n n _ k i Ha1) by lia. cbn [mbind out_bind].
    destruct (rep_upd a1 n n _ r i (fun y => y - (if (k =? r)%nat && ((k <=? i)%nat && (i <? i)%nat) then fa r i - fa k i * fa r k else fa k i) * fa r k) Ha1) as (a2 & E2 & H2); [lia..|].
    exists a2. split; [exact E2|]. eapply rep_ext; [exact H2|]. intros i' c' Hi' Hc'.
    unfold fupd2.
    rewrite Nat.ltb_irrefl, !andb_false_r.
    destruct (Nat.eqb_spec i' r) as [->|], (Nat.eqb_spec c' i) as [->|]; cbn [andb]; try reflexivity.
    + destruct (Nat.leb_spec k i), (Nat.ltb_spec i (S i)); try lia. cbn [andb]. reflexivity.
    + destruct (Nat.leb_spec k c'), (Nat.ltb_spec c' i), (Nat.ltb_spec c' (S i)); try lia; reflexivity.
  - rewrite E. cbn [mbind out_bind]. rewrite (rep_index b n 1 fb k 0 Hb) by lia. cbn [mbind out_bind].
    destruct (rep_upd b n 1 fb r 0 (fun y => y - fb k 0%nat * fa r k) Hb) as (b' & E2 & Hb'); [lia..|].
    rewrite E2. cbn [mbind out_bind]. exists a', b'. split; [reflexivity|]. split.
    + eapply rep_ext; [exact Ha'|]. intros i c Hi Hc. cbn. rewrite (proj2 (Nat.ltb_lt c n)) by lia.
      now rewrite andb_true_r.
    + eapply rep_ext; [exact Hb'|]. intros i c Hi Hc. unfold fupd2. assert (c = 0%nat) as -> by lia.
      rewrite Nat.eqb_refl, andb_true_r. destruct (Nat.eqb_spec i r) as [->|]; reflexivity.
Qed.

(** the right-hand side after one column *)
Definition elim_rhs (k p : nat) (M : nat -> nat -> A) (b : nat -> A) : nat -> A :=
  fun r => if (r <? k)%nat then b (swapf k p r)
           else if (r =? k)%nat then b p / M p k
           else b (swapf k p r) - b p / M p k * M (swapf k p r) k.

Lemma swapf_l k p : swapf k p k = p.
Proof. unfold swapf. now rewrite Nat.eqb_refl. Qed.

Lemma gauss_col_spec n k p (a b : lm A) (M : nat -> nat -> A) (fb : nat -> A) : (k < n)%nat ->
  rep a n n M -> rep b n 1 (fun r _ => fb r) ->
  last_max k n (fun r => M r k) p -> M p k <> 0 ->
  (forall r c, k <= r < n -> c < k -> M r c = 0) ->
  exists a' b', gauss_col n k (a, b) = Ret (Ok (a', b')) /\
    rep a' n n (elim_step k p M) /\ rep b' n 1 (fun r _ => elim_rhs k p M fb r).
Proof.
  intros Hk Ha Hb Hp Hpz Hz. unfold gauss_col. cbn [fst snd].
  rewrite (rep_col a n n M k Ha) by lia. cbn [mbind out_bind].
  rewrite zip_seq_map.
  destruct (max_by_spec (fun r => M r k) k (n - k - 1)) as (q & E & Hq).
  replace (S (n - k - 1)) with (n - k)%nat in E, Hq by lia. rewrite E. cbn [mbind out_bind].
  replace (k + (n - k))%nat with n in Hq by lia.
  assert (q = p) as -> by (eapply last_max_unique; eauto).
  destruct Hp as ((Hp1 & Hp2) & _).
  destruct (rep_swap_rows a n n M k p Ha) as (a1 & E1 & Ha1); [lia..|]. rewrite E1. cbn [mbind out_bind].
  destruct (rep_swap_rows b n 1 _ k p Hb) as (b1 & E2 & Hb1); [lia..|]. rewrite E2. cbn [mbind out_bind].
  rewrite (rep_index a1 n n _ k k Ha1) by lia. cbn [mbind out_bind]. rewrite swapf_l.
  destruct (rep_mutate_row a1 n n _ k (fun x => x / M p k) Ha1) as (a2 & E3 & Ha2); [lia|].
  rewrite E3. cbn [mbind out_bind].
  destruct (rep_mutate_row b1 n 1 _ k (fun x => x / M p k) Hb1) as (b2 & E4 & Hb2); [lia|].
  rewrite E4. cbn [mbind out_bind].
  set (S := fun r c => M (swapf k p r) c).
  destruct (foldM_range_inv
    (fun j ab => rep ab.1 n n (fun r c => if (r <? j)%nat then elim_step k p M r c else S r c) /\
                 rep ab.2 n 1 (fun r _ => if (r <? j)%nat then elim_rhs k p M fb r else fb (swapf k p r)))
    (fun row ab => gauss_row k row n ab) (k + 1) n (a2, b2)) as ([a3 b3] & E5 & Ha3 & Hb3); [lia| | |].
  - split.
    + eapply rep_ext; [exact Ha2|]. intros r c Hr Hc. cbn beta. unfold elim_step, S.
      destruct (Nat.eqb_spec r k) as [->|Hrk].
      * rewrite (proj2 (Nat.ltb_lt k (k + 1))), Nat.ltb_irrefl by lia. rewrite swapf_l. reflexivity.
      * destruct (Nat.ltb_spec r k), (Nat.ltb_spec r (k + 1)); try lia; reflexivity.
    + eapply rep_ext; [exact Hb2|]. intros r c Hr Hc. cbn beta. unfold elim_rhs.
      destruct (Nat.eqb_spec r k) as [->|Hrk].
      * rewrite (proj2 (Nat.ltb_lt k (k + 1))), Nat.ltb_irrefl by lia. rewrite swapf_l. reflexivity.
      * destruct (Nat.ltb_spec r k), (Nat.ltb_spec r (k + 1)); try lia; reflexivity.
  - intros j [a3 b3] Hj (Ha3 & Hb3). cbn [fst snd] in *.
    destruct (gauss_row_spec n k j a3 b3 _ _ ltac:(lia) Ha3 Hb3) as (a4 & b4 & E5 & Ha4 & Hb4).
    exists (a4, b4). split; [exact E5|]. cbn [fst snd]. split.
    + eapply rep_ext; [exact Ha4|]. intros r c Hr Hc. cbn beta.
      rewrite Nat.ltb_irrefl. rewrite (proj2 (Nat.ltb_lt k j)) by lia.
      destruct (Nat.eqb_spec r j) as [->|Hrj]; cbn [andb].
      * rewrite (proj2 (Nat.ltb_lt j (Datatypes.S j))) by lia. unfold elim_step.
        rewrite (proj2 (Nat.ltb_ge j k)), (proj2 (Nat.eqb_neq j k)), Nat.eqb_refl, Nat.ltb_irrefl by lia.
        destruct (Nat.leb_spec k c); fold (S j c) (S k c) (S k k) (S j k).
        -- reflexivity.
        -- rewrite Nat.ltb_irrefl. unfold S. rewrite swapf_l. rewrite (Hz p c) by lia.
           field. exact Hpz.
      * destruct (Nat.ltb_spec r j), (Nat.ltb_spec r (Datatypes.S j)); try lia; reflexivity.
    + eapply rep_ext; [exact Hb4|]. intros r c Hr Hc. cbn beta.
      rewrite Nat.ltb_irrefl. rewrite (proj2 (Nat.ltb_lt k j)) by lia.
      destruct (Nat.eqb_spec r j) as [->|Hrj]; cbn [andb].
      * rewrite (proj2 (Nat.ltb_lt j (Datatypes.S j))) by lia. unfold elim_rhs, S.
        rewrite (proj2 (Nat.ltb_ge j k)), (proj2 (Nat.eqb_neq j k)), Nat.eqb_refl, Nat.ltb_irrefl by lia.
        reflexivity.
      * destruct (Nat.ltb_spec r j), (Nat.ltb_spec r (Datatypes.S j)); try lia; reflexivity.
  - rewrite E5. cbn [mbind out_bind]. exists a3, b3. split; [reflexivity|]. cbn [fst snd] in *. split.
    + eapply rep_ext; [exact Ha3|]. intros r c Hr Hc. cbn beta. now rewrite (proj2 (Nat.ltb_lt r n)) by lia.
    + eapply rep_ext; [exact Hb3|]. intros r c Hr Hc. cbn beta. now rewrite (proj2 (Nat.ltb_lt r n)) by lia.
Qed.

(** ** The system keeps its solutions *)
Definition solves (n : nat) (M : nat -> nat -> A) (b x : nat -> A) : Prop :=
  forall r, r < n -> mv n M x r = b r.

Lemma mv_ext n (M M' : nat -> nat -> A) x r : (forall c, c < n -> M r c = M' r c) -> mv n M x r = mv n M' x r.
Proof. intros H. apply bigsum_ext. intros c Hc. now rewrite H. Qed.

Lemma elim_solves n k p M b x : (k < n)%nat -> (k <= p < n)%nat -> M p k <> 0 ->
  solves n (elim_step k p M) (elim_rhs k p M b) x <-> solves n M b x.
Proof.
  intros Hk Hp Hz.
  set (S := fun r c => M (swapf k p r) c).
  assert (Hlow : forall r, (r < k)%nat -> swapf k p r = r).
  { intros r Hr. unfold swapf. rewrite (proj2 (Nat.eqb_neq r k)), (proj2 (Nat.eqb_neq r p)) by lia. reflexivity. }
  assert (Hsw : forall r, mv n S x r = mv n M x (swapf k p r)) by reflexivity.
  assert (Hpiv : mv n (elim_step k p M) x k = mv n M x p / M p k).
  { rewrite <- (swapf_l k p) at 2. rewrite <- Hsw. unfold mv.
    transitivity (bigsum n (fun c => 1 / M p k * (S k c * x c))).
    - apply bigsum_ext. intros c Hc. unfold elim_step. rewrite Nat.ltb_irrefl, Nat.eqb_refl. fold (S k c) (S k k).
      unfold S at 2. rewrite swapf_l. field. exact Hz.
    - rewrite (bigsum_scale_l FL). field. exact Hz. }
  assert (Hbelow : forall r, (k < r)%nat -> mv n (elim_step k p M) x r =
             mv n M x (swapf k p r) - mv n M x p / M p k * M (swapf k p r) k).
  { intros r Hr. rewrite <- (Hsw r). rewrite <- (swapf_l k p) at 2. rewrite <- (Hsw k). unfold mv.
    transitivity (bigsum n (fun c => S r c * x c - (1 / M p k * S r k) * (S k c * x c))).
    - apply bigsum_ext. intros c Hc. unfold elim_step.
      rewrite (proj2 (Nat.ltb_ge r k)), (proj2 (Nat.eqb_neq r k)) by lia. fold (S r c) (S k c) (S k k) (S r k).
      assert (S k k = M p k) as -> by (unfold S; now rewrite swapf_l). field. exact Hz.
    - rewrite (bigsum_sub FL), (bigsum_scale_l FL). change (M (swapf k p r) k) with (S r k). field. exact Hz. }
  assert (Habove : forall r, (r < k)%nat -> mv n (elim_step k p M) x r = mv n M x r).
  { intros r Hr. apply mv_ext. intros c Hc. unfold elim_step. rewrite (proj2 (Nat.ltb_lt r k)) by lia.
    now rewrite Hlow. }
  split; intros H.
  - assert (Hkp : mv n M x p = b p).
    { specialize (H k Hk). rewrite Hpiv in H. unfold elim_rhs in H. rewrite Nat.ltb_irrefl, Nat.eqb_refl in H.
      transitivity (mv n M x p / M p k * M p k); [field; exact Hz|]. rewrite H. field; exact Hz. }
    intros r Hr. destruct (decide (swapf k p r < k)) as [H1|H1].
    + assert (r < k)%nat as H2.
      { unfold swapf in H1. destruct (Nat.eqb_spec r k); [lia|]. destruct (Nat.eqb_spec r p); lia. }
      specialize (H r Hr). rewrite Habove in H by lia. rewrite H. unfold elim_rhs.
      rewrite (proj2 (Nat.ltb_lt r k)) by lia. now rewrite Hlow.
    + destruct (decide (r = p)) as [->|Hrp]; [exact Hkp|].
      specialize (H (swapf k p r) (swapf_lt k p r n ltac:(lia) ltac:(lia) Hr)).
      assert (swapf k p r <> k).
      { intros E. apply Hrp. rewrite <- (swapf_swapf k p r), E. apply swapf_l. }
      rewrite Hbelow in H by lia. unfold elim_rhs in H.
      rewrite (proj2 (Nat.ltb_ge _ k)), (proj2 (Nat.eqb_neq _ k)) in H by lia.
      rewrite swapf_swapf, Hkp in H.
      transitivity (mv n M x r - b p / M p k * M r k + b p / M p k * M r k); [ring|]. rewrite H. ring.
  - intros r Hr. unfold elim_rhs. destruct (Nat.ltb_spec r k) as [H1|H1].
    + rewrite Habove, Hlow by lia. now apply H.
    + destruct (Nat.eqb_spec r k) as [->|H2].
      * rewrite Hpiv, H by lia. reflexivity.
      * rewrite Hbelow by lia. rewrite !H; [reflexivity|lia|apply swapf_lt; lia].
Qed.

Lemma solve_gausselim_spec n (a b : lm A) M fb : rep a n n M -> rep b n 1 (fun r _ => fb r) ->
  pivots_nonzero n M ->
  exists x, solve_gausselim a b = Ret (Ok x) /\ lm_wf x /\ mshape x = (n, 1%nat) /\
    solves n M fb (fun i => el x i 0%nat) /\
    (forall y, solves n M fb y -> forall i, i < n -> y i = el x i 0%nat).
Proof.
  intros Ha Hb (Ms & H0 & Hstep). unfold solve_gausselim.
  rewrite (proj1 (proj2 Ha)), (proj1 (proj2 Hb)). cbn [fst snd]. rewrite !Nat.eqb_refl. cbn [negb orb].
  destruct (foldM_range_inv
    (fun k r => exists a' b' fb', r = Ok (a', b') /\ rep a' n n (Ms k) /\ rep b' n 1 (fun r _ => fb' r) /\
       (forall r c, r < n -> c < k -> c < r -> Ms k r c = 0) /\
       (forall r, r < k -> Ms k r r = 1) /\
       (forall x, solves n (Ms k) fb' x <-> solves n M fb x))
    (fun col (r : result merr (lm A * lm A)) => match r with Err e => Ret (Err e) | Ok ab => gauss_col n col ab end)
    0 n (Ok (a, b))) as (r & E & a' & b' & fb' & -> & Ha' & Hb' & Hz & H1 & Hsol); [lia| | |].
  - exists a, b, fb. split; [reflexivity|]. split.
    { eapply rep_ext; [exact Ha|]. intros; symmetry; now apply H0. }
    split; [exact Hb|]. split; [intros; lia|]. split; [intros; lia|].
    intros x. unfold solves. split; intros H r Hr; rewrite <- (H r Hr); apply mv_ext; intros; [symmetry|]; now apply H0.
  - intros k r Hk (a1 & b1 & fb1 & -> & Ha1 & Hb1 & Hz & H1 & Hsol).
    destruct (Hstep k ltac:(lia)) as (p & Hp & Hpz & Hnext).
    assert (Hp' : (k <= p < n)%nat) by (destruct Hp; lia).
    destruct (gauss_col_spec n k p a1 b1 (Ms k) fb1 ltac:(lia) Ha1 Hb1 Hp Hpz) as (a2 & b2 & E & Ha2 & Hb2).
    { intros r c Hr Hc. apply Hz; lia. }
    exists (Ok (a2, b2)). split; [exact E|]. exists a2, b2, (elim_rhs k p (Ms k) fb1). split; [reflexivity|].
    split. { eapply rep_ext; [exact Ha2|]. intros; symmetry; now apply Hnext. }
    split; [exact Hb2|]. split; [|split].
    + intros r c Hr Hc Hcr. rewrite Hnext by lia. unfold elim_step.
      destruct (Nat.ltb_spec r k) as [L|L].
      { replace (swapf k p r) with r; [apply Hz; lia|]. unfold swapf.
        rewrite (proj2 (Nat.eqb_neq r k)), (proj2 (Nat.eqb_neq r p)) by lia. reflexivity. }
      rewrite swapf_l. destruct (Nat.eqb_spec r k) as [->|N].
      { rewrite (Hz p c) by lia. field. exact Hpz. }
      assert (swapf k p r < n /\ k <= swapf k p r)%nat.
      { unfold swapf. destruct (r =? k)%nat, (r =? p)%nat; lia. }
      destruct (decide (c = k)) as [->|].
      { field. exact Hpz. }
      rewrite (Hz p c), (Hz (swapf k p r) c) by lia. field. exact Hpz.
    + intros r Hr. rewrite Hnext by lia. unfold elim_step. destruct (Nat.ltb_spec r k) as [L|L].
      { replace (swapf k p r) with r; [apply H1; lia|]. unfold swapf.
        rewrite (proj2 (Nat.eqb_neq r k)), (proj2 (Nat.eqb_neq r p)) by lia. reflexivity. }
      assert (r = k) as -> by lia. rewrite Nat.eqb_refl, swapf_l. field. exact Hpz.
    + intros x. rewrite <- Hsol. rewrite <- (elim_solves n k p (Ms k) fb1 x) by (auto; lia).
      unfold solves. split; intros H r Hr; rewrite <- (H r Hr); apply mv_ext; intros; [symmetry|]; now apply Hnext.
  - rewrite E. cbn [mbind out_bind mzeros lm_like fst snd].
    destruct (foldM_rev_range_inv
      (fun i x => rep x n 1 (fun r _ => el x r 0%nat) /\ forall j, i <= j < n -> mv n (Ms n) (fun i => el x i 0%nat) j = fb' j)
      (fun row x =>
           temp ← foldM (fun j t => u ← index a' (row, j); v ← index x (j, 0%nat);
                                    Ret (t + u * v)) (range (row + 1)%nat n) 0;
           v ← index b' (row, 0%nat);
           index_set x (row, 0%nat) (v - temp)) n (lm_zeros (n, 1%nat))) as (x & Ex & Hx & Hsx).
    + split; [|intros; lia]. eapply rep_ext; [apply rep_zeros|]. intros; symmetry; apply lm_zeros_el.
    + intros i x Hi (Hx & Hsx). unfold range at 1.
      rewrite (foldM_bind_ret_seq FL (n - (i + 1)) (i + 1) (fun k => Ms n i k * el x k 0%nat)).
      2:{ intros j t Hj. rewrite (rep_index a' n n _ i j Ha') by lia. cbn [mbind out_bind].
          rewrite (rep_index x n 1 _ j 0 Hx) by lia. reflexivity. }
      cbn [mbind out_bind]. rewrite (rep_index b' n 1 _ i 0 Hb') by lia. cbn [mbind out_bind].
      destruct (rep_set x n 1 _ i 0 (fb' i - (0 + bigsum (n - (i + 1)) (fun k => Ms n i (i + 1 + k)%nat * el x (i + 1 + k)%nat 0%nat))) Hx) as (x' & E' & Hx'); [lia..|].
      exists x'. split; [exact E'|].
      pose proof (proj2 (proj2 Hx')) as He. unfold fupd2 in He. cbn beta in He. split.
      { eapply rep_ext; [exact Hx'|]. intros r c Hr Hc. assert (c = 0%nat) as -> by lia. symmetry. apply He; lia. }
      intros j Hj. unfold mv. destruct (decide (i < j)) as [Hlt|Hge].
      * rewrite <- (Hsx j) by lia. unfold mv. apply bigsum_ext. intros k Hk.
        rewrite He by lia. rewrite Nat.eqb_refl, andb_true_r.
        destruct (Nat.eqb_spec k i) as [->|_]; [|reflexivity]. rewrite (Hz j i) by lia. ring.
      * assert (j = i) as -> by lia.
        rewrite (bigsum_split FL n (i + 1)) by lia.
        rewrite (bigsum_split FL (i + 1) i) by lia. replace (i + 1 - i)%nat with 1%nat by lia.
        rewrite (bigsum_0 FL i).
        2:{ intros k Hk. rewrite (Hz i k) by lia. ring. }
        rewrite (bigsum_ext (fun k => Ms n i (i + 1 + k)%nat * el x' (i + 1 + k)%nat 0%nat)
                 (fun k => Ms n i (i + 1 + k)%nat * el x (i + 1 + k)%nat 0%nat)).
        2:{ intros k Hk. rewrite He by lia. rewrite (proj2 (Nat.eqb_neq _ i)) by lia. reflexivity. }
        cbn [bigsum]. rewrite Nat.add_0_r, He by lia. rewrite !Nat.eqb_refl. cbn [andb].
        rewrite (H1 i) by lia. ring.
    + rewrite Ex. cbn [mbind out_bind]. exists x. split; [reflexivity|].
      split; [apply Hx|]. split; [apply Hx|].
      assert (HS : solves n (Ms n) fb' (fun i => el x i 0%nat)) by (intros r Hr; apply Hsx; lia).
      split; [now apply Hsol|].
      intros y Hy i Hi. apply Hsol in Hy.
      apply (upper_unique FL n (Ms n) y (fun i => el x i 0%nat) 0); try lia.
      * intros; now apply Hz.
      * intros j Hj. rewrite H1 by lia. apply (neq_1_0 FL).
      * intros j Hj. rewrite (HS j), (Hy j) by lia. reflexivity.
Qed.

Lemma solve_gausselim_refuses (a b : lm A) :
  (mshape a).1 <> (mshape a).2 \/ mshape b <> ((mshape a).1, 1%nat) -> solve_gausselim a b = Ret (Err SolveError).
Proof.
  unfold solve_gausselim. intros H. destruct (Nat.eqb_spec (mshape a).1 (mshape a).2) as [E|E]; [|reflexivity].
  destruct H as [H|H]; [congruence|]. cbn [negb].
  destruct (Nat.eqb_spec (mshape b).2 1), (Nat.eqb_spec (mshape b).1 (mshape a).1); try reflexivity.
  exfalso. apply H. destruct (mshape b); cbn in *; congruence.
Qed.
End gauss.
