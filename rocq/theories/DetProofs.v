(** Proofs about the pivoting determinant routine. *)
From Verif Require Export GaussProofs.

(** ** Specification: the determinant of n x n tables is the function of the rows that is
    linear in each row, vanishes when two rows agree and is one at the identity.
    (Weierstrass' characterisation; PropDetMC.v shows that mathcomp's \det is one.) *)
Definition with_row {A : arith} (a : nat -> nat -> A) (r : nat) (u : nat -> A) : nat -> nat -> A :=
  fun i c => if i =? r then u c else a i c.

Record det_function {A : arith} (n : nat) (D : (nat -> nat -> A) -> A) : Prop := {
  df_ext : forall a b, (forall r c, r < n -> c < n -> a r c = b r c) -> D a = D b;
  df_lin : forall a r k u v, r < n ->
    D (with_row a r (fun c => sadd (smul k (u c)) (v c)))
    = sadd (smul k (D (with_row a r u))) (D (with_row a r v));
  df_alt : forall a r s, r < n -> s < n -> r <> s -> (forall c, c < n -> a r c = a s c) -> D a = s0;
  df_one : D delta = s1
}.

Section det.
Context {A : arith} (FL : field_laws A).
Add Field Afield5 : (fl_field A FL).
Local Open Scope arith_scope.
Variables (n : nat) (D : (nat -> nat -> A) -> A).
Hypothesis HD : det_function n D.
Implicit Types a b : nat -> nat -> A.

Lemma D_ext a b : (forall r c, r < n -> c < n -> a r c = b r c) -> D a = D b.
Proof. apply (df_ext n D HD). Qed.

Lemma with_row_self a r : forall i c, with_row a r (a r) i c = a i c.
Proof. intros i c. unfold with_row. destruct (Nat.eqb_spec i r) as [->|]; reflexivity. Qed.

Lemma D_self a r : D (with_row a r (a r)) = D a.
Proof. apply D_ext. intros. apply with_row_self. Qed.

Lemma D_row_ext a r u v : (forall c, c < n -> u c = v c) -> D (with_row a r u) = D (with_row a r v).
Proof. intros H. apply D_ext. intros i c Hi Hc. unfold with_row. destruct (i =? r)%nat; auto. Qed.

Lemma D_zero_row a r : (r < n)%nat -> D (with_row a r (fun _ => 0)) = 0.
Proof.
  intros Hr. pose proof (df_lin n D HD a r 1 (fun _ => 0) (fun _ => 0) Hr) as H.
  rewrite (D_row_ext a r _ (fun _ => 0)) in H by (intros; ring).
  set (x := D (with_row a r (fun _ => 0))) in *.
  transitivity (1 * x + x - x); [ring|]. rewrite <- H. ring.
Qed.

Lemma D_scale a r k u : (r < n)%nat -> D (with_row a r (fun c => k * u c)) = k * D (with_row a r u).
Proof.
  intros Hr. rewrite (D_row_ext a r _ (fun c => k * u c + 0)) by (intros; ring).
  rewrite (df_lin n D HD) by exact Hr. rewrite D_zero_row by exact Hr. ring.
Qed.

Lemma D_add a r u v : (r < n)%nat ->
  D (with_row a r (fun c => u c + v c)) = D (with_row a r u) + D (with_row a r v).
Proof.
  intros Hr. rewrite (D_row_ext a r _ (fun c => 1 * u c + v c)) by (intros; ring).
  rewrite (df_lin n D HD) by exact Hr. ring.
Qed.

Lemma D_addrow a r s k : (r < n)%nat -> (s < n)%nat -> r <> s ->
  D (with_row a r (fun c => a r c + k * a s c)) = D a.
Proof.
  intros Hr Hs Hn. rewrite D_add, D_scale, D_self by assumption.
  rewrite (df_alt n D HD (with_row a r (a s)) r s); auto; [ring|].
  intros c Hc. unfold with_row. rewrite Nat.eqb_refl, (proj2 (Nat.eqb_neq s r)) by congruence. reflexivity.
Qed.

Lemma D_swap a r s : (r < n)%nat -> (s < n)%nat -> r <> s ->
  D (fun i c => a (swapf r s i) c) = - D a.
Proof.
  intros Hr Hs Hn.
  set (T := fun u v => with_row (with_row a s v) r u).
  assert (Hsame : forall u, D (T u u) = 0).
  { intros u. apply (df_alt n D HD (T u u) r s); auto. intros c Hc. unfold T, with_row.
    rewrite Nat.eqb_refl, (proj2 (Nat.eqb_neq s r)), Nat.eqb_refl by congruence. reflexivity. }
  assert (HaddL : forall u u' v, D (T (fun c => u c + u' c) v) = D (T u v) + D (T u' v)).
  { intros. unfold T. now apply D_add. }
  assert (HaddR : forall u v v', D (T u (fun c => v c + v' c)) = D (T u v) + D (T u v')).
  { intros u v v'. set (T' := fun u v => with_row (with_row a r u) s v).
    assert (HT : forall u v, D (T u v) = D (T' u v)).
    { intros. apply D_ext. intros i c _ _. unfold T, T', with_row.
      destruct (Nat.eqb_spec i r) as [Hi|], (Nat.eqb_spec i s) as [Hj|]; try reflexivity; congruence. }
    rewrite !HT. unfold T'. now apply D_add. }
  pose proof (Hsame (fun c => a r c + a s c)) as H.
  rewrite HaddL, !HaddR, !Hsame in H.
  assert (E1 : D (T (a r) (a s)) = D a).
  { apply D_ext. intros i c _ _. unfold T, with_row.
    destruct (Nat.eqb_spec i r) as [Hi|], (Nat.eqb_spec i s) as [Hj|]; subst; try reflexivity; congruence. }
  assert (E2 : D (T (a s) (a r)) = D (fun i c => a (swapf r s i) c)).
  { apply D_ext. intros i c _ _. unfold T, with_row, swapf.
    destruct (Nat.eqb_spec i r) as [Hi|], (Nat.eqb_spec i s) as [Hj|]; subst; try reflexivity; congruence. }
  rewrite E1, E2 in H.
  transitivity (0 + D a + (D (fun i c => a (swapf r s i) c) + 0) - D a); [ring|]. rewrite H. ring.
Qed.

Lemma D_sum_row a r m (l : nat -> A) (u : nat -> nat -> A) : (r < n)%nat ->
  D (with_row a r (fun c => bigsum m (fun k => l k * u k c)))
  = bigsum m (fun k => l k * D (with_row a r (u k))).
Proof.
  intros Hr. induction m as [|m IH]; cbn [bigsum].
  - now apply D_zero_row.
  - rewrite D_add, D_scale, IH by exact Hr. reflexivity.
Qed.

(** several rows receive a multiple of one row *)
Lemma D_elim B (mu : nat -> A) i : (i < n)%nat ->
  D (fun r c => if (i <? r)%nat then B r c - mu r * B i c else B r c) = D B.
Proof.
  intros Hi.
  assert (G : forall m, (m <= n)%nat ->
    D (fun r c => if (i <? r)%nat && (r <? m)%nat then B r c - mu r * B i c else B r c) = D B).
  { induction m as [|m IH]; intros Hm.
    - apply D_ext. intros r c _ _. destruct (Nat.ltb_spec r 0); [lia|]. now rewrite andb_false_r.
    - rewrite <- IH by lia. destruct (decide (i < m)) as [H|H].
      + rewrite <- (D_addrow (fun r c => if (i <? r)%nat && (r <? m)%nat then B r c - mu r * B i c else B r c) m i (- mu m)) by lia. apply D_ext. intros r c _ _. unfold with_row.
        rewrite !Nat.ltb_irrefl. cbn [andb]. rewrite !andb_false_r.
        destruct (Nat.eqb_spec r m) as [->|Hr].
        * rewrite (proj2 (Nat.ltb_lt i m)), (proj2 (Nat.ltb_lt m (S m))) by lia. cbn [andb]. ring.
        * destruct (Nat.ltb_spec r m), (Nat.ltb_spec r (S m)); try lia; reflexivity.
      + apply D_ext. intros r c _ _.
        destruct (Nat.ltb_spec i r), (Nat.ltb_spec r m), (Nat.ltb_spec r (S m)); cbn [andb]; try lia; reflexivity. }
  rewrite <- (G n) by lia. apply D_ext. intros r c Hr _. now rewrite (proj2 (Nat.ltb_lt r n)), andb_true_r by lia.
Qed.

(** subtracting a combination of other rows *)
Lemma D_combination a r m (l : nat -> A) (s : nat -> nat) : (r < n)%nat ->
  (forall k, k < m -> s k < n /\ s k <> r) ->
  D (with_row a r (fun c => a r c + bigsum m (fun k => l k * a (s k) c))) = D a.
Proof.
  intros Hr Hs. rewrite D_add, D_self, (D_sum_row a r m l (fun k => a (s k))) by exact Hr.
  rewrite (bigsum_0 FL); [ring|]. intros k Hk. destruct (Hs k Hk) as [H1 H2]. cbn beta.
  rewrite (df_alt n D HD (with_row a r (a (s k))) r (s k)); auto; [ring|].
  intros c Hc. unfold with_row. rewrite Nat.eqb_refl, (proj2 (Nat.eqb_neq (s k) r)) by congruence. reflexivity.
Qed.

Fixpoint diagprod (a : nat -> nat -> A) (m : nat) : A :=
  match m with O => 1 | S m => diagprod a m * a m m end.

(** upper triangles *)
Lemma D_upper U : (forall r c, c < r -> r < n -> U r c = 0) -> D U = diagprod U n.
Proof.
  intros HU.
  assert (G : forall j, (j <= n)%nat -> D (fun r c => if (r <? j)%nat then U r c else delta r c) = diagprod U j).
  { induction j as [|j IH]; intros Hj.
    - cbn. rewrite <- (df_one n D HD). apply D_ext. intros r c _ _. reflexivity.
    - cbn [diagprod]. rewrite <- IH by lia.
      set (H := fun r c => if (r <? S j)%nat then U r c else delta r c).
      rewrite <- (D_combination H j (n - S j) (fun k => - U j (S j + k)%nat) (fun k => (S j + k)%nat)) by lia.
      transitivity (U j j * D (with_row H j (delta j))).
      + rewrite <- D_scale by lia. apply D_row_ext. intros c Hc. unfold H at 1.
        rewrite (proj2 (Nat.ltb_lt j (S j))) by lia. unfold delta.
        destruct (decide (j = c)) as [<-|Hjc].
        * rewrite (bigsum_0 FL); [ring|]. intros k Hk. unfold H.
          rewrite (proj2 (Nat.ltb_ge (S j + k) (S j))) by lia. unfold delta. rewrite decide_False by lia. ring.
        * destruct (decide (j < c)) as [L|L].
          -- rewrite (bigsum_single FL _ (c - S j)).
             ++ replace (S j + (c - S j))%nat with c by lia. unfold H.
                rewrite (proj2 (Nat.ltb_ge c (S j))) by lia. unfold delta. rewrite decide_True by lia. ring.
             ++ lia.
             ++ intros k Hk Hkc. unfold H. rewrite (proj2 (Nat.ltb_ge (S j + k) (S j))) by lia.
                unfold delta. rewrite decide_False by lia. ring.
          -- rewrite HU by lia. rewrite (bigsum_0 FL); [ring|]. intros k Hk. unfold H.
             rewrite (proj2 (Nat.ltb_ge (S j + k) (S j))) by lia. unfold delta. rewrite decide_False by lia. ring.
      + rewrite (D_ext (with_row H j (delta j)) (fun r c => if (r <? j)%nat then U r c else delta r c)); [ring|].
        intros r c Hr Hc. unfold with_row, H. destruct (Nat.eqb_spec r j) as [->|].
        * now rewrite Nat.ltb_irrefl.
        * destruct (Nat.ltb_spec r j), (Nat.ltb_spec r (S j)); try lia; reflexivity. }
  rewrite <- (G n) by lia. apply D_ext. intros r c Hr Hc. now rewrite (proj2 (Nat.ltb_lt r n)) by lia.
Qed.

(** rows i.. supported on the columns after i: too many rows *)
Lemma D_deficient i a : (i < n)%nat -> (forall r c, i <= r < n -> c <= i -> a r c = 0) -> D a = 0.
Proof.
  intros Hi Ha.
  assert (G : forall d, (d <= n - i)%nat -> forall a (sg : nat -> nat),
     (forall r, i <= r < n - d -> i < sg r < n /\ forall c, c < n -> a r c = delta (sg r) c) ->
     (forall r c, n - d <= r < n -> c <= i -> a r c = 0) -> D a = 0).
  { induction d as [|d IH]; intros Hd b sg Hu Hb.
    - (* pigeonhole *)
      assert (Hdup : ~ NoDup (map sg (seq i (n - i)))).
      { intros HN.
        assert (Hin : map sg (seq i (n - i)) ⊆ seq (S i) (n - S i)).
        { intros x Hx. apply elem_of_list_fmap in Hx as (r & -> & Hr). apply elem_of_seq in Hr.
          apply elem_of_seq. destruct (Hu r ltac:(lia)). lia. }
        pose proof (submseteq_length _ _ (NoDup_submseteq _ _ HN Hin)) as HL.
        rewrite map_length, !seq_length in HL. lia. }
      assert (Hex : exists r s, i <= r < n /\ i <= s < n /\ r <> s /\ sg r = sg s).
      { clear -Hdup. assert (Hs : forall l, NoDup l -> ~ NoDup (map sg l) -> exists r s, r ∈ l /\ s ∈ l /\ r <> s /\ sg r = sg s).
        { induction l as [|x l IHl]; intros Hl Hn; [exfalso; apply Hn; constructor|].
          apply NoDup_cons in Hl as [Hx Hl]. cbn in Hn.
          destruct (decide (sg x ∈ map sg l)) as [H|H].
          - apply elem_of_list_fmap in H as (s & E & Hs). exists x, s.
            split; [left|]. split; [now right|]. split; [|exact E]. intros ->. contradiction.
          - destruct IHl as (r & s & Hr & Hs & Hrs & E); [exact Hl| |].
            + intros HN. apply Hn. constructor; assumption.
            + exists r, s. split; [now right|]. split; [now right|]. auto. }
        destruct (Hs (seq i (n - i)) (NoDup_seq _ _) Hdup) as (r & s & Hr & Hs' & Hrs & E).
        apply elem_of_seq in Hr, Hs'. exists r, s. split; [lia|]. split; [lia|]. auto. }
      destruct Hex as (r & s & Hr & Hs & Hrs & E).
      apply (df_alt n D HD b r s); try lia. intros c Hc.
      rewrite (proj2 (Hu r ltac:(lia)) c Hc), (proj2 (Hu s ltac:(lia)) c Hc), E. reflexivity.
    - set (j := (n - S d)%nat).
      rewrite <- (D_self b j).
      rewrite (D_row_ext b j (b j) (fun c => bigsum n (fun k => b j k * delta k c))).
      2:{ intros c Hc. symmetry. exact (mm_delta_r FL n b j c Hc). }
      rewrite D_sum_row by (unfold j; lia). apply (bigsum_0 FL). intros k Hk.
      destruct (decide (k <= i)) as [Hki|Hki].
      { rewrite Hb by (unfold j; lia). ring. }
      rewrite (IH ltac:(lia) (with_row b j (delta k)) (fun r => if (r =? j)%nat then k else sg r)); [ring| |].
      + intros r Hr. unfold with_row. destruct (Nat.eqb_spec r j) as [->|Hrj]; [split; [lia|auto]|].
        apply Hu. unfold j in *. lia.
      + intros r c Hr Hc. unfold with_row. rewrite (proj2 (Nat.eqb_neq r j)) by (unfold j; lia).
        apply Hb; lia. }
  apply (G (n - i)%nat ltac:(lia) a (fun r => r)).
  - intros r Hr. lia.
  - intros r c Hr Hc. apply Ha; lia.
Qed.
End det.

Section det2.
Context {A : arith} (FL : field_laws A).
Add Field Afield6 : (fl_field A FL).

Lemma D_2x2 D (a : nat -> nat -> A) : det_function 2 D ->
  D a = ssub (smul (a 0 0) (a 1 1)) (smul (a 1 0) (a 0 1)).
Proof.
  intros HD.
  assert (Hrow : forall b r, (r < 2)%nat -> D b = sadd (smul (b r 0) (D (with_row b r (delta 0)))) (smul (b r 1) (D (with_row b r (delta 1))))).
  { intros b r Hr. rewrite <- (D_self 2 D HD b r) at 1.
    rewrite (D_row_ext 2 D HD b r (b r) (fun c => bigsum 2 (fun k => smul (b r k) (delta k c)))).
    2:{ intros c Hc. symmetry. exact (mm_delta_r FL 2 b r c Hc). }
    rewrite (D_sum_row FL 2 D HD) by exact Hr. cbn [bigsum]. ring. }
  rewrite (Hrow a 0) by lia. rewrite (Hrow (with_row a 0 (delta 0)) 1), (Hrow (with_row a 0 (delta 1)) 1) by lia.
  set (T := fun p q => with_row (with_row a 0 (delta p)) 1 (delta q) : nat -> nat -> A).
  fold (T 0 0) (T 0 1) (T 1 0) (T 1 1).
  assert (E01 : D (T 0 1) = s1).
  { rewrite <- (df_one 2 D HD). apply (df_ext 2 D HD). intros r c Hr Hc. unfold T, with_row.
    destruct r as [|[|r]]; [reflexivity..|lia]. }
  assert (E10 : D (T 1 0) = sneg s1).
  { rewrite <- E01. rewrite <- (D_swap FL 2 D HD (T 0 1) 0 1) by lia. apply (df_ext 2 D HD).
    intros r c Hr Hc. unfold T, with_row, swapf. destruct r as [|[|r]]; [reflexivity..|lia]. }
  assert (Ess : forall p, D (T p p) = s0).
  { intros p. apply (df_alt 2 D HD (T p p) 0 1); try lia. intros c Hc. reflexivity. }
  rewrite E01, E10, !Ess. unfold with_row. change (1 =? 0) with false. cbn iota. ring.
Qed.
End det2.

(** ** The routine *)
Section routine.
Context {A : arith} (OL : ord_laws A).
Let FL : field_laws A := ol_field A OL.
Add Field Afield7 : (fl_field A FL).
Local Open Scope arith_scope.

Lemma small_num_pos : lts 0 (small_num : A).
Proof. apply (slit_pos OL). Qed.

Definition sgn (k : nat) : A := if Nat.even k then 1 else - (1).

Lemma sgn_S k : sgn (k + 1) = - sgn k.
Proof.
  unfold sgn. rewrite Nat.add_1_r, Nat.even_succ, <- Nat.negb_even. destruct (Nat.even k); cbn; ring.
Qed.

Lemma sgn_sq k : sgn k * sgn k = 1.
Proof. unfold sgn. destruct (Nat.even k); ring. Qed.

(** the table with the stored multipliers replaced by the zeros they stand for *)
Definition eff (i : nat) (M : nat -> nat -> A) : nat -> nat -> A :=
  fun r c => if (c <? i)%nat && (c <? r)%nat then 0 else M r c.

(** one column of elimination on the stored table *)
Definition det_next (i : nat) (S : nat -> nat -> A) : nat -> nat -> A :=
  fun r c => if (i <? r)%nat then
               if (i =? c)%nat then S r i / S i i
               else if (i <? c)%nat then S r c - S r i / S i i * S i c else S r c
             else S r c.

Lemma det_rows_spec n i (a : lm A) S : (i < n)%nat -> rep a n n S ->
  exists a', foldM (fun j a =>
           d ← index a (i, i);
           a ← index_upd a (j, i) (fun x => x / d);
           foldM (fun k a => x ← index a (j, i); y ← index a (i, k);
                             index_upd a (j, k) (fun z => z - x * y))
                 (range (i + 1)%nat n) a) (range (i + 1)%nat n) a = Ret a' /\ rep a' n n (det_next i S).
Proof.
  intros Hi Ha.
  destruct (foldM_range_inv
    (fun j a => rep a n n (fun r c => if (r <? j)%nat then det_next i S r c else S r c))
    (fun j a =>
           d ← index a (i, i);
           a ← index_upd a (j, i) (fun x => x / d);
           foldM (fun k a => x ← index a (j, i); y ← index a (i, k);
                             index_upd a (j, k) (fun z => z - x * y))
                 (range (i + 1)%nat n) a) (i + 1) n a) as (a' & E & Ha'); [lia| | |].
  - eapply rep_ext; [exact Ha|]. intros r c Hr Hc. cbn beta. unfold det_next.
    destruct (Nat.ltb_spec r (i + 1)), (Nat.ltb_spec i r); try lia; reflexivity.
  - intros j a1 Hj Ha1.
    assert (Hii : (if (i <? j)%nat then det_next i S i i else S i i) = S i i).
    { rewrite (proj2 (Nat.ltb_lt i j)) by lia. unfold det_next. now rewrite Nat.ltb_irrefl. }
    rewrite (rep_index a1 n n _ i i Ha1) by lia. cbn [mbind out_bind]. rewrite Hii.
    destruct (rep_upd a1 n n _ j i (fun x => x / S i i) Ha1) as (a2 & E2 & Ha2); [lia..|].
    rewrite E2. cbn [mbind out_bind]. rewrite Nat.ltb_irrefl in Ha2.
    destruct (foldM_range_inv
      (fun k a => rep a n n (fun r c => if (r <? j)%nat then det_next i S r c
                                        else if (r =? j)%nat && (c <? k)%nat then det_next i S r c else S r c))
      (fun k a => x ← index a (j, i); y ← index a (i, k); index_upd a (j, k) (fun z => z - x * y))
      (i + 1) n a2) as (a3 & E3 & Ha3); [lia| | |].
    + eapply rep_ext; [exact Ha2|]. intros r c Hr Hc. unfold fupd2. cbn beta.
      destruct (Nat.eqb_spec r j) as [->|Hrj]; cbn [andb].
      * rewrite Nat.ltb_irrefl. unfold det_next. rewrite (proj2 (Nat.ltb_lt i j)) by lia.
        destruct (Nat.eqb_spec c i) as [->|Hci].
        -- rewrite Nat.eqb_refl. now rewrite (proj2 (Nat.ltb_lt i (i + 1))) by lia.
        -- rewrite (proj2 (Nat.eqb_neq i c)) by lia.
           destruct (Nat.ltb_spec c (i + 1)); [|reflexivity]. now rewrite (proj2 (Nat.ltb_ge i c)) by lia.
      * reflexivity.
    + intros k a3 Hk Ha3.
      rewrite (rep_index a3 n n _ j i Ha3), (rep_index a3 n n _ i k Ha3) by lia. cbn [mbind out_bind].
      rewrite Nat.ltb_irrefl, Nat.eqb_refl, (proj2 (Nat.ltb_lt i k)), (proj2 (Nat.ltb_lt i j)) by lia. cbn [andb].
      destruct (rep_upd a3 n n _ j k (fun z => z - det_next i S j i * det_next i S i k) Ha3) as (a4 & E4 & Ha4); [lia..|].
      exists a4. split; [exact E4|]. eapply rep_ext; [exact Ha4|]. intros r c Hr Hc. unfold fupd2. cbn beta.
      destruct (Nat.eqb_spec r j) as [->|Hrj]; cbn [andb]; [|reflexivity].
      rewrite !Nat.ltb_irrefl, Nat.eqb_refl. cbn [andb].
      destruct (Nat.eqb_spec c k) as [->|Hck].
      * rewrite (proj2 (Nat.ltb_lt k (Datatypes.S k))) by lia. unfold det_next.
        rewrite (proj2 (Nat.ltb_lt i j)), Nat.eqb_refl, (proj2 (Nat.eqb_neq i k)), (proj2 (Nat.ltb_lt i k)), Nat.ltb_irrefl by lia.
        reflexivity.
      * destruct (Nat.ltb_spec c k), (Nat.ltb_spec c (Datatypes.S k)); try lia; reflexivity.
    + exists a3. split; [exact E3|]. eapply rep_ext; [exact Ha3|]. intros r c Hr Hc. cbn beta.
      rewrite (proj2 (Nat.ltb_lt c n)), andb_true_r by lia.
      destruct (Nat.ltb_spec r j), (Nat.eqb_spec r j), (Nat.ltb_spec r (Datatypes.S j)); try lia; reflexivity.
  - exists a'. split; [exact E|]. eapply rep_ext; [exact Ha'|]. intros r c Hr Hc. cbn beta.
    now rewrite (proj2 (Nat.ltb_lt r n)) by lia.
Qed.

(** a perturbation supported on the part not yet eliminated *)
Definition supp (n i : nat) (E : nat -> nat -> A) : Prop :=
  forall r c, r < n -> c < n -> r < i \/ c < i -> E r c = 0.
Definition row_shuffle (n : nat) (E E' : nat -> nat -> A) : Prop :=
  exists rho, forall r, r < n -> rho r < n /\ forall c, c < n -> E' r c = E (rho r) c.
Definition plus2 (a b : nat -> nat -> A) : nat -> nat -> A := fun r c => a r c + b r c.

Variables (n : nat) (D : (nat -> nat -> A) -> A).
Hypothesis HD : det_function n D.

Definition det_inv (a0 : nat -> nat -> A) (i : nat) (M : nat -> nat -> A) (cnt : nat) : Prop :=
  (forall r, r < i -> M r r <> 0) /\
  forall E, supp n i E -> exists E', row_shuffle n E E' /\
     D (plus2 a0 E') = sgn cnt * D (plus2 (eff i M) E).

Lemma eff_next i S E : (i < n)%nat -> S i i <> 0 -> supp n (Datatypes.S i) E ->
  D (plus2 (eff (Datatypes.S i) (det_next i S)) E) = D (plus2 (eff i S) E).
Proof.
  intros Hi Hp HE.
  rewrite <- (D_elim FL n D HD (plus2 (eff i S) E) (fun r => S r i / S i i) i Hi).
  apply (df_ext n D HD). intros r c Hr Hc. unfold plus2, eff, det_next.
  destruct (Nat.ltb_spec i r) as [Hir|Hir].
  - destruct (Nat.eqb_spec i c) as [<-|Hic].
    + rewrite (proj2 (Nat.ltb_lt i (Datatypes.S i))), (proj2 (Nat.ltb_lt i r)), Nat.ltb_irrefl by lia. cbn [andb].
      rewrite (HE r i), (HE i i) by lia. field. exact Hp.
    + destruct (Nat.ltb_spec i c) as [Hl|Hl].
      * rewrite (proj2 (Nat.ltb_ge c (Datatypes.S i))), (proj2 (Nat.ltb_ge c i)) by lia. cbn [andb].
        rewrite (HE i c) by lia. ring.
      * rewrite (proj2 (Nat.ltb_lt c (Datatypes.S i))), (proj2 (Nat.ltb_lt c r)), (proj2 (Nat.ltb_lt c i)) by lia.
        cbn [andb]. rewrite (HE r c), (HE i c) by lia. ring.
  - destruct (Nat.ltb_spec c i), (Nat.ltb_spec c (Datatypes.S i)), (Nat.ltb_spec c r); cbn [andb]; try lia; reflexivity.
Qed.

Lemma swapf_id i r : swapf i i r = r.
Proof. unfold swapf. destruct (Nat.eqb_spec r i) as [->|]; reflexivity. Qed.

Lemma det_col_step a0 i (a : lm A) M cnt : (i < n)%nat -> rep a n n M -> det_inv a0 i M cnt ->
  (exists a' M' cnt', det_col n i (a, cnt) = Ret (Ok (a', cnt')) /\ rep a' n n M' /\ det_inv a0 (S i) M' cnt') \/
  (det_col n i (a, cnt) = Ret (Err Pivot) /\ forall r, i <= r < n -> lts (sabs (M r i)) small_num).
Proof.
  intros Hi Ha (Hd & HE). unfold det_col. cbn [fst snd].
  rewrite (mapM_out_Ret _ (fun k => (k, sabs (M k i)))).
  2:{ intros k Hk. unfold range in Hk. apply elem_of_seq in Hk. rewrite (rep_index a n n M k i Ha) by lia. reflexivity. }
  cbn [mbind out_bind]. unfold range at 1.
  destruct (max_by_spec OL (fun r => sabs (M r i)) i (n - i - 1)) as (p & E & Hp).
  replace (Datatypes.S (n - i - 1)) with (n - i)%nat in E, Hp by lia.
  replace (i + (n - i))%nat with n in Hp by lia.
  unfold range in *. rewrite E. cbn [mbind out_bind].
  destruct Hp as (Hp1 & Hp2 & Hp3).
  destruct (sltb (sabs (M p i)) small_num) eqn:Hs.
  { right. split; [reflexivity|]. intros r Hr.
    apply (les_lts_trans OL) with (sabs (M p i)); [|exact Hs].
    destruct (lt_eq_lt_dec r p) as [[H|H]|H]; [apply Hp2; lia|subst; apply (les_refl OL)|apply (lts_les OL), Hp3; lia]. }
  left.
  assert (Hpz : M p i <> 0).
  { intros Hz. assert (sabs (M p i) = 0) as Hz' by now apply (abs_0 OL). rewrite Hz' in Hs.
    pose proof small_num_pos as Hpos. unfold lts in Hpos. congruence. }
  set (S := fun r c => M (swapf i p r) c).
  assert (Hsii : S i i <> 0) by (unfold S; now rewrite swapf_l).
  assert (Hswap : exists a1 cnt1, (if negb (p =? i)%nat then a ← swap_rows a i p; Ret (a, (cnt + 1)%nat) else Ret (a, cnt)) = Ret (a1, cnt1) /\
     rep a1 n n S /\ forall E, supp n (Datatypes.S i) E -> exists E', row_shuffle n E E' /\ D (plus2 a0 E') = sgn cnt1 * D (plus2 (eff i S) E)).
  { destruct (Nat.eqb_spec p i) as [->|Hpi]; cbn [negb].
    - exists a, cnt. split; [reflexivity|]. split.
      + eapply rep_ext; [exact Ha|]. intros r c _ _. unfold S. now rewrite swapf_id.
      + intros E1 HE1. destruct (HE E1) as (E' & HR & HDE).
        { intros r c Hr Hc Hrc. apply HE1; lia. }
        exists E'. split; [exact HR|]. rewrite HDE. f_equal. apply (df_ext n D HD). intros r c _ _.
        unfold plus2, eff, S. now rewrite swapf_id.
    - destruct (rep_swap_rows a n n M i p Ha) as (a1 & E1 & Ha1); [lia..|]. rewrite E1. cbn [mbind out_bind].
      exists a1, (cnt + 1)%nat. split; [reflexivity|]. split; [exact Ha1|].
      intros E2 HE2. destruct (HE (fun r c => E2 (swapf i p r) c)) as (E' & (rho & HR) & HDE).
      { intros r c Hr Hc Hrc. apply HE2; [apply swapf_lt; lia|lia|]. unfold swapf.
        destruct (Nat.eqb_spec r i), (Nat.eqb_spec r p); lia. }
      exists E'. split.
      + exists (fun r => swapf i p (rho r)). intros r Hr. destruct (HR r Hr) as [H1 H2].
        split; [apply swapf_lt; lia|]. exact H2.
      + rewrite HDE, sgn_S.
        rewrite (df_ext n D HD (plus2 (eff i M) (fun r c => E2 (swapf i p r) c)) (fun r c => plus2 (eff i S) E2 (swapf i p r) c)).
        * rewrite (D_swap FL n D HD) by lia. ring.
        * intros r c Hr Hc. unfold plus2. f_equal. unfold eff, S. rewrite swapf_swapf.
          unfold swapf. destruct (Nat.eqb_spec r i) as [H1|], (Nat.eqb_spec r p) as [H2|]; try lia; try reflexivity; subst r;
            destruct (Nat.ltb_spec c i), (Nat.ltb_spec c p); cbn [andb]; try lia; reflexivity. }
  destruct Hswap as (a1 & cnt1 & E1 & Ha1 & HE1).
  match goal with |- context [if negb (p =? i)%nat then ?x else ?y] => change (if negb (p =? i)%nat then x else y) with (if negb (p =? i)%nat then a ← swap_rows a i p; Ret (a, (cnt + 1)%nat) else Ret (a, cnt)) end.
  rewrite E1. cbn [mbind out_bind fst snd].
  destruct (det_rows_spec n i a1 S Hi Ha1) as (a2 & E2 & Ha2). unfold range in E2. rewrite E2. cbn [mbind out_bind].
  exists a2, (det_next i S), cnt1. split; [reflexivity|]. split; [exact Ha2|]. split.
  - intros r Hr. unfold det_next. rewrite (proj2 (Nat.ltb_ge i r)) by lia.
    destruct (decide (r = i)) as [->|]; [exact Hsii|]. unfold S.
    replace (swapf i p r) with r; [apply Hd; lia|]. unfold swapf.
    rewrite (proj2 (Nat.eqb_neq r i)), (proj2 (Nat.eqb_neq r p)) by lia. reflexivity.
  - intros E3 HE3. destruct (HE1 E3 HE3) as (E' & HR & HDE). exists E'. split; [exact HR|].
    rewrite HDE, eff_next by assumption. reflexivity.
Qed.

Lemma sprod_diag (M : nat -> nat -> A) m : sprod (map (fun r => M r r) (seq 0 m)) = diagprod M m.
Proof.
  induction m as [|m IH]; [reflexivity|]. rewrite seq_S_app, map_app. unfold sprod in *.
  rewrite fold_left_app, IH. reflexivity.
Qed.

Lemma diagprod_neq_0 (M : nat -> nat -> A) m : (forall r, r < m -> M r r <> 0) -> diagprod M m <> 0.
Proof.
  induction m as [|m IH]; intros H; cbn [diagprod]; [apply (one_neq_0 OL)|].
  intros Hz. apply (mul_eq_0 OL) in Hz as [Hz|Hz].
  - revert Hz. apply IH. intros; apply H; lia.
  - revert Hz. apply H; lia.
Qed.

Lemma diagprod_ext (M M' : nat -> nat -> A) m : (forall r, r < m -> M r r = M' r r) -> diagprod M m = diagprod M' m.
Proof. induction m as [|m IH]; intros H; cbn; [reflexivity|]. rewrite IH, H by (auto with lia). reflexivity. Qed.

Lemma det_lu_pivot_spec (m : lm A) a0 : rep m n n a0 ->
  (exists v, det_lu_pivot m = Ret (Ok v) /\ v = D a0 /\ v <> 0) \/
  (det_lu_pivot m = Ret (Err Pivot) /\
   exists E, (forall r c, r < n -> c < n -> lts (sabs (E r c)) small_num) /\
             D (plus2 a0 E) = 0).
Proof.
  intros Hm. unfold det_lu_pivot. rewrite (proj1 (proj2 Hm)). cbn [fst snd]. rewrite Nat.eqb_refl. cbn [negb].
  destruct (foldM_range_inv
    (fun i r => (exists a M cnt, r = Ok (a, cnt) /\ rep a n n M /\ det_inv a0 i M cnt) \/
                (r = Err Pivot /\ exists E, (forall r c, r < n -> c < n -> lts (sabs (E r c)) small_num) /\
                                            D (plus2 a0 E) = 0))
    (fun i (r : result merr (lm A * nat)) => match r with Err e => Ret (Err e) | Ok ac => det_col n i ac end)
    0 n (Ok (m, 0%nat))) as (r & E & H); [lia| | |].
  - left. exists m, a0, 0%nat. split; [reflexivity|]. split; [exact Hm|]. split; [intros; lia|].
    intros E HE. exists E. split.
    + exists (fun r => r). auto.
    + rewrite (df_ext n D HD (plus2 (eff 0 a0) E) (plus2 a0 E)); [unfold sgn; cbn; ring|].
      intros r c _ _. unfold plus2, eff. reflexivity.
  - intros i r Hi [(a & M & cnt & -> & Ha & HI)|(-> & HE)].
    + destruct (det_col_step a0 i a M cnt ltac:(lia) Ha HI) as [(a' & M' & cnt' & E1 & Ha' & HI')|(E1 & Hsm)].
      * rewrite E1. eexists; split; [reflexivity|]. left. eauto 6.
      * rewrite E1. eexists; split; [reflexivity|]. right. split; [reflexivity|].
        destruct HI as (_ & HI).
        destruct (HI (fun r c => if (i <=? r)%nat && (c =? i)%nat then - M r i else 0)) as (E' & (rho & HR) & HDE).
        { intros r c Hr Hc Hrc. destruct (Nat.leb_spec i r), (Nat.eqb_spec c i); cbn [andb]; try lia; reflexivity. }
        exists E'. split.
        -- intros r c Hr Hc. destruct (HR r Hr) as [H1 H2]. rewrite H2 by lia.
           assert (Habs : forall x : A, sabs (- x) = sabs x).
           { intros x. rewrite !(ol_abs A OL). destruct (sltb x 0) eqn:E3, (sltb (- x) 0) eqn:E4; try ring.
             - exfalso. apply (neg_pos OL) in E3. revert E4. apply (lts_asym OL). exact E3.
             - destruct (ol_total A OL x 0) as [->|[H|H]]; [ring|congruence|].
               exfalso. assert (lts (- x) 0) as Hc'; [|unfold lts in Hc'; congruence].
               apply (neg_pos OL). replace (- - x) with x by ring. exact H. }
           destruct (Nat.leb_spec i (rho r)), (Nat.eqb_spec c i); cbn [andb].
           ++ rewrite Habs. apply Hsm. lia.
           ++ replace (sabs (0 : A)) with (0 : A); [apply small_num_pos|]. symmetry. now apply (abs_0 OL).
           ++ replace (sabs (0 : A)) with (0 : A); [apply small_num_pos|]. symmetry. now apply (abs_0 OL).
           ++ replace (sabs (0 : A)) with (0 : A); [apply small_num_pos|]. symmetry. now apply (abs_0 OL).
        -- rewrite HDE. rewrite (D_deficient FL n D HD i); [ring|lia|].
           intros r c Hr Hc. unfold plus2, eff.
           destruct (Nat.ltb_spec c i), (Nat.ltb_spec c r), (Nat.leb_spec i r), (Nat.eqb_spec c i); cbn [andb]; try lia; try ring;
             subst; ring.
    + eexists; split; [reflexivity|]. right. auto.
  - rewrite E. cbn [mbind out_bind]. destruct H as [(a & M & cnt & -> & Ha & Hd & HI)|(-> & HE)].
    + left. cbn [fst snd]. rewrite (rep_diag a n M Ha). cbn [mbind out_bind fst snd]. eexists. split; [reflexivity|].
      fold (sgn cnt). rewrite sprod_diag.
      destruct (HI (fun _ _ => 0)) as (E' & (rho & HR) & HDE); [intros ? ? _ _ _; reflexivity|].
      assert (HDa : D a0 = sgn cnt * diagprod M n).
      { rewrite <- (df_ext n D HD (plus2 a0 E') a0).
        2:{ intros r c Hr Hc. unfold plus2. rewrite (proj2 (HR r Hr) c Hc). ring. }
        rewrite HDE. f_equal. rewrite (df_ext n D HD _ (eff n M)) by (intros; unfold plus2; ring).
        rewrite (D_upper FL n D HD).
        - apply diagprod_ext. intros r Hr. unfold eff. rewrite Nat.ltb_irrefl, andb_false_r. reflexivity.
        - intros r c Hcr Hr. unfold eff. rewrite (proj2 (Nat.ltb_lt c n)), (proj2 (Nat.ltb_lt c r)) by lia. reflexivity. }
      split; [rewrite HDa; ring|].
      pose proof (diagprod_neq_0 M n Hd) as Hnz. intros Hz. apply Hnz.
      transitivity (diagprod M n * sgn cnt * sgn cnt); [|rewrite Hz; ring].
      transitivity (diagprod M n * (sgn cnt * sgn cnt)); [rewrite sgn_sq|]; ring.
    + right. auto.
Qed.
End routine.
