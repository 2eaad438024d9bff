(** Termination of the bracket recursion: with separated eigenvalues it ends, with a
    repeated one it does not. *)
From Verif Require Export EigIter.

(** the shifts the recursion can ask for inside a bracket *)
Inductive probe {A : arith} : A -> A -> A -> Prop :=
| probe_mid lo up : probe lo up (mid_val lo up)
| probe_lower lo up mu : probe lo (mid_val lo up) mu -> probe lo up mu
| probe_upper lo up mu : probe (mid_val lo up) up mu -> probe lo up mu.

Section term.
Context {A : arith} (OL : ord_laws A).
Let FL : field_laws A := ol_field A OL.
Add Field Afield29 : (fl_field A FL).
Local Open Scope arith_scope.

(** ** separated eigenvalues *)
Lemma filter_split {X} (p q : X -> bool) (l : list X) : (forall x, p x = true -> q x = true) ->
  length (List.filter q l) = (length (List.filter p l) + length (List.filter (fun x => q x && negb (p x)) l))%nat.
Proof.
  intros H. induction l as [|x l IH]; [reflexivity|]. cbn [List.filter]. destruct (p x) eqn:Ep.
  - rewrite (H x Ep). cbn [length andb negb]. lia.
  - destruct (q x); cbn [length andb negb]; lia.
Qed.

Lemma count_below_le n (lam : nat -> A) lo up : les lo up -> (count_below n lam lo <= count_below n lam up)%nat.
Proof.
  intros Hle. unfold count_below. rewrite (filter_split (fun j => sltb (lam j) lo) (fun j => sltb (lam j) up)); [lia|].
  intros j Hj. exact (lts_les_trans OL _ _ _ Hj Hle).
Qed.

Lemma count_gap n (lam : nat -> A) lo up delta : les lo up -> les (up - lo) delta ->
  (forall i j, (i < n)%nat -> (j < n)%nat -> i <> j -> les (lam i) (lam j) -> les (lam i + delta) (lam j)) ->
  (count_below n lam up <= S (count_below n lam lo))%nat.
Proof.
  intros Hle Hd Hsep. unfold count_below.
  rewrite (filter_split (fun j => sltb (lam j) lo) (fun j => sltb (lam j) up)).
  2:{ intros j Hj. exact (lts_les_trans OL _ _ _ Hj Hle). }
  set (L := List.filter (fun x => sltb (lam x) up && negb (sltb (lam x) lo)) (seq 0 n)).
  assert (ND : NoDup L). { apply NoDup_ListNoDup. apply List.NoDup_filter. apply seq_NoDup. }
  assert (HL : forall j, j ∈ L -> (j < n)%nat /\ lts (lam j) up /\ les lo (lam j)).
  { intros j Hj. apply elem_of_list_In, filter_In in Hj as [Hj1 Hj2]. apply in_seq in Hj1. apply andb_true_iff in Hj2 as [H1 H2].
    apply negb_true_iff in H2. split; [lia|]. split; [exact H1|exact H2]. }
  destruct L as [|i [|j L']]; cbn [length]; [lia|lia|exfalso].
  destruct (HL i ltac:(left)) as (Hi & Hi1 & Hi2). destruct (HL j ltac:(right; left)) as (Hj & Hj1 & Hj2).
  apply NoDup_cons in ND as [Hij _]. assert (Hne : i <> j) by (intros ->; apply Hij; left).
  assert (G : forall i j, (i < n)%nat -> (j < n)%nat -> i <> j -> les lo (lam i) -> lts (lam j) up -> les (lam i) (lam j) -> False).
  { intros a b Ha Hb Hab H1 H2 H3. apply (lts_irr OL up). apply (les_lts_trans OL) with (lam b); [|exact H2].
    apply (les_trans OL) with (lam a + delta); [|now apply Hsep].
    apply (les_trans OL) with (lo + delta); [|now apply (les_add OL)].
    apply (les_trans OL) with (lo + (up - lo)); [apply (les_iff OL); right; ring|].
    replace (lo + (up - lo)) with (up - lo + lo) by ring. replace (lo + delta) with (delta + lo) by ring. now apply (les_add OL). }
  destruct (les_total OL (lam i) (lam j)) as [H|H]; [exact (G i j Hi Hj Hne Hi2 Hj1 H)|exact (G j i Hj Hi ltac:(auto) Hj2 Hi1 H)].
Qed.

Fixpoint pow2 (d : nat) : A := match d with 0%nat => 1 | S d => pow2 d + pow2 d end.

(** the recursion never goes deeper than [d] *)
Lemma process_stable es n lam delta fi rnd :
  (forall i j, (i < n)%nat -> (j < n)%nat -> i <> j -> les (lam i) (lam j) -> les (lam i + delta) (lam j)) ->
  forall d depth s lo up, se_sys s = es -> lts lo up -> les (up - lo) (delta * pow2 d) -> (d <= depth)%nat ->
  (forall mu, probe lo up mu -> eigenvalues_under es mu = Ret (count_below n lam mu)) ->
  (S (count_below n lam lo) < count_below n lam up)%nat ->
  process_eigenrange fi depth rnd s (RMany lo up (count_below n lam lo) (count_below n lam up))
  = process_eigenrange fi d rnd s (RMany lo up (count_below n lam lo) (count_below n lam up)).
Proof.
  intros Hsep.
  assert (Hsys : forall depth s r s', process_eigenrange fi depth rnd s r = Ret s' -> se_sys s' = se_sys s).
  { induction depth as [|depth IH]; intros s [lo up|lo up a b|] s' E; cbn [process_eigenrange] in E; try discriminate E.
    - unfold process_one in E. apply bind_ret_inv in E as (p & _ & E). injection E as <-. reflexivity.
    - injection E as <-. reflexivity.
    - unfold process_one in E. apply bind_ret_inv in E as (p & _ & E). injection E as <-. reflexivity.
    - apply bind_ret_inv in E as (u & _ & E). apply bind_ret_inv in E as (rr & _ & E). apply bind_ret_inv in E as (s1 & E1 & E2).
      apply IH in E1, E2. congruence.
    - injection E as <-. reflexivity. }
  induction d as [|d IH]; intros depth s lo up Hs Hlt Hw Hd Hcnt Hmany.
  - exfalso. cbn [pow2] in Hw. replace (delta * 1) with delta in Hw by ring.
    pose proof (count_gap n lam lo up delta (lts_les OL _ _ Hlt) Hw Hsep). lia.
  - destruct depth as [|depth]; [lia|].
    cbn [process_eigenrange]. rewrite Hs. rewrite Hcnt by constructor. cbn [mbind out_bind].
    destruct (mid_between OL lo up Hlt) as [Hm1 Hm2]. set (mid := mid_val lo up) in *.
    set (cl := count_below n lam lo) in *. set (cu := count_below n lam up) in *. set (cm := count_below n lam mid).
    assert (Hcl : (cl <= cm <= cu)%nat).
    { split; apply count_below_le; now apply (lts_les OL). }
    assert (Hhalf : up - mid = mid - lo /\ (up - lo = (mid - lo) + (mid - lo))).
    { pose proof (two_pos OL) as H2. assert (Hn : (sz 2 : A) <> 0) by (intros E; rewrite E in H2; now apply (lts_irr OL) in H2).
      unfold mid, mid_val. rewrite (two_eq OL) in *. split; field; exact Hn. }
    assert (Hw1 : les (mid - lo) (delta * pow2 d)).
    { cbn [pow2] in Hw. destruct Hhalf as [_ Hh]. rewrite Hh in Hw.
      destruct (les_total OL (mid - lo) (delta * pow2 d)) as [H|H]; [exact H|].
      replace (delta * (pow2 d + pow2 d)) with (delta * pow2 d + delta * pow2 d) in Hw by ring.
      destruct (proj1 (les_iff OL _ _) H) as [H'|H']; [|rewrite H'; apply (les_refl OL)].
      exfalso. apply (lts_irr OL (delta * pow2 d + delta * pow2 d)).
      apply (lts_les_trans OL) with ((mid - lo) + (mid - lo)); [|exact Hw]. now apply (lts_les_add OL). }
    assert (Hw2 : les (up - mid) (delta * pow2 d)) by (destruct Hhalf as [-> _]; exact Hw1).
    (* the halves *)
    assert (Part : forall lo' up', lts lo' up' -> les (up' - lo') (delta * pow2 d) ->
       (forall mu, probe lo' up' mu -> probe lo up mu) ->
       exists r, part_new lo' up' (count_below n lam lo') (count_below n lam up') (count_below n lam up' - count_below n lam lo') = Ret r /\
         forall s, se_sys s = es -> process_eigenrange fi depth rnd s r = process_eigenrange fi d rnd s r).
    { intros lo' up' Hlt' Hw' Hpr. unfold part_new.
      pose proof (count_below_le n lam lo' up' (lts_les OL _ _ Hlt')) as Hcc.
      destruct (count_below n lam up' - count_below n lam lo')%nat as [|[|c]] eqn:Ec.
      - exists REmpty. split; [reflexivity|]. intros s0' Hs0. destruct depth, d; reflexivity.
      - exists (ROne lo' up'). unfold one_new. unfold lts in Hlt'. rewrite Hlt'. split; [reflexivity|].
        intros s0' Hs0. destruct depth, d; reflexivity.
      - exists (RMany lo' up' (count_below n lam lo') (count_below n lam up')). unfold many_new. pose proof Hlt' as Hlt''. unfold lts in Hlt''. rewrite Hlt''.
        cbn [assert_ mbind out_bind]. rewrite (proj2 (Nat.ltb_lt _ _)) by lia. cbn [assert_ mbind out_bind]. rewrite usub_ret by lia.
        cbn [mbind out_bind]. rewrite (proj2 (Nat.ltb_lt _ _)) by lia. cbn [assert_ mbind out_bind]. split; [reflexivity|].
        intros s0' Hs0. apply IH; try assumption; [lia|intros mu Hmu; apply Hcnt; auto|lia]. }
    unfold many_split. fold mid. rewrite !usub_ret by lia. cbn [mbind out_bind].
    destruct (Part lo mid Hm1 Hw1) as (rl & Erl & Hrl). { intros mu Hmu. now apply probe_lower. }
    fold cl cm in Erl. rewrite Erl. cbn [mbind out_bind].
    destruct (Part mid up Hm2 Hw2) as (ru & Eru & Hru). { intros mu Hmu. now apply probe_upper. }
    fold cm cu in Eru. rewrite Eru. cbn [mbind out_bind fst snd]. rewrite (Hrl s Hs).
    destruct (process_eigenrange fi d rnd s rl) as [s1| | |] eqn:E1; cbn [mbind out_bind]; try reflexivity.
    apply Hsys in E1. apply Hru. congruence.
Qed.
End term.
