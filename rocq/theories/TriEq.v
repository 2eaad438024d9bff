(** Equality of triangular matrices. *)
From Verif Require Import DenseProofs.

(** triangular matrices as the program makes them: from zeros, by writing cells *)
Definition lt_made {A : arith} (m : ltm A) : Prop :=
  exists shape (ops : list ((nat * nat) * A)), foldM (fun o m => put m o.1 o.2) ops (lt_zeros shape) = Ret m.
Definition ut_made {A : arith} (m : utm A) : Prop :=
  exists shape (ops : list ((nat * nat) * A)), foldM (fun o m => put m o.1 o.2) ops (ut_zeros shape) = Ret m.

Section tri.
Context {A : arith}.

Definition tri_data (d : nat) (l : list A) : Prop :=
  length l = (d + 1) * (d + 2) / 2 /\ forall i, d * (d + 1) / 2 <= i -> i < length l -> l !! i = Some s0.

Lemma tri_cover d i : i < d * (d + 1) / 2 -> exists r c, c <= r /\ r < d /\ i = r * (r + 1) / 2 + c.
Proof.
  induction d as [|d IH]; intros Hi; [cbn in Hi; lia|].
  pose proof (tri_spec d). pose proof (tri_spec (S d)).
  destruct (decide (i < d * (d + 1) / 2)) as [L|L].
  - destruct (IH L) as (r & c & H1 & H2 & H3). exists r, c. split; [exact H1|]. split; [lia|exact H3].
  - exists d, (i - d * (d + 1) / 2). split; [nia|]. lia.
Qed.

Lemma tri_len_inj d e : (d + 1) * (d + 2) / 2 = (e + 1) * (e + 2) / 2 -> d = e.
Proof.
  intros E. pose proof (tri_spec (d + 1)) as H1. pose proof (tri_spec (e + 1)) as H2.
  replace (d + 1 + 1) with (d + 2) in H1 by lia. replace (e + 1 + 1) with (e + 2) in H2 by lia. nia.
Qed.

Lemma tri_insert d l i x : tri_data d l -> i < d * (d + 1) / 2 -> tri_data d (<[i := x]> l).
Proof.
  intros [Hl H0] Hi. split; [now rewrite insert_length|]. intros j Hj. rewrite insert_length. intros Hj'.
  rewrite list_lookup_insert_ne by lia. auto.
Qed.

Lemma tri_replicate d : tri_data d (replicate ((d + 1) * (d + 2) / 2) s0).
Proof. split; [apply replicate_length|]. intros i _. rewrite replicate_length. apply lookup_replicate_2. Qed.

(** equal buffers mean equal dimensions and equal stored entries *)
Lemma tri_eq d e (x y : list A) : seqb (s0 : A) s0 = true -> tri_data d x -> tri_data e y ->
  data_eqb x y = true <-> d = e /\ forall r c, c <= r -> r < d -> exists a b,
    x !! (r * (r + 1) / 2 + c) = Some a /\ y !! (r * (r + 1) / 2 + c) = Some b /\ seqb a b = true.
Proof.
  intros Hz [Lx Zx] [Ly Zy]. rewrite data_eqb_iff.
  assert (B : forall n r c, c <= r -> r < n -> r * (r + 1) / 2 + c < (n + 1) * (n + 2) / 2).
  { intros n r c H1 H2. pose proof (tri_bound r c n H2 H1). pose proof (tri_zeros_len n). lia. }
  split.
  - intros [Hl H]. assert (d = e) as <- by (apply tri_len_inj; lia). split; [reflexivity|]. intros r c Hc Hr.
    destruct (lookup_lt_is_Some_2 x (r * (r + 1) / 2 + c)) as [a Ea]; [rewrite Lx; auto|].
    destruct (lookup_lt_is_Some_2 y (r * (r + 1) / 2 + c)) as [b Eb]; [rewrite Ly; auto|].
    exists a, b. eauto.
  - intros [<- H]. split; [lia|]. intros i a b Ea Eb. destruct (decide (i < d * (d + 1) / 2)) as [L|L].
    + destruct (tri_cover d i L) as (r & c & Hc & Hr & ->). destruct (H r c Hc Hr) as (a' & b' & Ea' & Eb' & E). congruence.
    + apply lookup_lt_Some in Ea as Li. apply lookup_lt_Some in Eb as Li'. rewrite Zx in Ea by lia. rewrite Zy in Eb by lia. congruence.
Qed.

Lemma lt_made_data (m : ltm A) : lt_made m -> tri_data (lt_dim m) (lt_data m).
Proof.
  intros (shape & ops & E).
  assert (G : forall ops (m0 m : ltm A), tri_data (lt_dim m0) (lt_data m0) -> foldM (fun o m => put m o.1 o.2) ops m0 = Ret m -> tri_data (lt_dim m) (lt_data m)).
  { clear. induction ops as [|[[r c] x] ops IH]; intros m0 m H E; cbn [foldM fst snd] in E; [injection E as <-; exact H|].
    apply bind_ret_inv in E as (m1 & E1 & E2). apply (IH m1 m); [|exact E2].
    unfold put in E1. cbn [mmut lt_like] in E1. unfold lt_mut in E1. rewrite lt_pos_dom in E1.
    destruct (ltm_dom m0 r c) eqn:Hd; [|injection E1 as <-; exact H].
    unfold ltm_dom in Hd. rewrite andb_true_iff, Nat.ltb_lt, Nat.leb_le in Hd.
    unfold upd_unchecked in E1. destruct (lt_data m0 !! _) eqn:El; cbn in E1; [|discriminate]. injection E1 as <-. cbn [lt_dim lt_data].
    apply tri_insert; [exact H|]. now apply tri_bound. }
  apply (G ops (lt_zeros shape) m); [apply tri_replicate|exact E].
Qed.
Lemma ut_made_data (m : utm A) : ut_made m -> tri_data (ut_dim m) (ut_data m).
Proof.
  intros (shape & ops & E).
  assert (G : forall ops (m0 m : utm A), tri_data (ut_dim m0) (ut_data m0) -> foldM (fun o m => put m o.1 o.2) ops m0 = Ret m -> tri_data (ut_dim m) (ut_data m)).
  { clear. induction ops as [|[[r c] x] ops IH]; intros m0 m H E; cbn [foldM fst snd] in E; [injection E as <-; exact H|].
    apply bind_ret_inv in E as (m1 & E1 & E2). apply (IH m1 m); [|exact E2].
    unfold put in E1. cbn [mmut ut_like] in E1. unfold ut_mut in E1. rewrite ut_pos_dom in E1.
    destruct (utm_dom m0 r c) eqn:Hd; [|injection E1 as <-; exact H].
    unfold utm_dom in Hd. rewrite andb_true_iff, Nat.ltb_lt, Nat.leb_le in Hd.
    unfold upd_unchecked in E1. destruct (ut_data m0 !! _) eqn:El; cbn in E1; [|discriminate]. injection E1 as <-. cbn [ut_dim ut_data].
    apply tri_insert; [exact H|]. now apply tri_bound. }
  apply (G ops (ut_zeros shape) m); [apply tri_replicate|exact E].
Qed.

Lemma lt_eq_reads (a b : ltm A) : seqb (s0 : A) s0 = true -> lt_made a -> lt_made b ->
  lt_eq a b = true <-> mshape a = mshape b /\ forall r c, r < (mshape a).1 -> c < (mshape a).2 ->
    exists x y, mget a (r, c) = Ret (Some x) /\ mget b (r, c) = Ret (Some y) /\ seqb x y = true.
Proof.
  intros Hz Ha Hb. unfold lt_eq. rewrite (tri_eq (lt_dim a) (lt_dim b)); auto using lt_made_data.
  cbn [mshape mget lt_like fst snd]. split.
  - intros [E H]. rewrite E. split; [reflexivity|]. intros r c Hr Hc. unfold lt_get. rewrite !lt_pos_dom. unfold ltm_dom. rewrite E.
    rewrite (proj2 (Nat.ltb_lt r _)) by assumption. cbn [andb fst snd]. destruct (Nat.leb_spec c r) as [L|L].
    + destruct (H r c L ltac:(lia)) as (x & y & Ex & Ey & E'). unfold get_unchecked. rewrite Ex, Ey. cbn. exists x, y. auto.
    + rewrite (proj2 (Nat.ltb_lt r _)), (proj2 (Nat.ltb_lt c _)) by assumption. cbn. exists s0, s0. auto.
  - intros [E H]. injection E as E. split; [exact E|]. intros r c Hc Hr. destruct (H r c Hr ltac:(lia)) as (x & y & Ex & Ey & E').
    unfold lt_get in Ex, Ey. rewrite lt_pos_dom in Ex, Ey. unfold ltm_dom in Ex, Ey. rewrite <- E in Ey.
    rewrite (proj2 (Nat.ltb_lt r _)), (proj2 (Nat.leb_le c r)) in Ex, Ey by assumption. cbn [andb] in Ex, Ey.
    unfold get_unchecked in Ex, Ey.
    destruct (lt_data a !! _) as [x'|]; cbn in Ex; [|discriminate]. destruct (lt_data b !! _) as [y'|]; cbn in Ey; [|discriminate].
    injection Ex as ->. injection Ey as ->. exists x, y. auto.
Qed.
Lemma ut_eq_reads (a b : utm A) : seqb (s0 : A) s0 = true -> ut_made a -> ut_made b ->
  ut_eq a b = true <-> mshape a = mshape b /\ forall r c, r < (mshape a).1 -> c < (mshape a).2 ->
    exists x y, mget a (r, c) = Ret (Some x) /\ mget b (r, c) = Ret (Some y) /\ seqb x y = true.
Proof.
  intros Hz Ha Hb. unfold ut_eq. rewrite (tri_eq (ut_dim a) (ut_dim b)); auto using ut_made_data.
  cbn [mshape mget ut_like fst snd]. split.
  - intros [E H]. rewrite E. split; [reflexivity|]. intros r c Hr Hc. unfold ut_get. rewrite !ut_pos_dom. unfold utm_dom. rewrite E.
    rewrite (proj2 (Nat.ltb_lt c _)) by assumption. cbn [andb fst snd]. destruct (Nat.leb_spec r c) as [L|L].
    + destruct (H c r L ltac:(lia)) as (x & y & Ex & Ey & E'). unfold get_unchecked. rewrite Ex, Ey. cbn. exists x, y. auto.
    + rewrite (proj2 (Nat.ltb_lt r _)), (proj2 (Nat.ltb_lt c _)) by assumption. cbn. exists s0, s0. auto.
  - intros [E H]. injection E as E. split; [exact E|]. intros r c Hc Hr. destruct (H c r ltac:(lia) Hr) as (x & y & Ex & Ey & E').
    unfold ut_get in Ex, Ey. rewrite ut_pos_dom in Ex, Ey. unfold utm_dom in Ex, Ey. rewrite <- E in Ey.
    rewrite (proj2 (Nat.ltb_lt r _)), (proj2 (Nat.leb_le c r)) in Ex, Ey by assumption. cbn [andb] in Ex, Ey.
    unfold get_unchecked in Ex, Ey.
    destruct (ut_data a !! _) as [x'|]; cbn in Ex; [|discriminate]. destruct (ut_data b !! _) as [y'|]; cbn in Ey; [|discriminate].
    injection Ex as ->. injection Ey as ->. exists x, y. auto.
Qed.
End tri.
