(** Consequences used by the sparse property files: uniqueness of the triangular solves,
    writes into converted matrices. *)
From Verif Require Export Safety.

Section full.
Context {A : arith} (FL : field_laws A).
Add Field AfieldSF : (fl_field A FL).
Local Open Scope arith_scope.

Lemma le_solve_full (m : lenv A) (b : list A) : le_wf m -> length b = lev_n m ->
  (forall i, i < lev_n m -> el m i i <> 0) ->
  exists x, le_solve m b (replicate (lev_n m) 0) = Ret x /\ length x = lev_n m /\
    (forall i, (i < lev_n m)%nat -> mv (lev_n m) (el m) (vel x) i = vel b i) /\
    (forall y, length y = lev_n m ->
       (forall i, (i < lev_n m)%nat -> mv (lev_n m) (el m) (vel y) i = vel b i) -> y = x).
Proof.
  intros W Hb Hd.
  destruct (le_solve_spec FL m b (replicate (lev_n m) 0) W Hb) as (x & E & Hx & H); [apply replicate_length|exact Hd|].
  assert (H' : forall i, (i < lev_n m)%nat -> mv (lev_n m) (el m) (vel x) i = vel b i).
  { intros i Hi. rewrite H by exact Hi. rewrite vel_replicate. ring. }
  exists x. split; [exact E|]. split; [exact Hx|]. split; [exact H'|].
  intros y Hy HH. apply vel_ext; [lia|]. intros i Hi.
  apply (lower_unique FL (lev_n m) (el m) (vel y) (vel x) (lev_n m)); auto; try lia.
  - intros r c Hr Hc Hrc. apply el_right; auto.
  - intros r Hr. now rewrite HH, H' by exact Hr.
Qed.

Lemma le_solve_t_full (m : lenv A) (y x0 : list A) : le_wf m -> length y = lev_n m -> length x0 = lev_n m ->
  (forall i, i < lev_n m -> el m i i <> 0) ->
  exists x, le_solve_t m y x0 = Ret x /\ length x = lev_n m /\
    (forall i, (i < lev_n m)%nat -> mv (lev_n m) (fun r c => el m c r) (vel x) i = vel y i) /\
    (forall z, length z = lev_n m ->
       (forall i, (i < lev_n m)%nat -> mv (lev_n m) (fun r c => el m c r) (vel z) i = vel y i) -> z = x).
Proof.
  intros W Hy H0 Hd. destruct (le_solve_t_spec FL m y x0 W Hy H0 Hd) as (x & E & Hx & H).
  exists x. split; [exact E|]. split; [exact Hx|]. split; [exact H|].
  intros z Hz HH. apply vel_ext; [lia|]. intros i Hi.
  apply (upper_unique FL (lev_n m) (fun r c => el m c r) (vel z) (vel x) 0); auto; try lia.
  - intros r c Hr Hc Hrc. apply el_right; auto.
  - intros r Hr. now rewrite HH, H by lia.
Qed.

Lemma le_solve_sub_full (m : lenv A) (b : list A) lo hi : le_wf m -> (lo <= hi)%nat -> (hi <= lev_n m)%nat ->
  length b = (hi - lo)%nat -> (forall i, (lo <= i < hi)%nat -> el m i i <> 0) ->
  exists x, le_solve_sub m b (replicate (hi - lo) 0) lo hi = Ret x /\ length x = (hi - lo)%nat /\
    (forall i, (i < hi - lo)%nat ->
      mv (hi - lo) (fun r c => el m (lo + r) (lo + c)) (vel x) i = vel b i) /\
    (forall y, length y = (hi - lo)%nat -> (forall i, (i < hi - lo)%nat ->
      mv (hi - lo) (fun r c => el m (lo + r) (lo + c)) (vel y) i = vel b i) -> y = x).
Proof.
  intros W Hl Hh Hb Hd.
  destruct (le_solve_sub_spec FL m b (replicate (hi - lo) 0) lo hi W Hl Hh Hb) as (x & E & Hx & H); [apply replicate_length|exact Hd|].
  assert (H' : forall i, (i < hi - lo)%nat -> mv (hi - lo) (fun r c => el m (lo + r) (lo + c)) (vel x) i = vel b i).
  { intros i Hi. rewrite H by exact Hi. rewrite vel_replicate. ring. }
  exists x. split; [exact E|]. split; [exact Hx|]. split; [exact H'|].
  intros y Hy HH. apply vel_ext; [lia|]. intros i Hi.
  apply (lower_unique FL (hi - lo) (fun r c => el m (lo + r) (lo + c)) (vel y) (vel x) (hi - lo)%nat); auto; try lia.
  - intros r c Hr Hc Hrc. apply el_right; auto; lia.
  - intros r Hr. apply Hd. lia.
  - intros r Hr. now rewrite HH, H' by exact Hr.
Qed.
End full.
