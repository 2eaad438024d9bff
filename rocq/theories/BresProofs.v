(** Line rasterisation. *)
From Verif Require Export Visual.

Section low.
Variables (dx dy : Z).
(** number of minor steps before column [i] *)
Fixpoint minor (i : nat) : Z :=
  match i with
  | 0 => 0%Z
  | S j => (minor j + (if (0 <? 2 * dy * (Z.of_nat j + 1) - dx - 2 * dx * minor j)%Z then 1 else 0))%Z
  end.
Hypothesis Hd : (0 <= dy <= dx)%Z.
Lemma minor_near i : (- dx <= 2 * (dy * Z.of_nat i - dx * minor i) <= dx)%Z.
Proof.
  induction i as [|i IH]; [cbn [minor]; lia|]. cbn [minor]. rewrite Nat2Z.inj_succ. set (k := minor i) in *. set (j := Z.of_nat i) in *.
  assert (E : (dy * Z.succ j = dy * j + dy)%Z) by lia. rewrite E.
  destruct (Z.ltb_spec 0 (2 * dy * (j + 1) - dx - 2 * dx * k)); [replace (dx * (k + 1))%Z with (dx * k + dx)%Z by lia|rewrite Z.add_0_r]; lia.
Qed.
Lemma minor_step i : (minor (S i) = minor i \/ minor (S i) = minor i + 1)%Z.
Proof. cbn [minor]. destruct (_ <? _)%Z; lia. Qed.
Lemma minor_pos i : (0 <= minor i)%Z.
Proof. induction i as [|i IH]; [cbn; lia|]. destruct (minor_step i); lia. Qed.
Lemma minor_top i : (Z.of_nat i <= dx)%Z -> (minor i <= dy)%Z.
Proof.
  intros Hi. pose proof (minor_near i) as H. destruct (Z.le_gt_cases (minor i) dy) as [|K]; [assumption|]. exfalso.
  destruct (Z.eq_dec dx 0%Z) as [E|E].
  - assert (i = 0%nat) by lia. subst i. cbn in K. lia.
  - assert ((dy + 1) * dx <= dx * minor i)%Z by nia. assert (dy * Z.of_nat i <= dy * dx)%Z by nia. lia.
Qed.
Lemma minor_end : minor (Z.to_nat dx) = dy.
Proof.
  pose proof (minor_near (Z.to_nat dx)) as H. rewrite Z2Nat.id in H by lia. pose proof (minor_top (Z.to_nat dx) ltac:(lia)) as T.
  destruct (Z.eq_dec dx 0%Z) as [E|E].
  - replace (Z.to_nat dx) with 0%nat by lia. cbn [minor]. lia.
  - destruct (Z.le_gt_cases dy (minor (Z.to_nat dx))); [lia|]. exfalso. assert (dx * minor (Z.to_nat dx) <= dx * (dy - 1))%Z by nia. nia.
Qed.

Lemma low_loop x0 y0 inc n :
  fold_left (fun (st : list pix * Z * Z) x => let '(res, y, d) := st in
     if (0 <? d)%Z then (res ++ [(x, y)], (y + inc)%Z, (d + 2 * (dy - dx))%Z) else (res ++ [(x, y)], y, (d + 2 * dy)%Z))
    (map (fun i => (x0 + Z.of_nat i)%Z) (seq 0 n)) ([], y0, (2 * dy - dx)%Z) =
  (map (fun i => ((x0 + Z.of_nat i)%Z, (y0 + inc * minor i)%Z)) (seq 0 n), (y0 + inc * minor n)%Z, (2 * dy * (Z.of_nat n + 1) - dx - 2 * dx * minor n)%Z).
Proof.
  induction n as [|n IH].
  - cbn [seq map fold_left minor Z.of_nat]. f_equal; [f_equal|]; lia.
  - rewrite seq_S, !map_app, fold_left_app, IH. cbn [plus map fold_left minor].
    destruct (0 <? 2 * dy * (Z.of_nat n + 1) - dx - 2 * dx * minor n)%Z; f_equal; try f_equal; lia.
Qed.
End low.

Definition swap_pix (p : pix) : pix := (p.2, p.1).
Lemma high_low o e : line_high o e = map swap_pix (line_low (swap_pix o) (swap_pix e)).
Proof.
  unfold line_high, line_low, swap_pix. cbn [fst snd].
  set (inc := (if (e.1 - o.1 <? 0)%Z then (-1)%Z else 1%Z)). set (dx := (if (e.1 - o.1 <? 0)%Z then _ else _)).
  set (dy := (e.2 - o.2)%Z).
  assert (K : forall l res x d, let f := fold_left (fun (st : list pix * Z * Z) y => let '(res, x, d) := st in
       if (0 <? d)%Z then (res ++ [(x, y)], (x + inc)%Z, (d + 2 * (dx - dy))%Z) else (res ++ [(x, y)], x, (d + 2 * dx)%Z)) l (map (fun p : pix => (p.2, p.1)) res, x, d) in
     let g := fold_left (fun (st : list pix * Z * Z) x => let '(res, y, d) := st in
       if (0 <? d)%Z then (res ++ [(x, y)], (y + inc)%Z, (d + 2 * (dx - dy))%Z) else (res ++ [(x, y)], y, (d + 2 * dx)%Z)) l (res, x, d) in
     f.1.1 = map (fun p : pix => (p.2, p.1)) g.1.1).
  { induction l as [|y l IH]; intros res x d; [reflexivity|]. cbn [fold_left]. cbv zeta in *. destruct (0 <? d)%Z.
    - rewrite <- IH, map_app. reflexivity.
    - rewrite <- IH, map_app. reflexivity. }
  exact (K (zrange o.2 e.2) [] o.1 (2 * dx - dy)%Z).
Qed.

(** what a rasterised line from [o] to [e] is *)
Record shallow (o e : pix) (l : list pix) : Prop := {
  sh_len : Z.of_nat (length l) = (Z.abs (e.1 - o.1) + 1)%Z;
  sh_first : head l = Some o;
  sh_last : last l = Some e;
  sh_col : forall i p, l !! i = Some p -> (p.1 = o.1 + Z.of_nat i)%Z;
  sh_step : forall i p q, l !! i = Some p -> l !! S i = Some q -> (q.1 = p.1 + 1 /\ Z.abs (q.2 - p.2) <= 1)%Z;
  sh_box : forall p, p ∈ l -> (o.1 <= p.1 <= e.1 /\ Z.min o.2 e.2 <= p.2 <= Z.max o.2 e.2)%Z;
  sh_near : forall p, p ∈ l -> (2 * Z.abs ((e.1 - o.1) * (p.2 - o.2) - (e.2 - o.2) * (p.1 - o.1)) <= Z.abs (e.1 - o.1))%Z }.
Lemma low_shallow o e : (o.1 <= e.1)%Z -> (Z.abs (e.2 - o.2) <= e.1 - o.1)%Z -> shallow o e (line_low o e).
Proof.
  intros Hx Hy. unfold line_low. set (dx := (e.1 - o.1)%Z) in *.
  set (inc := (if (e.2 - o.2 <? 0)%Z then (-1)%Z else 1%Z)). set (dy := (if (e.2 - o.2 <? 0)%Z then (- (e.2 - o.2))%Z else (e.2 - o.2)%Z)).
  assert (Hdy : dy = Z.abs (e.2 - o.2)) by (unfold dy; destruct (Z.ltb_spec (e.2 - o.2) 0); lia).
  assert (Hinc : (e.2 - o.2 = inc * dy)%Z) by (unfold inc, dy; destruct (Z.ltb_spec (e.2 - o.2) 0); lia).
  assert (Hi1 : (inc = 1 \/ inc = -1)%Z) by (unfold inc; destruct (_ <? _)%Z; auto).
  assert (Hd : (0 <= dy <= dx)%Z) by lia.
  unfold zrange. fold dx. rewrite (low_loop dx dy o.1 o.2 inc). cbn [fst].
  set (n := Z.to_nat (dx + 1)). set (f := fun i : nat => ((o.1 + Z.of_nat i)%Z, (o.2 + inc * minor dx dy i)%Z)).
  assert (Hn : n = S (Z.to_nat dx)) by (unfold n; lia).
  assert (L : forall i p, map f (seq 0 n) !! i = Some p -> p = f i /\ (Z.of_nat i <= dx)%Z).
  { intros i p H. change (map f (seq 0 n)) with (f <$> seq 0 n) in H. rewrite list_lookup_fmap in H. destruct (seq 0 n !! i) as [j|] eqn:E; [|discriminate].
    apply lookup_seq in E as [-> Hlt]. injection H as <-. split; [reflexivity|]. unfold n in Hlt. lia. }
  assert (Hf0 : f 0 = o) by (unfold f; cbn; destruct o as [ox oy]; cbn; f_equal; lia).
  assert (Hfe : f (Z.to_nat dx) = e).
  { unfold f. rewrite (minor_end dx dy Hd), Z2Nat.id by lia. destruct e as [ex ey]. unfold dx in *. cbn [fst snd] in *. f_equal; lia. }
  split.
  - rewrite map_length, seq_length. unfold n. lia.
  - rewrite Hn. cbn [seq map head]. now rewrite Hf0.
  - rewrite Hn, seq_S, map_app, last_app. cbn. now rewrite Hfe.
  - intros i p H. apply L in H as [-> _]. reflexivity.
  - intros i p q H1 H2. apply L in H1 as [-> _]. apply L in H2 as [-> _]. unfold f. cbn [fst snd]. split; [lia|].
    destruct (minor_step dx dy i) as [-> | ->], Hi1 as [-> | ->]; lia.
  - intros p Hp. apply elem_of_list_lookup in Hp as (i & Hp). apply L in Hp as [-> Hi]. unfold f. cbn [fst snd].
    pose proof (minor_pos dx dy i). pose proof (minor_top dx dy Hd i Hi). split; [lia|]. destruct Hi1 as [-> | ->]; lia.
  - intros p Hp. apply elem_of_list_lookup in Hp as (i & Hp). apply L in Hp as [-> Hi]. unfold f. cbn [fst snd].
    pose proof (minor_near dx dy Hd i) as N. rewrite Hinc. fold dx.
    replace (dx * (o.2 + inc * minor dx dy i - o.2) - inc * dy * (o.1 + Z.of_nat i - o.1))%Z with (- inc * (dy * Z.of_nat i - dx * minor dx dy i))%Z by ring.
    destruct Hi1 as [-> | ->]; lia.
Qed.

(** a line in either direction *)
Record rastered (o e : pix) (l : list pix) : Prop := {
  ra_len : Z.of_nat (length l) = (Z.max (Z.abs (e.1 - o.1)) (Z.abs (e.2 - o.2)) + 1)%Z;
  ra_ends : (head l = Some o /\ last l = Some e) \/ (head l = Some e /\ last l = Some o);
  ra_king : forall i p q, l !! i = Some p -> l !! S i = Some q -> Z.max (Z.abs (q.1 - p.1)) (Z.abs (q.2 - p.2)) = 1%Z;
  ra_box : forall p, p ∈ l -> (Z.min o.1 e.1 <= p.1 <= Z.max o.1 e.1 /\ Z.min o.2 e.2 <= p.2 <= Z.max o.2 e.2)%Z;
  ra_near : forall p, p ∈ l ->
    (2 * Z.abs ((e.1 - o.1) * (p.2 - o.2) - (e.2 - o.2) * (p.1 - o.1)) <= Z.max (Z.abs (e.1 - o.1)) (Z.abs (e.2 - o.2)))%Z }.
Lemma shallow_rastered o e l : (Z.abs (e.2 - o.2) <= e.1 - o.1)%Z -> shallow o e l -> rastered o e l /\ rastered e o l.
Proof.
  intros Hy [h1 h2 h3 _ h5 h6 h7]. split; split; auto.
  - rewrite h1. lia.
  - intros i p q Hp Hq. destruct (h5 i p q Hp Hq). lia.
  - intros p Hp. destruct (h6 p Hp). lia.
  - intros p Hp. specialize (h7 p Hp). lia.
  - rewrite h1. lia.
  - intros i p q Hp Hq. destruct (h5 i p q Hp Hq). lia.
  - intros p Hp. destruct (h6 p Hp). lia.
  - intros p Hp. specialize (h7 p Hp).
    replace ((o.1 - e.1) * (p.2 - e.2) - (o.2 - e.2) * (p.1 - e.1))%Z with (- ((e.1 - o.1) * (p.2 - o.2) - (e.2 - o.2) * (p.1 - o.1)))%Z by ring. lia.
Qed.
Lemma swap_rastered o e l : rastered (swap_pix o) (swap_pix e) l -> rastered o e (map swap_pix l).
Proof.
  intros [h1 h2 h3 h4 h5]. unfold swap_pix in *. cbn [fst snd] in *. change (map (fun p : pix => (p.2, p.1)) l) with ((fun p : pix => (p.2, p.1)) <$> l) in *. split.
  - rewrite fmap_length, h1. lia.
  - rewrite fmap_last. destruct l as [|p l]; [destruct h2 as [[? _]|[? _]]; discriminate|]. cbn [fmap list_fmap head]. cbn [head] in h2.
    destruct h2 as [[[= ->] ->]|[[= ->] ->]]; cbn; destruct o, e; auto.
  - intros i p q Hp Hq. rewrite list_lookup_fmap in Hp, Hq. destruct (l !! i) as [p'|] eqn:Ep; [|discriminate]. destruct (l !! S i) as [q'|] eqn:Eq; [|discriminate].
    injection Hp as <-. injection Hq as <-. specialize (h3 i p' q' Ep Eq). cbn. lia.
  - intros p Hp. apply elem_of_list_fmap in Hp as (q & -> & Hq). specialize (h4 q Hq). cbn. tauto.
  - intros p Hp. apply elem_of_list_fmap in Hp as (q & -> & Hq). specialize (h5 q Hq). cbn.
    replace ((e.1 - o.1) * (q.1 - o.2) - (e.2 - o.2) * (q.2 - o.1))%Z with (- ((e.2 - o.2) * (q.2 - o.1) - (e.1 - o.1) * (q.1 - o.2)))%Z by ring. lia.
Qed.
Lemma line_rastered o e : rastered o e (bres_line o e).
Proof.
  unfold bres_line. destruct (Z.ltb_spec (Z.abs (e.2 - o.2)) (Z.abs (e.1 - o.1))) as [H|H].
  - destruct (Z.ltb_spec e.1 o.1) as [K|K].
    + apply (shallow_rastered e o); [lia|]. apply low_shallow; lia.
    + apply (shallow_rastered o e); [lia|]. apply low_shallow; lia.
  - destruct (Z.ltb_spec e.2 o.2) as [K|K]; rewrite high_low; apply swap_rastered.
    + apply (shallow_rastered (swap_pix e) (swap_pix o)); [cbn; lia|]. apply low_shallow; cbn; lia.
    + apply (shallow_rastered (swap_pix o) (swap_pix e)); [cbn; lia|]. apply low_shallow; cbn; lia.
Qed.
Lemma line_all o e : (0 < o.1 -> 0 < o.2 -> 0 < e.1 -> 0 < e.2 -> line_unsigned o e = bres_line o e)%Z.
Proof.
  intros H1 H2 H3 H4. unfold line_unsigned. pose proof (ra_box _ _ _ (line_rastered o e)) as B. revert B. generalize (bres_line o e). intros l B.
  induction l as [|p l IH]; [reflexivity|]. cbn [List.filter].
  assert (Bp := B p (elem_of_list_here _ _)). rewrite IH by (intros q Hq; apply B; now right).
  destruct (Z.ltb_spec 0 p.1), (Z.ltb_spec 0 p.2); cbn [andb]; lia || reflexivity.
Qed.
