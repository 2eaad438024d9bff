(** Whole-row and whole-column writes, histories of any full layout (LinearMatrix and
    ConstMatrix), plane rotations, the determinant without pivoting, equality of triangles. *)
From Verif Require Import DenseProofs TriProofs Rep LuProofs DetProofs Ord.

(** ** Lists of cell updates *)
Section upd.
Context {A : arith} {M : Type} `{ML : MatrixLike A M}.
Context (wf : M -> Prop) (dom : M -> nat -> nat -> bool) (L : ml_laws wf dom).
Implicit Types m : M.

(** the value at (r, c) after the updates [l] *)
Definition after_upds (l : list ((nat * nat) * (A -> A))) (r c : nat) (x : A) : A :=
  fold_left (fun x u => if decide (u.1 = (r, c)) then u.2 x else x) l x.

Lemma upds_ret l : forall m, wf m -> (forall u, u ∈ l -> dom m u.1.1 u.1.2 = true) ->
  exists m', foldM (fun u m => index_upd m u.1 u.2) l m = Ret m' /\ wf m' /\ mshape m' = mshape m /\
    (forall r c, dom m' r c = dom m r c) /\ (forall r c, el m' r c = after_upds l r c (el m r c)).
Proof.
  induction l as [|[[i j] f] l IH]; intros m H Hd.
  - exists m. repeat split; auto.
  - cbn [foldM fst snd]. destruct (index_upd_ret _ _ L m i j f H) as (m1 & -> & H1 & S1 & D1 & V1).
    { apply (Hd ((i, j), f)). now left. }
    cbn [mbind out_bind]. destruct (IH m1 H1) as (m2 & -> & H2 & S2 & D2 & V2).
    { intros u Hu. rewrite D1. apply Hd. now right. }
    exists m2. split; [reflexivity|]. split; [exact H2|]. split; [congruence|].
    split; [intros; now rewrite D2, D1|]. intros r c. rewrite V2, V1. unfold after_upds. cbn [fold_left fst snd].
    destruct (Nat.eqb_spec r i) as [->|Hr], (Nat.eqb_spec c j) as [->|Hc]; cbn [andb];
      destruct (decide _) as [E|E]; try reflexivity; congruence.
Qed.

Lemma upds_panic l : forall m, wf m -> (exists u, u ∈ l /\ dom m u.1.1 u.1.2 = false) ->
  foldM (fun u m => index_upd m u.1 u.2) l m = Panic.
Proof.
  induction l as [|[[i j] f] l IH]; intros m H (u & Hu & Hd); [now apply elem_of_nil in Hu|].
  cbn [foldM fst snd]. destruct (dom m i j) eqn:E.
  - destruct (index_upd_ret _ _ L m i j f H E) as (m1 & -> & H1 & S1 & D1 & V1). cbn [mbind out_bind].
    apply IH; [exact H1|]. apply elem_of_cons in Hu as [->|Hu]; [cbn in Hd; congruence|].
    exists u. split; [exact Hu|]. now rewrite D1.
  - unfold index_upd. now rewrite (law_mut_no _ _ L).
Qed.

Lemma foldM_map {X Y S} (g : X -> Y) (f : Y -> S -> out S) l : forall s, foldM f (map g l) s = foldM (fun x => f (g x)) l s.
Proof.
  induction l as [|x l IH]; intros s; cbn [map foldM]; [reflexivity|].
  destruct (f (g x) s); cbn [mbind out_bind]; auto.
Qed.

Definition row_upds (i s : nat) (fs : list (A -> A)) : list ((nat * nat) * (A -> A)) :=
  map (fun cf => ((i, cf.1), cf.2)) (zip (seq s (length fs)) fs).
Definition col_upds (i s : nat) (fs : list (A -> A)) : list ((nat * nat) * (A -> A)) :=
  map (fun cf => ((cf.1, i), cf.2)) (zip (seq s (length fs)) fs).

Lemma after_row i fs r c : forall s x, after_upds (row_upds i s fs) r c x =
  if decide (r = i) then match fs !! (c - s) with Some f => if decide (s <= c) then f x else x | None => x end else x.
Proof.
  induction fs as [|f fs IH]; intros s x.
  - cbn. now destruct (decide _).
  - change (row_upds i s (f :: fs)) with (((i, s), f) :: row_upds i (S s) fs).
    change (after_upds (((i, s), f) :: row_upds i (S s) fs) r c x) with (after_upds (row_upds i (S s) fs) r c (if decide ((i, s) = (r, c)) then f x else x)).
    rewrite IH.
    destruct (decide (r = i)) as [->|Hr].
    2:{ now rewrite decide_False by congruence. }
    destruct (decide ((i, s) = (i, c))) as [E|E].
    + injection E as ->. replace (c - S c) with 0 by lia. rewrite Nat.sub_diag. cbn [lookup list_lookup].
      rewrite (decide_True (P := c <= c)) by lia. destruct (fs !! 0); [|reflexivity].
      now rewrite (decide_False (P := S c <= c)) by lia.
    + assert (c <> s) by congruence. destruct (decide (s <= c)) as [Hsc|Hsc].
      * replace (c - s) with (S (c - S s)) by lia. cbn [lookup list_lookup].
        destruct (fs !! _); [|reflexivity]. now rewrite (decide_True (P := S s <= c)) by lia.
      * replace (c - s) with 0 by lia. replace (c - S s) with 0 by lia. cbn [lookup list_lookup].
        destruct (fs !! 0); [|reflexivity]. now rewrite (decide_False (P := S s <= c)) by lia.
Qed.

Lemma after_col i fs r c : forall s x, after_upds (col_upds i s fs) r c x =
  if decide (c = i) then match fs !! (r - s) with Some f => if decide (s <= r) then f x else x | None => x end else x.
Proof.
  intros s x. rewrite <- (after_row i fs c r s x). unfold after_upds, row_upds, col_upds. revert s x.
  induction fs as [|f fs IH]; intros s x; [reflexivity|].
  cbn [length seq zip zip_with map fold_left fst snd]. rewrite IH. f_equal.
  destruct (decide ((s, i) = (r, c))) as [E|E], (decide ((i, s) = (c, r))) as [E'|E']; try reflexivity; congruence.
Qed.

Lemma row_upds_elem i s fs u : u ∈ row_upds i s fs <-> exists k f, fs !! k = Some f /\ u = ((i, s + k), f).
Proof.
  unfold row_upds. rewrite elem_of_list_In, in_map_iff. split.
  - intros ([c f] & <- & Hin). apply elem_of_list_In, elem_of_list_lookup in Hin as (k & E).
    apply lookup_zip_with_Some in E as (c' & f' & E1 & E2 & E3). injection E1 as -> ->.
    apply lookup_seq in E2 as [-> _]. exists k, f'. auto.
  - intros (k & f & E & ->). exists (s + k, f). split; [reflexivity|].
    apply elem_of_list_In, elem_of_list_lookup. exists k. apply lookup_zip_with_Some.
    exists (s + k), f. split; [reflexivity|]. split; [|exact E]. apply lookup_seq. split; [reflexivity|].
    now apply lookup_lt_Some in E.
Qed.
Lemma col_upds_elem i s fs u : u ∈ col_upds i s fs <-> exists k f, fs !! k = Some f /\ u = ((s + k, i), f).
Proof.
  unfold col_upds. rewrite elem_of_list_In, in_map_iff. split.
  - intros ([c f] & <- & Hin). apply elem_of_list_In, elem_of_list_lookup in Hin as (k & E).
    apply lookup_zip_with_Some in E as (c' & f' & E1 & E2 & E3). injection E1 as -> ->.
    apply lookup_seq in E2 as [-> _]. exists k, f'. auto.
  - intros (k & f & E & ->). exists (s + k, f). split; [reflexivity|].
    apply elem_of_list_In, elem_of_list_lookup. exists k. apply lookup_zip_with_Some.
    exists (s + k), f. split; [reflexivity|]. split; [|exact E]. apply lookup_seq. split; [reflexivity|].
    now apply lookup_lt_Some in E.
Qed.

Lemma zip_seq_map {B C} (g : B -> C) (l : list B) : forall s,
  map (fun cv => (cv.1, g cv.2)) (zip (seq s (length l)) l) = zip (seq s (length (map g l))) (map g l).
Proof. induction l as [|x l IH]; intros s; cbn; [reflexivity|]. f_equal. apply IH. Qed.

Lemma set_row_upds m i new : length new = (mshape m).2 ->
  set_row m i new = foldM (fun u m => index_upd m u.1 u.2) (row_upds i 0 (map (fun v _ => v) new)) m.
Proof.
  intros Hl. unfold set_row. rewrite (proj2 (Nat.eqb_eq _ _) Hl). cbn [assert_ mbind out_bind].
  unfold row_upds. rewrite <- zip_seq_map. now rewrite !foldM_map.
Qed.
Lemma set_col_upds m i new : length new = (mshape m).1 ->
  set_col m i new = foldM (fun u m => index_upd m u.1 u.2) (col_upds i 0 (map (fun v _ => v) new)) m.
Proof.
  intros Hl. unfold set_col. rewrite (proj2 (Nat.eqb_eq _ _) Hl). cbn [assert_ mbind out_bind].
  unfold col_upds. rewrite <- zip_seq_map. now rewrite !foldM_map.
Qed.
Lemma zip_seq_replicate {B} (f : B) n : forall s, zip (seq s (length (replicate n f))) (replicate n f) = map (fun k => (k, f)) (seq s n).
Proof. induction n as [|n IH]; intros s; cbn; [reflexivity|]. f_equal. apply IH. Qed.
Lemma mutate_row_upds m i f :
  mutate_row m i f = foldM (fun u m => index_upd m u.1 u.2) (row_upds i 0 (replicate (mshape m).2 f)) m.
Proof. unfold mutate_row, row_upds, range. now rewrite zip_seq_replicate, !foldM_map, Nat.sub_0_r. Qed.
Lemma mutate_col_upds m i f :
  mutate_col m i f = foldM (fun u m => index_upd m u.1 u.2) (col_upds i 0 (replicate (mshape m).1 f)) m.
Proof. unfold mutate_col, col_upds, range. now rewrite zip_seq_replicate, !foldM_map, Nat.sub_0_r. Qed.
End upd.

(** ** Histories *)
Inductive bulk_op (A : arith) : Type :=
| OCell (o : dense_op A)                     (* one of the operations of C01 *)
| OMutate (r c : nat) (f : A -> A)           (* m.mutate((r,c), f) *)
| OSetRow (i : nat) (new : list A)           (* m.set_row(i, new) *)
| OSetCol (i : nat) (new : list A)           (* m.set_col(i, new) *)
| OMutateRow (i : nat) (f : A -> A)          (* m.mutate_row(i, f) *)
| OMutateCol (i : nat) (f : A -> A).         (* m.mutate_col(i, f) *)
Global Arguments OCell {A} _.
Global Arguments OMutate {A} _ _ _.
Global Arguments OSetRow {A} _ _.
Global Arguments OSetCol {A} _ _.
Global Arguments OMutateRow {A} _ _.
Global Arguments OMutateCol {A} _ _.

Section history.
Context {A : arith} {M : Type} `{ML : MatrixLike A M}.
Context (wf : M -> Prop) (L : ml_laws wf full_dom).
Implicit Types m : M.

Definition cell_step (o : dense_op A) m : out M :=
  match o with
  | OpSet r c v => index_set m (r, c) v
  | OpPut r c v => put m (r, c) v
  | OpTranspose => mtranspose m
  | OpSwapRows i j => swap_rows m i j
  | OpSwapCols i j => swap_cols m i j
  end.
Definition bulk_step (o : bulk_op A) m : out M :=
  match o with
  | OCell o => cell_step o m
  | OMutate r c f => mutate m (r, c) f
  | OSetRow i new => set_row m i new
  | OSetCol i new => set_col m i new
  | OMutateRow i f => mutate_row m i f
  | OMutateCol i f => mutate_col m i f
  end.
Definition bulk_run (l : list (bulk_op A)) m : out M := foldM bulk_step l m.

(** the specification; [flips] says whether the layout can be transposed *)
Definition bulk_table (flips : bool) (o : bulk_op A) (t : table A) : option (table A) :=
  match o with
  | OCell OpTranspose => if flips then table_step OpTranspose t else None
  | OCell o => table_step o t
  | OMutate r c f =>
    Some (Table (t_rows t) (t_cols t) (fun r' c' => if decide (r' = r /\ c' = c) then f (t_val t r' c') else t_val t r' c'))
  | OSetRow i new =>
    if decide (length new = t_cols t /\ (t_cols t = 0 \/ i < t_rows t)) then
      Some (Table (t_rows t) (t_cols t) (fun r c => if decide (r = i) then nth c new s0 else t_val t r c))
    else None
  | OSetCol i new =>
    if decide (length new = t_rows t /\ (t_rows t = 0 \/ i < t_cols t)) then
      Some (Table (t_rows t) (t_cols t) (fun r c => if decide (c = i) then nth r new s0 else t_val t r c))
    else None
  | OMutateRow i f =>
    if decide (t_cols t = 0 \/ i < t_rows t) then
      Some (Table (t_rows t) (t_cols t) (fun r c => if decide (r = i) then f (t_val t r c) else t_val t r c))
    else None
  | OMutateCol i f =>
    if decide (t_rows t = 0 \/ i < t_cols t) then
      Some (Table (t_rows t) (t_cols t) (fun r c => if decide (c = i) then f (t_val t r c) else t_val t r c))
    else None
  end.
Fixpoint bulk_tables (flips : bool) (l : list (bulk_op A)) (t : table A) : option (table A) :=
  match l with
  | [] => Some t
  | o :: l' => match bulk_table flips o t with Some t' => bulk_tables flips l' t' | None => None end
  end.

(** the matrix shows exactly the table *)
Definition displays m (t : table A) : Prop :=
  mshape m = (t_rows t, t_cols t) /\
  forall r c, mget m (r, c) = Ret (if decide (r < t_rows t /\ c < t_cols t) then Some (t_val t r c) else None).

Lemma displays_iff m t : wf m ->
  displays m t <-> mshape m = (t_rows t, t_cols t) /\
    forall r c, r < t_rows t -> c < t_cols t -> el m r c = t_val t r c.
Proof.
  intros H. unfold displays. split.
  - intros [Hs Hg]. split; [exact Hs|]. intros r c Hr Hc. unfold el. rewrite Hg. now rewrite decide_True by auto.
  - intros [Hs He]. split; [exact Hs|]. intros r c. destruct (decide _) as [[Hr Hc]|Hn].
    + rewrite (law_get _ _ L) by (rewrite ?Hs; auto). now rewrite He.
    + apply (law_get_out _ _ L); [exact H|]. rewrite Hs. cbn. lia.
Qed.

Context (flips : bool).
Hypothesis Hflip : forall m t, wf m -> displays m t ->
  if flips then exists m', mtranspose m = Ret m' /\ wf m' /\ displays m' (Table (t_cols t) (t_rows t) (fun r c => t_val t c r))
  else mtranspose m = Panic.

Lemma bulk_step_spec o m t : wf m -> displays m t ->
  match bulk_table flips o t with
  | Some t' => exists m', bulk_step o m = Ret m' /\ wf m' /\ displays m' t'
  | None => bulk_step o m = Panic
  end.
Proof.
  intros H Hsh. pose proof (Hflip m t H Hsh) as HF. apply displays_iff in Hsh as [Hs He]; [|exact H].
  assert (Hdom : forall r c, full_dom m r c = true <-> r < t_rows t /\ c < t_cols t).
  { intros r c. unfold full_dom. rewrite in_shape_true, Hs. reflexivity. }
  assert (Hdomf : forall r c, ~ (r < t_rows t /\ c < t_cols t) -> full_dom m r c = false).
  { intros r c Hn. apply not_true_iff_false. rewrite Hdom. exact Hn. }
  destruct o as [o|r c f|i new|i new|i f|i f]; cbn [bulk_table bulk_step].
  - destruct o as [r c v|r c v| |i j|i j]; cbn [table_step cell_step].
    + destruct (decide _) as [Hin|Hout].
      * destruct (index_set_ret _ _ L m r c v) as (m' & E & Hw & Hs' & _ & He'); [auto|now apply Hdom|].
        exists m'. split; [exact E|]. split; [exact Hw|]. apply displays_iff; [exact Hw|].
        split; [rewrite Hs'; exact Hs|]. cbn. intros r' c' Hr' Hc'. rewrite He', He by assumption.
        destruct (Nat.eqb_spec r' r), (Nat.eqb_spec c' c); cbn; destruct (decide _); try reflexivity; lia.
      * apply (index_set_panic _ _ L); auto.
    + destruct (put_ret _ _ L m r c v H) as (m' & E & Hw & Hs' & _ & He').
      destruct (decide _) as [Hin|Hout].
      * exists m'. split; [exact E|]. split; [exact Hw|]. apply displays_iff; [exact Hw|].
        split; [rewrite Hs'; exact Hs|]. cbn. intros r' c' Hr' Hc'. rewrite He', He by assumption.
        rewrite (proj2 (Hdom r c) Hin). cbn.
        destruct (Nat.eqb_spec r' r), (Nat.eqb_spec c' c); cbn; destruct (decide _); try reflexivity; lia.
      * exists m'. split; [exact E|]. split; [exact Hw|]. apply displays_iff; [exact Hw|].
        split; [rewrite Hs'; exact Hs|]. cbn. intros r' c' Hr' Hc'. rewrite He', He by assumption.
        rewrite (Hdomf r c Hout). reflexivity.
    + destruct flips; exact HF.
    + destruct (decide (t_cols t = 0)) as [Hz|Hz]; [|destruct (decide _) as [Hin|Hout]].
      * exists m. split; [unfold swap_rows; rewrite Hs; cbn; rewrite Hz; reflexivity|].
        split; [exact H|]. apply displays_iff; auto.
      * destruct (swap_rows_ret _ _ L m i j H) as (m' & E & Hw & Hs' & _ & He').
        { intros c Hc. rewrite Hs in Hc. cbn in Hc. rewrite !Hdom. lia. }
        exists m'. split; [exact E|]. split; [exact Hw|]. apply displays_iff; [exact Hw|].
        split; [rewrite Hs'; exact Hs|]. cbn. intros r c Hr Hc. rewrite He', Hs. cbn.
        rewrite (proj2 (Nat.ltb_lt _ _) Hc). rewrite !He by lia.
        destruct (Nat.eqb_spec r j), (decide (r = i)), (Nat.eqb_spec r i), (decide (r = j));
          subst; try reflexivity; lia.
      * apply (swap_rows_panic _ _ L); [exact H|rewrite Hs; cbn; lia|rewrite Hs; cbn; lia].
    + destruct (decide (t_rows t = 0)) as [Hz|Hz]; [|destruct (decide _) as [Hin|Hout]].
      * exists m. split; [unfold swap_cols; rewrite Hs; cbn; rewrite Hz; reflexivity|].
        split; [exact H|]. apply displays_iff; auto.
      * destruct (swap_cols_ret _ _ L m i j H) as (m' & E & Hw & Hs' & _ & He').
        { intros c Hc. rewrite Hs in Hc. cbn in Hc. rewrite !Hdom. lia. }
        exists m'. split; [exact E|]. split; [exact Hw|]. apply displays_iff; [exact Hw|].
        split; [rewrite Hs'; exact Hs|]. cbn. intros r c Hr Hc. rewrite He', Hs. cbn.
        rewrite (proj2 (Nat.ltb_lt _ _) Hr). rewrite !He by lia.
        destruct (Nat.eqb_spec c j), (decide (c = i)), (Nat.eqb_spec c i), (decide (c = j));
          subst; try reflexivity; lia.
      * apply (swap_cols_panic _ _ L); [exact H|rewrite Hs; cbn; lia|rewrite Hs; cbn; lia].
  - unfold mutate. destruct (full_dom m r c) eqn:Hd.
    + destruct (law_mut _ _ L m r c f H Hd) as (m' & -> & Hw & Hs' & _ & He'). cbn [mbind out_bind default].
      exists m'. split; [reflexivity|]. split; [exact Hw|]. apply displays_iff; [exact Hw|].
      split; [rewrite Hs'; exact Hs|]. cbn. intros r' c' Hr' Hc'. rewrite He'. apply Hdom in Hd.
      destruct (Nat.eqb_spec r' r) as [->|], (Nat.eqb_spec c' c) as [->|]; cbn; rewrite He by lia; destruct (decide _); try reflexivity; lia.
    + rewrite (law_mut_no _ _ L) by assumption. cbn [mbind out_bind default]. exists m. split; [reflexivity|].
      split; [exact H|]. apply displays_iff; [exact H|]. split; [exact Hs|]. cbn. intros r' c' Hr' Hc'.
      rewrite He by assumption. rewrite decide_False; [reflexivity|]. intros [-> ->].
      apply not_true_iff_false in Hd. apply Hd, Hdom. auto.
  - destruct (decide (length new = t_cols t)) as [Hl|Hl].
    2:{ rewrite decide_False by (intros [? _]; auto). unfold set_row. rewrite Hs. cbn [snd].
        rewrite (proj2 (Nat.eqb_neq _ _) Hl). reflexivity. }
    rewrite set_row_upds by (rewrite Hs; exact Hl).
    destruct (decide _) as [[_ Hin]|Hout].
    + destruct (upds_ret _ _ L (row_upds i 0 (map (fun v _ => v) new)) m H) as (m' & E & Hw & Hs' & _ & He').
      { intros u Hu. apply row_upds_elem in Hu as (k & f & Ek & ->). cbn. apply Hdom.
        apply lookup_lt_Some in Ek. rewrite map_length, Hl in Ek. lia. }
      exists m'. split; [exact E|]. split; [exact Hw|]. apply displays_iff; [exact Hw|].
      split; [rewrite Hs'; exact Hs|]. cbn. intros r' c' Hr' Hc'. rewrite He', after_row, He by assumption.
      destruct (decide _) as [->|]; [|reflexivity]. rewrite Nat.sub_0_r, list_lookup_fmap.
      destruct (lookup_lt_is_Some_2 new c') as [v Ev]; [lia|]. rewrite Ev. cbn.
      rewrite decide_True by lia. symmetry. now apply nth_lookup_Some.
    + apply (upds_panic _ _ L); [exact H|]. destruct new as [|v new]; [exfalso; apply Hout; split; [exact Hl|left; symmetry; exact Hl]|].
      exists ((i, 0), fun _ => v). split; [apply row_upds_elem; exists 0, (fun _ => v); auto|].
      cbn. apply Hdomf. lia.
  - destruct (decide (length new = t_rows t)) as [Hl|Hl].
    2:{ rewrite decide_False by (intros [? _]; auto). unfold set_col. rewrite Hs. cbn [fst].
        rewrite (proj2 (Nat.eqb_neq _ _) Hl). reflexivity. }
    rewrite set_col_upds by (rewrite Hs; exact Hl).
    destruct (decide _) as [[_ Hin]|Hout].
    + destruct (upds_ret _ _ L (col_upds i 0 (map (fun v _ => v) new)) m H) as (m' & E & Hw & Hs' & _ & He').
      { intros u Hu. apply col_upds_elem in Hu as (k & f & Ek & ->). cbn. apply Hdom.
        apply lookup_lt_Some in Ek. rewrite map_length, Hl in Ek. lia. }
      exists m'. split; [exact E|]. split; [exact Hw|]. apply displays_iff; [exact Hw|].
      split; [rewrite Hs'; exact Hs|]. cbn. intros r' c' Hr' Hc'. rewrite He', after_col, He by assumption.
      destruct (decide _) as [->|]; [|reflexivity]. rewrite Nat.sub_0_r, list_lookup_fmap.
      destruct (lookup_lt_is_Some_2 new r') as [v Ev]; [lia|]. rewrite Ev. cbn.
      rewrite decide_True by lia. symmetry. now apply nth_lookup_Some.
    + apply (upds_panic _ _ L); [exact H|]. destruct new as [|v new]; [exfalso; apply Hout; split; [exact Hl|left; symmetry; exact Hl]|].
      exists ((0, i), fun _ => v). split; [apply col_upds_elem; exists 0, (fun _ => v); auto|].
      cbn. apply Hdomf. lia.
  - rewrite mutate_row_upds. rewrite Hs. cbn [snd]. destruct (decide _) as [Hin|Hout].
    + destruct (upds_ret _ _ L (row_upds i 0 (replicate (t_cols t) f)) m H) as (m' & E & Hw & Hs' & _ & He').
      { intros u Hu. apply row_upds_elem in Hu as (k & g & Ek & ->). cbn. apply Hdom.
        apply lookup_replicate in Ek. lia. }
      exists m'. split; [exact E|]. split; [exact Hw|]. apply displays_iff; [exact Hw|].
      split; [rewrite Hs'; exact Hs|]. cbn. intros r' c' Hr' Hc'. rewrite He', after_row, He by assumption.
      destruct (decide _) as [->|]; [|reflexivity]. rewrite Nat.sub_0_r, lookup_replicate_2 by lia.
      now rewrite decide_True by lia.
    + apply (upds_panic _ _ L); [exact H|]. exists ((i, 0), f). split.
      * apply row_upds_elem. exists 0, f. split; [|reflexivity]. apply lookup_replicate_2. lia.
      * cbn. apply Hdomf. lia.
  - rewrite mutate_col_upds. rewrite Hs. cbn [fst]. destruct (decide _) as [Hin|Hout].
    + destruct (upds_ret _ _ L (col_upds i 0 (replicate (t_rows t) f)) m H) as (m' & E & Hw & Hs' & _ & He').
      { intros u Hu. apply col_upds_elem in Hu as (k & g & Ek & ->). cbn. apply Hdom.
        apply lookup_replicate in Ek. lia. }
      exists m'. split; [exact E|]. split; [exact Hw|]. apply displays_iff; [exact Hw|].
      split; [rewrite Hs'; exact Hs|]. cbn. intros r' c' Hr' Hc'. rewrite He', after_col, He by assumption.
      destruct (decide _) as [->|]; [|reflexivity]. rewrite Nat.sub_0_r, lookup_replicate_2 by lia.
      now rewrite decide_True by lia.
    + apply (upds_panic _ _ L); [exact H|]. exists ((0, i), f). split.
      * apply col_upds_elem. exists 0, f. split; [|reflexivity]. apply lookup_replicate_2. lia.
      * cbn. apply Hdomf. lia.
Qed.

Lemma bulk_run_spec l : forall m t, wf m -> displays m t ->
  match bulk_tables flips l t with
  | Some t' => exists m', bulk_run l m = Ret m' /\ displays m' t'
  | None => bulk_run l m = Panic
  end.
Proof.
  induction l as [|o l IH]; intros m t H Hs; cbn [bulk_tables].
  - exists m. auto.
  - pose proof (bulk_step_spec o m t H Hs) as Hst. destruct (bulk_table flips o t) as [t'|].
    + destruct Hst as (m' & E & Hw & Hs'). unfold bulk_run. cbn [foldM]. rewrite E. cbn [mbind out_bind].
      apply IH; assumption.
    + unfold bulk_run. cbn [foldM]. now rewrite Hst.
Qed.
End history.

(** LinearMatrix *)
Lemma lm_flip {A : arith} (m : lm A) t : lm_wf m -> displays m t ->
  exists m', mtranspose m = Ret m' /\ lm_wf m' /\ displays m' (Table (t_cols t) (t_rows t) (fun r c => t_val t c r)).
Proof.
  intros H Hd. apply (displays_iff _ lm_laws) in Hd as [Hs He]; [|exact H].
  exists (lm_transpose m). split; [reflexivity|]. split; [now apply lm_transpose_wf|].
  apply (displays_iff _ lm_laws); [now apply lm_transpose_wf|]. cbn. cbn in Hs. split; [congruence|].
  intros r c Hr Hc. rewrite lm_transpose_el. auto.
Qed.

Lemma dense_history {A : arith} R C (init : list A) ops :
  match (if decide (length init = R * C) then bulk_tables true ops (Table R C (fun r c => nth (C * r + c) init s0)) else None) with
  | Some t => exists m : lm A, (m0 ← mfrom_flat (R, C) init; bulk_run ops m0) = Ret m /\ displays m t
  | None => (m0 ← mfrom_flat (M := lm A) (R, C) init; bulk_run ops m0) = Panic
  end.
Proof.
  destruct (decide _) as [Hl|Hl].
  - destruct (lm_from_flat_ret R C init Hl) as (m & E & Hw & Hs & He). cbn [mfrom_flat lm_like]. rewrite E. cbn [mbind out_bind].
    apply (bulk_run_spec lm_wf lm_laws true lm_flip ops m _ Hw). apply (displays_iff _ lm_laws _ _ Hw).
    split; [exact Hs|]. cbn. intros r c Hr Hc. symmetry. apply nth_lookup_Some. symmetry. auto.
  - cbn [mfrom_flat lm_like]. now rewrite lm_from_flat_panic.
Qed.

(** ConstMatrix *)
Section const.
Context {A : arith} (size : nat).
Local Existing Instance cm_like.
Implicit Types m : cm A.

Lemma cm_flip m (t : table A) : cm_wf size m -> displays (ML := cm_like size) m t -> mtranspose (MatrixLike := cm_like size) m = Panic.
Proof. reflexivity. Qed.

(** the loop of from_flat stores the values in order and remembers the last position *)
Lemma from_flat_loop (data : list A) : forall k d last, length d = size -> k + length data <= size ->
  foldM (fun (ix : nat * A) (st : list A * nat) => _ ← assert_ (ix.1 <? size); d ← set st.1 ix.1 ix.2; Ret (d, ix.1))
    (zip (seq k (length data)) data) (d, last)
  = Ret (take k d ++ data ++ drop (k + length data) d, if decide (data = []) then last else k + length data - 1).
Proof.
  induction data as [|x data IH]; intros k d last Hd Hk.
  - cbn. rewrite Nat.add_0_r, take_drop. reflexivity.
  - cbn [length seq zip zip_with foldM fst snd]. cbn [length] in Hk.
    rewrite (proj2 (Nat.ltb_lt k size)) by lia. cbn [assert_ mbind out_bind]. unfold set.
    destruct (lookup_lt_is_Some_2 d k) as [y Ey]; [lia|]. rewrite Ey. cbn [mbind out_bind].
    unfold zip in IH. rewrite IH by (rewrite ?insert_length; lia). f_equal. f_equal.
    + rewrite insert_take_drop by lia.
      assert (Lt : length (take k d) = k) by (rewrite take_length; lia).
      rewrite firstn_app, skipn_app, Lt. replace (S k - k) with 1 by lia.
      replace (S k + length data - k) with (S (length data)) by lia.
      rewrite (take_ge (take k d)) by lia. rewrite (drop_ge (take k d)) by lia. cbn [firstn skipn app].
      rewrite drop_drop, <- app_assoc. cbn [app]. replace (S k + length data) with (k + S (length data)) by lia. reflexivity.
    + destruct (decide (data = [])) as [->|Hne]; [rewrite decide_False by discriminate; cbn; lia|].
      rewrite decide_False by discriminate. lia.
Qed.
Lemma cm_from_flat_ret shape (data : list A) : size <> 0 -> length data = size ->
  cm_from_flat size shape data = Ret (CM shape.1 shape.2 data).
Proof.
  intros Hz Hl. unfold cm_from_flat. rewrite from_flat_loop by (rewrite ?replicate_length; lia). cbn [mbind out_bind snd fst].
  unfold usub. rewrite (decide_True (P := 1 <= size)) by lia. cbn [mbind out_bind].
  rewrite decide_False by (intros ->; cbn in Hl; lia). rewrite (proj2 (Nat.eqb_eq _ _)) by lia. cbn [assert_ mbind out_bind].
  rewrite take_0, drop_ge by (rewrite replicate_length; lia). now rewrite app_nil_r.
Qed.

Lemma cm_from_flat_long shape (data : list A) : size < length data -> cm_from_flat size shape data = Panic.
Proof.
  intros Hl. unfold cm_from_flat.
  assert (E : exists l1 x rest, data = l1 ++ x :: rest /\ length l1 = size).
  { destruct (drop size data) as [|x rest] eqn:Ed.
    { apply (f_equal length) in Ed. rewrite drop_length in Ed. cbn in Ed. lia. }
    exists (take size data), x, rest. split; [now rewrite <- Ed, take_drop|rewrite take_length; lia]. }
  destruct E as (l1 & x & rest & -> & Lt).
  rewrite app_length. cbn [length]. rewrite seq_app. rewrite zip_with_app by now rewrite seq_length.
  rewrite foldM_app. fold (zip (seq 0 (length l1)) l1). rewrite from_flat_loop by (rewrite ?replicate_length; lia). cbn [mbind out_bind foldM fst snd seq zip_with].
  rewrite Lt, Nat.ltb_irrefl. reflexivity.
Qed.

Lemma cm_from_flat_short shape (data : list A) : length data < size -> (data = [] -> size <> 1) -> cm_from_flat size shape data = Panic.
Proof.
  intros Hl H1. unfold cm_from_flat. rewrite from_flat_loop by (rewrite ?replicate_length; lia). cbn [mbind out_bind snd fst].
  unfold usub. rewrite (decide_True (P := 1 <= size)) by lia. cbn [mbind out_bind].
  destruct (decide (data = [])) as [->|Hne].
  - specialize (H1 eq_refl). rewrite (proj2 (Nat.eqb_neq 0 (size - 1))) by lia. reflexivity.
  - rewrite (proj2 (Nat.eqb_neq _ _)); [reflexivity|]. destruct data; [done|]. cbn in *. lia.
Qed.

Lemma const_history R C (init : list A) ops : R * C = size -> size <> 0 -> (init = [] -> size <> 1) ->
  match (if decide (length init = size) then bulk_tables false ops (Table R C (fun r c => nth (C * r + c) init s0)) else None) with
  | Some t => exists m : cm A, (m0 ← mfrom_flat (MatrixLike := cm_like size) (R, C) init; bulk_run (ML := cm_like size) ops m0) = Ret m /\ displays (ML := cm_like size) m t
  | None => (m0 ← mfrom_flat (MatrixLike := cm_like size) (R, C) init; bulk_run (ML := cm_like size) ops m0) = Panic
  end.
Proof.
  intros HRC Hz H1. cbn [mfrom_flat cm_like]. destruct (decide _) as [Hl|Hl].
  - rewrite cm_from_flat_ret by assumption. cbn [mbind out_bind fst snd].
    assert (Hw : cm_wf size (CM R C init)) by now split.
    apply (bulk_run_spec (ML := cm_like size) (cm_wf size) (cm_laws size) false cm_flip ops _ _ Hw).
    apply (displays_iff _ (cm_laws size) _ _ Hw). split; [reflexivity|]. cbn. intros r c Hr Hc.
    unfold el. cbn. unfold cm_get, cm_pos. cbn. destruct (Nat.leb_spec C c), (Nat.leb_spec R r); cbn; try lia.
    unfold idx. destruct (lookup_lt_is_Some_2 init (C * r + c)) as [x Ex]; [nia|]. rewrite Ex. cbn.
    symmetry. now apply nth_lookup_Some.
  - assert (E : cm_from_flat size (R, C) init = Panic).
    { destruct (decide (size < length init)); [now apply cm_from_flat_long|]. apply cm_from_flat_short; [lia|exact H1]. }
    now rewrite E.
Qed.
End const.

(** ** In-place difference *)
Section sub.
Context {A : arith}.

Lemma sub_ass_ret {M} `{ML : MatrixLike A M} (wf : M -> Prop) dom (L : ml_laws wf dom) (a b : M) :
  wf a -> wf b -> mshape a = mshape b ->
  (forall r c, r < (mshape a).1 -> c < (mshape a).2 -> dom a r c = true) ->
  exists m, sub_ass a b = Ret m /\ wf m /\ mshape m = mshape a /\
    (forall r c, r < (mshape a).1 -> c < (mshape a).2 -> el m r c = ssub (el a r c) (el b r c)).
Proof.
  intros Ha Hb Hs Hdom. unfold sub_ass. rewrite decide_True by assumption.
  destruct (mshape a) as [R C] eqn:Esh; cbn in Hdom |- *.
  assert (HI : forall k m, k < R -> wf m /\ mshape m = (R, C) /\
     (forall r c, dom m r c = dom a r c) /\
     (forall r c, r < R -> c < C -> el m r c = if r <? k then ssub (el a r c) (el b r c) else el a r c) ->
     exists m', foldM (fun c m => y ← index b (k, c); index_upd m (k, c) (fun x => ssub x y))
                      (range 0 (mshape m).2) m = Ret m' /\
       (wf m' /\ mshape m' = (R, C) /\ (forall r c, dom m' r c = dom a r c) /\
        (forall r c, r < R -> c < C ->
           el m' r c = if r <? S k then ssub (el a r c) (el b r c) else el a r c))).
  { intros k m Hk (Hw & Hsm & Hd & He). rewrite Hsm. cbn [snd].
    destruct (foldM_range_inv
      (fun j m' => wf m' /\ mshape m' = (R, C) /\ (forall r c, dom m' r c = dom a r c) /\
        (forall r c, r < R -> c < C ->
           el m' r c = if (r <? k) || ((r =? k) && (c <? j)) then ssub (el a r c) (el b r c) else el a r c))
      (fun c m => y ← index b (k, c); index_upd m (k, c) (fun x => ssub x y)) 0 C m)
      as (m' & E & Hw' & Hs' & Hd' & He'); [lia| | |].
    - split; [auto|]. split; [auto|]. split; [auto|]. intros r c Hr Hc.
      replace (c <? 0) with false by reflexivity. rewrite andb_false_r, orb_false_r. auto.
    - intros j m1 Hj (Hw1 & Hs1 & Hd1 & He1).
      rewrite (index_ret _ _ L) by (rewrite <- ?Hs; auto; cbn; lia). cbn [mbind out_bind].
      destruct (index_upd_ret _ _ L m1 k j (fun x => ssub x (el b k j))) as (m2 & E2 & Hw2 & Hs2 & Hd2 & He2);
        [auto|rewrite Hd1; apply Hdom; lia|].
      exists m2. split; [exact E2|]. split; [auto|]. split; [congruence|].
      split; [intros; now rewrite Hd2|]. intros r c Hr Hc. rewrite He2, !He1 by lia.
      destruct (Nat.eqb_spec r k) as [->|Hrk]; cbn.
      + rewrite Nat.ltb_irrefl. rewrite Nat.eqb_refl || idtac. cbn.
        destruct (Nat.eqb_spec c j) as [->|Hcj].
        * rewrite Nat.ltb_irrefl. rewrite (proj2 (Nat.ltb_lt j (S j))) by lia. reflexivity.
        * replace (c <? S j) with (c <? j); [reflexivity|].
          destruct (Nat.ltb_spec c j), (Nat.ltb_spec c (S j)); auto; lia.
      + reflexivity.
    - exists m'. split; [exact E|]. split; [auto|]. split; [auto|]. split; [auto|].
      intros r c Hr Hc. rewrite He' by assumption. rewrite (proj2 (Nat.ltb_lt c C)) by lia.
      rewrite andb_true_r. replace (r <? S k) with ((r <? k) || (r =? k)); [reflexivity|].
      destruct (Nat.ltb_spec r k), (Nat.eqb_spec r k), (Nat.ltb_spec r (S k)); auto; lia. }
  destruct (foldM_range_inv
    (fun k m => wf m /\ mshape m = (R, C) /\ (forall r c, dom m r c = dom a r c) /\
      (forall r c, r < R -> c < C -> el m r c = if r <? k then ssub (el a r c) (el b r c) else el a r c))
    (fun r m => foldM (fun c m => y ← index b (r, c); index_upd m (r, c) (fun x => ssub x y))
                      (range 0 (mshape m).2) m) 0 R a) as (m' & E & Hw & Hsm & Hd & He); [lia|auto| |].
  - intros i s Hi HP. apply HI; [lia|exact HP].
  - exists m'. split; [exact E|]. split; [auto|]. split; [auto|]. intros r c Hr Hc.
    rewrite He by assumption. now rewrite (proj2 (Nat.ltb_lt r R)).
Qed.

Lemma lm_ass_spec (a b : lm A) : lm_wf a -> lm_wf b ->
  (mshape a = mshape b -> exists s d : lm A, add_ass a b = Ret s /\ sub_ass a b = Ret d /\
    mshape s = mshape a /\ mshape d = mshape a /\
    forall r c, r < (mshape a).1 -> c < (mshape a).2 ->
      el s r c = sadd (el a r c) (el b r c) /\ el d r c = ssub (el a r c) (el b r c)) /\
  (mshape a <> mshape b -> add_ass a b = Panic /\ sub_ass a b = Panic).
Proof.
  intros Ha Hb. split.
  - intros Hs.
    destruct (add_ass_ret _ _ lm_laws a b Ha Hb Hs) as (s & Es & _ & Ss & Vs).
    { intros r c Hr Hc. unfold full_dom. now apply in_shape_true. }
    destruct (sub_ass_ret _ _ lm_laws a b Ha Hb Hs) as (d & Ed & _ & Sd & Vd).
    { intros r c Hr Hc. unfold full_dom. now apply in_shape_true. }
    exists s, d. auto 10.
  - intros Hs. unfold add_ass, sub_ass. now rewrite !decide_False.
Qed.
End sub.

(** ** Rotations *)
Section rotation.
Context {A : arith}.

Lemma eye_lm n : exists m : lm A, eye (n, n) = Ret m /\ lm_wf m /\ mshape m = (n, n) /\
  forall r c, r < n -> c < n -> el m r c = delta r c.
Proof.
  unfold eye. cbn [fst snd]. rewrite Nat.max_id. cbn [mzeros lm_like mbind out_bind].
  destruct (foldM_range_inv (fun k (m : lm A) => lm_wf m /\ mshape m = (n, n) /\
     forall r c, r < n -> c < n -> el m r c = if decide (r = c /\ r < k) then s1 else s0)
     (fun i m => put m (i, i) s1) 0 n (lm_zeros (n, n))) as (m & E & Hw & Hs & He); [lia| | |].
  - split; [apply lm_zeros_wf|]. split; [reflexivity|]. intros r c Hr Hc. rewrite lm_zeros_el. now rewrite decide_False by lia.
  - intros i m Hi (Hw & Hs & He). destruct (put_ret _ _ lm_laws m i i s1 Hw) as (m' & E & Hw' & Hs' & _ & He').
    exists m'. split; [exact E|]. split; [exact Hw'|]. split; [congruence|]. intros r c Hr Hc. rewrite He'.
    replace (full_dom m i i) with true by (symmetry; apply in_shape_true; rewrite Hs; cbn; lia). cbn [andb].
    rewrite He by assumption.
    destruct (Nat.eqb_spec r i), (Nat.eqb_spec c i); cbn [andb]; repeat destruct (decide _); try reflexivity; lia.
  - exists m. split; [exact E|]. split; [exact Hw|]. split; [exact Hs|]. intros r c Hr Hc. rewrite He by assumption.
    unfold delta. repeat destruct (decide _); try reflexivity; lia.
Qed.

(** entries of the rotation by [theta] in the plane of the axes a and b *)
Definition rot_entry (a b : nat) (theta : A) (r c : nat) : A :=
  if decide (r = a /\ c = a) then scos theta else
  if decide (r = a /\ c = b) then smul (sneg s1) (ssin theta) else
  if decide (r = b /\ c = a) then ssin theta else
  if decide (r = b /\ c = b) then scos theta else delta r c.

Lemma rotation_ret n a b theta : a < n -> b < n -> a <> b ->
  exists m : lm A, rotation n a b theta = Ret m /\ lm_wf m /\ mshape m = (n, n) /\
    forall r c, r < n -> c < n -> el m r c = rot_entry a b theta r c.
Proof.
  intros Ha Hb Hab. unfold rotation.
  rewrite (proj2 (Nat.ltb_lt a n)), (proj2 (Nat.ltb_lt b n)), (proj2 (Nat.eqb_neq a b)) by assumption.
  cbn [assert_ mbind out_bind negb]. destruct (eye_lm n) as (m & -> & Hw & Hs & He). cbn [mbind out_bind].
  assert (D : forall (m : lm A) i j, mshape m = (n, n) -> i < n -> j < n -> full_dom m i j = true).
  { intros m' i j Hs' Hi Hj. apply in_shape_true. rewrite Hs'. auto. }
  destruct (index_set_ret _ _ lm_laws m a a (scos theta) Hw) as (m1 & -> & W1 & S1 & _ & V1); [now apply D|]. cbn [mbind out_bind].
  destruct (index_set_ret _ _ lm_laws m1 a b (smul (sneg s1) (ssin theta)) W1) as (m2 & -> & W2 & S2 & _ & V2); [apply D; congruence|]. cbn [mbind out_bind].
  destruct (index_set_ret _ _ lm_laws m2 b a (ssin theta) W2) as (m3 & -> & W3 & S3 & _ & V3); [apply D; congruence|]. cbn [mbind out_bind].
  destruct (index_set_ret _ _ lm_laws m3 b b (scos theta) W3) as (m4 & E4 & W4 & S4 & _ & V4); [apply D; congruence|].
  exists m4. split; [exact E4|]. split; [exact W4|]. split; [congruence|]. intros r c Hr Hc.
  rewrite V4, V3, V2, V1, He by assumption. unfold rot_entry.
  destruct (Nat.eqb_spec r a), (Nat.eqb_spec r b), (Nat.eqb_spec c a), (Nat.eqb_spec c b); cbn [andb];
    repeat destruct (decide _); try reflexivity; lia.
Qed.

Lemma rotation_panic n a b theta : ~ (a < n /\ b < n /\ a <> b) -> rotation (M := lm A) n a b theta = Panic.
Proof.
  intros H. unfold rotation. destruct (Nat.ltb_spec a n); [|reflexivity]. cbn [assert_ mbind out_bind].
  destruct (Nat.ltb_spec b n); [|reflexivity]. cbn [assert_ mbind out_bind].
  destruct (Nat.eqb_spec a b); [reflexivity|]. exfalso. apply H. auto.
Qed.

Context (FL : field_laws A).
Add Field Afield54 : (fl_field A FL).
Local Open Scope arith_scope.

(** a sum against a row of the rotation *)
Lemma rot_row n a b th r (y : nat -> A) : (a < n)%nat -> (b < n)%nat -> a <> b -> (r < n)%nat ->
  bigsum n (fun k => rot_entry a b th r k * y k) =
  if decide (r = a) then scos th * y a - ssin th * y b
  else if decide (r = b) then ssin th * y a + scos th * y b else y r.
Proof.
  intros Ha Hb Hab Hr.
  destruct (decide (r = a)) as [->|Hra]; [|destruct (decide (r = b)) as [->|Hrb]].
  - rewrite (bigsum_remove FL n a) by exact Ha. rewrite (bigsum_single FL n b); [|exact Hb|].
    + rewrite (proj2 (Nat.eqb_neq b a)) by congruence. unfold rot_entry, delta. repeat (destruct (decide _); try lia). ring.
    + intros k Hk Hkb. destruct (Nat.eqb_spec k a); [reflexivity|]. unfold rot_entry, delta. repeat (destruct (decide _); try lia); ring.
  - rewrite (bigsum_remove FL n a) by exact Ha. rewrite (bigsum_single FL n b); [|exact Hb|].
    + rewrite (proj2 (Nat.eqb_neq b a)) by congruence. unfold rot_entry, delta. repeat (destruct (decide _); try lia). ring.
    + intros k Hk Hkb. destruct (Nat.eqb_spec k a); [reflexivity|]. unfold rot_entry, delta. repeat (destruct (decide _); try lia); ring.
  - rewrite (bigsum_single FL n r); [|exact Hr|].
    + unfold rot_entry, delta. repeat (destruct (decide _); try lia). ring.
    + intros k Hk Hkr. unfold rot_entry, delta. repeat (destruct (decide _); try lia); ring.
Qed.

Lemma rot_orthogonal n a b th i j : (a < n)%nat -> (b < n)%nat -> a <> b -> (i < n)%nat -> (j < n)%nat ->
  scos th * scos th + ssin th * ssin th = 1 ->
  bigsum n (fun k => rot_entry a b th i k * rot_entry a b th j k) = delta i j.
Proof.
  intros Ha Hb Hab Hi Hj T. rewrite rot_row by assumption. unfold rot_entry, delta.
  repeat (destruct (decide _); try lia); first [ring | rewrite <- T at 1; ring | transitivity (scos th * scos th + ssin th * ssin th); [ring|exact T]].
Qed.
End rotation.

(** ** The determinant without pivoting *)
Section det.
Context {A : arith} (FL : field_laws A).
Add Field Afield55 : (fl_field A FL).
Local Open Scope arith_scope.

Lemma D_lu n D (l u a : nat -> nat -> A) : det_function n D ->
  (forall r, (r < n)%nat -> l r r = 1) -> (forall r c, (r < c)%nat -> l r c = 0) ->
  (forall r c, (r < n)%nat -> (c < n)%nat -> bigsum n (fun k => l r k * u k c) = a r c) -> D a = D u.
Proof.
  intros HD H1 H0 HP.
  assert (G : forall k, (k <= n)%nat -> D (fun r c => if (r <? n - k)%nat then u r c else a r c) = D u).
  { induction k as [|k IH]; intros Hk.
    - apply (df_ext n D HD). intros r c Hr Hc. now rewrite (proj2 (Nat.ltb_lt r (n - 0))) by lia.
    - rewrite <- IH by lia. set (B := fun r c => if (r <? n - k)%nat then u r c else a r c). set (j := (n - S k)%nat).
      rewrite <- (D_combination FL n D HD B j j (l j) (fun k => k)) by (unfold j; lia).
      apply (df_ext n D HD). intros r c Hr Hc. unfold with_row. destruct (Nat.eqb_spec r j) as [->|Hrj].
      + rewrite Nat.ltb_irrefl. rewrite <- HP by (unfold j; lia). rewrite (bigsum_split FL n j) by (unfold j; lia).
        replace (n - j)%nat with (S k) by (unfold j; lia).
        rewrite (bigsum_single FL (S k) 0); [|lia|intros i Hi Hi0; rewrite H0 by lia; ring].
        rewrite Nat.add_0_r, H1 by (unfold j; lia). unfold B at 1.
        rewrite (proj2 (Nat.ltb_lt j (n - k))) by (unfold j; lia).
        rewrite (bigsum_ext (fun k0 => l j k0 * B k0 c) (fun k0 => l j k0 * u k0 c)); [ring|].
        intros i Hi. unfold B. now rewrite (proj2 (Nat.ltb_lt i (n - k))) by (unfold j in Hi; lia).
      + unfold B. replace (r <? j)%nat with (r <? n - k)%nat; [reflexivity|].
        unfold j in *. destruct (Nat.ltb_spec r (n - k)), (Nat.ltb_spec r (n - S k)); try lia; reflexivity. }
  rewrite <- (G n) by lia. apply (df_ext n D HD). intros r c Hr Hc. now rewrite Nat.sub_diag.
Qed.

Lemma det_lu_spec n D (m : lm A) : det_function n D -> lm_wf m -> mshape m = (n, n) ->
  (forall k, (k < n)%nat -> nonsingular k (el m)) -> det_lu m = Ret (D (el m)).
Proof.
  intros HD Hw Hs Hns. destruct (lu_decompose_inv FL m n (el m) (rep_self m n n Hw Hs) Hns) as ([l u] & E & Hwl & Hln & Hwu & Hun & _ & _ & H1 & _ & HP).
  unfold det_lu. rewrite E. cbn [mbind out_bind fst snd] in *. rewrite (diag_ret _ _ ut_laws u Hwu). cbn [mbind out_bind].
  cbn [mshape ut_like fst snd]. rewrite Hun, Nat.min_id. rewrite sprod_diag. f_equal.
  rewrite (D_lu n D (el l) (el u) (el m) HD H1).
  - symmetry. apply (D_upper FL n D HD). intros r c Hrc Hr. apply el_ut_lower; [exact Hwu|exact Hrc].
  - intros r c Hrc. now apply el_lt_upper.
  - intros r c Hr Hc. apply HP; auto.
Qed.
End det.

(** ** Composition over the reals *)
From Coq Require Import Reals.
From Verif Require Import InstR.
Local Close Scope R_scope.
Local Open Scope nat_scope.
Lemma rot_compose n a b (x y : R_arith) (mx my mxy : lm R_arith) i j : a < n -> b < n -> a <> b ->
  rotation n a b x = Ret mx -> rotation n a b y = Ret my -> rotation n a b (sadd x y) = Ret mxy -> i < n -> j < n ->
  bigsum n (fun k => smul (el mx i k) (el my k j)) = el mxy i j.
Proof.
  intros Ha Hb Hab Ex Ey Exy Hi Hj.
  destruct (rotation_ret n a b x Ha Hb Hab) as (m1 & E1 & _ & _ & V1). rewrite Ex in E1. injection E1 as <-.
  destruct (rotation_ret n a b y Ha Hb Hab) as (m2 & E2 & _ & _ & V2). rewrite Ey in E2. injection E2 as <-.
  destruct (rotation_ret n a b (sadd x y) Ha Hb Hab) as (m3 & E3 & _ & _ & V3). rewrite Exy in E3. injection E3 as <-.
  rewrite V3 by assumption.
  transitivity (bigsum n (fun k => smul (rot_entry a b x i k) (rot_entry a b y k j))).
  { apply bigsum_ext. intros k Hk. now rewrite V1, V2. }
  rewrite (rot_row R_field_laws n a b x i (fun k => rot_entry a b y k j)) by assumption.
  assert (C : scos (sadd x y) = ssub (smul (scos x) (scos y)) (smul (ssin x) (ssin y))) by exact (cos_plus x y).
  assert (S : ssin (sadd x y) = sadd (smul (ssin x) (scos y)) (smul (scos x) (ssin y))) by exact (sin_plus x y).
  unfold rot_entry, delta. repeat (destruct (decide _); try lia); rewrite ?C, ?S; cbn; try ring.
Qed.
