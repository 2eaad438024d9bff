(** The determinant routine gives the same answer on every full layout showing the same table;
    used to carry the results for dense matrices over to fixed-size ones. *)
From Verif Require Export DetProofs.

(** two outcomes of the same kind, with related values *)
Definition out_rel {S T} (R : S -> T -> Prop) (x : out S) (y : out T) : Prop :=
  match x, y with
  | Ret a, Ret b => R a b
  | Panic, Panic | UB, UB | Fuel, Fuel => True
  | _, _ => False
  end.

Section rel.
Context {S T S' T' : Type} (R : S -> T -> Prop) (R' : S' -> T' -> Prop).
Lemma bind_rel (x : out S) (y : out T) (f : S -> out S') (g : T -> out T') :
  out_rel R x y -> (forall a b, R a b -> out_rel R' (f a) (g b)) -> out_rel R' (x ≫= f) (y ≫= g).
Proof. intros H K. destruct x, y; try contradiction; cbn in *; auto. Qed.
Lemma foldM_rel {B} (f : B -> S -> out S) (g : B -> T -> out T) (l : list B) : forall s t, R s t ->
  (forall b s t, R s t -> out_rel R (f b s) (g b t)) -> out_rel R (foldM f l s) (foldM g l t).
Proof.
  induction l as [|b l IH]; intros s t H K; [exact H|]. cbn [foldM]. specialize (K b s t H) as Kb.
  destruct (f b s), (g b t); try contradiction; cbn in *; auto.
Qed.
End rel.
Lemma bind_eq {S T T'} (R : S -> T -> Prop) (x : out S) (y : out T) (f : S -> out T') (g : T -> out T') :
  out_rel R x y -> (forall a b, R a b -> f a = g b) -> x ≫= f = y ≫= g.
Proof. intros H K. destruct x, y; try contradiction; cbn in *; auto. Qed.
Lemma out_rel_eq {S} (x y : out S) : x = y -> out_rel eq x y.
Proof. intros ->. now destruct y; cbn. Qed.

Section det_rel.
Context {A : arith} {M N : Type} `{MM : MatrixLike A M} `{MN : MatrixLike A N}.
Context (wfM : M -> Prop) (LM' : ml_laws wfM full_dom) (wfN : N -> Prop) (LN : ml_laws wfN full_dom).

Definition same (m : M) (n : N) : Prop := wfM m /\ wfN n /\ mshape m = mshape n /\ forall r c, el m r c = el n r c.

Lemma same_get m n loc : same m n -> mget m loc = mget n loc.
Proof.
  intros (H1 & H2 & Hs & He). destruct loc as [r c].
  destruct (decide (r < (mshape m).1 /\ c < (mshape m).2)) as [[Hr Hc]|Hn].
  - rewrite (law_get _ _ LM') by assumption. rewrite (law_get _ _ LN) by (rewrite <- ?Hs; assumption). now rewrite He.
  - rewrite (law_get_out _ _ LM') by (try assumption; lia). rewrite (law_get_out _ _ LN) by (rewrite <- ?Hs; try assumption; lia). reflexivity.
Qed.
Lemma same_index m n loc : same m n -> index m loc = index n loc.
Proof. intros H. unfold index. now rewrite (same_get m n loc H). Qed.
Lemma same_mut m n loc f : same m n -> out_rel (fun a b => match a, b with Some a, Some b => same a b | None, None => True | _, _ => False end) (mmut m loc f) (mmut n loc f).
Proof.
  intros (H1 & H2 & Hs & He). destruct loc as [r c].
  destruct (full_dom m r c) eqn:Ed.
  - assert (Ed' : full_dom n r c = true) by (unfold full_dom in *; now rewrite <- Hs).
    destruct (law_mut _ _ LM' m r c f H1 Ed) as (m' & E & W & S1' & _ & V). destruct (law_mut _ _ LN n r c f H2 Ed') as (n' & E' & W' & S' & _ & V').
    rewrite E, E'. cbn. split; [exact W|]. split; [exact W'|]. split; [congruence|]. intros r' c'. rewrite V, V', !He. reflexivity.
  - rewrite (law_mut_no _ _ LM') by assumption. rewrite (law_mut_no _ _ LN) by (try assumption; unfold full_dom in *; now rewrite <- Hs). exact I.
Qed.
Lemma same_upd m n loc f : same m n -> out_rel same (index_upd m loc f) (index_upd n loc f).
Proof.
  intros H. unfold index_upd. eapply bind_rel; [apply same_mut, H|]. intros [a|] [b|]; cbn; tauto.
Qed.
Lemma same_put m n loc v : same m n -> out_rel same (put m loc v) (put n loc v).
Proof.
  intros H. unfold put. eapply bind_rel; [apply same_mut, H|]. intros [a|] [b|]; cbn; tauto.
Qed.
Lemma same_shape m n : same m n -> mshape m = mshape n.
Proof. intros H. apply H. Qed.
Lemma iter_ext (f g : nat -> out (option A)) : (forall p, f p = g p) -> forall k p, iter_while f k p = iter_while g k p.
Proof. intros H k. induction k as [|k IH]; intros p; [reflexivity|]. cbn. rewrite H. destruct (g p) as [[v|]| | |]; cbn; [|reflexivity..]. now rewrite IH. Qed.
Lemma same_diag m n : same m n -> diag m = diag n.
Proof. intros H. unfold diag. rewrite (same_shape m n H). apply iter_ext. intros p. now apply same_get. Qed.

Lemma same_swap m n i j : same m n -> out_rel same (swap_rows m i j) (swap_rows n i j).
Proof.
  intros H. unfold swap_rows. rewrite (same_shape m n H). apply foldM_rel; [exact H|].
  clear m n H. intros c m n H. rewrite (same_index m n (i, c) H), (same_index m n (j, c) H).
  destruct (index n (i, c)); cbn; try exact I. destruct (index n (j, c)); cbn; try exact I.
  eapply bind_rel; [unfold index_set; apply same_upd, H|]. intros x y Hab. unfold index_set. now apply same_upd.
Qed.

Definition same_ac (x : M * nat) (y : N * nat) : Prop := same x.1 y.1 /\ x.2 = y.2.
Definition same_res {E} (x : result E (M * nat)) (y : result E (N * nat)) : Prop :=
  match x, y with Ok a, Ok b => same_ac a b | Err e, Err f => e = f | _, _ => False end.

Lemma mapM_ext {B C} (f g : B -> out C) l : (forall b, f b = g b) -> mapM_out f l = mapM_out g l.
Proof. intros H. induction l as [|b l IH]; [reflexivity|]. cbn. rewrite H, IH. reflexivity. Qed.

Lemma same_col k i x y : same_ac x y -> out_rel same_res (det_col k i x) (det_col k i y).
Proof.
  intros [H Hc]. unfold det_col. rewrite (mapM_ext _ (fun k => v ← index y.1 (k, i); Ret (k, sabs v))) by
    (intros b; now rewrite (same_index _ _ _ H)).
  destruct (mapM_out _ _) as [cands| | |]; cbn [mbind out_bind]; try exact I.
  destruct (max_by _ _) as [[[mi ma]|]| | |]; cbn [mbind out_bind]; try exact I; [|reflexivity].
  destruct (sltb ma small_num); [reflexivity|].
  apply (bind_rel same_ac).
  { destruct (negb (mi =? i)); [|split; assumption].
    apply (bind_rel same); [now apply same_swap|]. intros a b Hab. split; [exact Hab|]. cbn. now rewrite Hc. }
  clear x y H Hc. intros x y [H Hc]. apply (bind_rel same).
  { apply foldM_rel; [exact H|]. clear x y H Hc. intros j m n H. rewrite (same_index m n _ H).
    destruct (index n (i, i)) as [d| | |]; cbn [mbind out_bind]; try exact I.
    apply (bind_rel same); [now apply same_upd|]. clear m n H. intros m n H. apply foldM_rel; [exact H|].
    clear m n H. intros l m n H. rewrite (same_index m n (j, i) H), (same_index m n (i, l) H).
    destruct (index n (j, i)); cbn [mbind out_bind]; try exact I. destruct (index n (i, l)); cbn [mbind out_bind]; try exact I.
    now apply same_upd. }
  intros a b Hab. split; [exact Hab|exact Hc].
Qed.

Lemma same_det m n : same m n -> determinant m = determinant n.
Proof.
  intros H. unfold determinant. rewrite (same_shape m n H), !(same_index m n _ H). destruct (decide _); [reflexivity|].
  unfold det_lu_pivot. rewrite (same_shape m n H). destruct (negb _); [reflexivity|].
  eapply (bind_eq same_res).
  - apply foldM_rel; [split; [exact H|reflexivity]|]. intros i x y Hxy. destruct x, y; try contradiction; [|cbn in *; assumption].
    now apply same_col.
  - intros x y Hxy. destruct x as [a|e], y as [b|f]; try contradiction; [|cbn in Hxy; now subst].
    destruct Hxy as [Hab Hc]. rewrite (same_diag _ _ Hab), Hc. reflexivity.
Qed.
End det_rel.

Section const.
Context {A : arith}.

(** a fixed-size array and the dense matrix with the same rows *)
Lemma const_same n (d : list A) : length d = n * n ->
  same (MM := cm_like (n * n)) (MN := lm_like) (cm_wf (n * n)) lm_wf (CM n n d) (LM n n true d).
Proof.
  intros Hl. assert (W : lm_wf (LM n n true d)) by (red; cbn; lia).
  assert (W' : cm_wf (n * n) (CM n n d)) by (red; cbn; lia).
  split; [exact W'|]. split; [exact W|]. split; [reflexivity|]. intros r c.
  destruct (decide (r < n /\ c < n)) as [[Hr Hc]|Hn].
  - unfold el. cbn. unfold cm_get, lm_get, cm_pos, lm_pos. cbn.
    rewrite (proj2 (Nat.leb_gt n r)), (proj2 (Nat.leb_gt n c)) by assumption. cbn.
    assert (n * r + c < length d) as Hi by nia. unfold idx, get_unchecked, unwrap. 
    destruct (lookup_lt_is_Some_2 d _ Hi) as [x ->]. reflexivity.
  - rewrite (el_out (ML := cm_like (n * n)) _ _ (cm_laws (n * n))) by (try exact W'; cbn; lia).
    rewrite (el_out _ _ lm_laws) by (try exact W; cbn; lia). reflexivity.
Qed.
End const.
