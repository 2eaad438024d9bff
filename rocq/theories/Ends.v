(** Computations that do not run out of steps, whatever the arithmetic. *)
From Verif Require Export PredProofs.

Definition ends {X} (m : out X) : Prop := m <> Fuel.
Lemma ends_ret {X} (x : X) : ends (Ret x).
Proof. discriminate. Qed.
Lemma ends_panic {X} : ends (@Panic X).
Proof. discriminate. Qed.
Lemma ends_bind {X Y} (m : out X) (f : X -> out Y) : ends m -> (forall x, m = Ret x -> ends (f x)) -> ends (m ≫= f).
Proof. unfold ends. destruct m; cbn; auto; discriminate. Qed.
Lemma ends_unwrap {X} (o : option X) : ends (unwrap o).
Proof. destruct o; discriminate. Qed.
Lemma ends_assert b : ends (assert_ b).
Proof. destruct b; discriminate. Qed.
Lemma ends_foldM {X S} (f : X -> S -> out S) l : (forall x s, x ∈ l -> ends (f x s)) -> forall s, ends (foldM f l s).
Proof.
  induction l as [|x l IH]; intros H s; cbn [foldM]; [apply ends_ret|]. apply ends_bind; [apply H; left|]. intros s' _. apply IH. intros y t Hy. apply H. now right.
Qed.
Lemma ends_mapM {X Y} (f : X -> out Y) l : (forall x, x ∈ l -> ends (f x)) -> ends (mapM_out f l).
Proof.
  induction l as [|x l IH]; intros H; cbn [mapM_out]; [apply ends_ret|]. apply ends_bind; [apply H; left|]. intros y _.
  apply ends_bind; [apply IH; intros z Hz; apply H; now right|]. intros ys _. apply ends_ret.
Qed.

Ltac ends1 :=
  match goal with
  | |- ends (Ret _) => apply ends_ret
  | |- ends Panic => apply ends_panic
  | |- ends (unwrap _) => apply ends_unwrap
  | |- ends (assert_ _) => apply ends_assert
  | |- ends (mbind _ _) => apply ends_bind; [|intros ? _]
  | |- ends (foldM _ _ _) => apply ends_foldM; intros ? ? _
  | |- ends (mapM_out _ _) => apply ends_mapM; intros ? _
  | |- ends (match ?x with _ => _ end) => destruct x
  end.
Ltac ends := repeat ends1.

Section const.
Context {A : arith} (k : nat).
Local Instance L : MatrixLike A (cm A) := cm_like k.
Lemma cm_get_ends (m : cm A) loc : ends (mget m loc).
Proof. cbn [mget cm_like L]. unfold cm_get, idx. ends. Qed.
Lemma cm_index_ends (m : cm A) loc : ends (index m loc).
Proof. unfold index. apply ends_bind; [apply cm_get_ends|intros; ends]. Qed.
Lemma cm_upd_ends (m : cm A) loc f : ends (index_upd m loc f).
Proof. unfold index_upd. cbn [mmut cm_like L]. unfold cm_mut, idx. ends. Qed.
Lemma diag_ends (m : cm A) : ends (diag m).
Proof.
  unfold diag. cbn [mshape cm_like L fst snd].
  assert (G : forall fuel p, 0 < fuel -> p + fuel = S (cm_r m `min` cm_c m) -> ends (iter_while (fun p => mget m (p, p)) fuel p)).
  { induction fuel as [|fuel IH]; intros p H0 Hp; [lia|]. cbn [iter_while]. apply ends_bind; [apply cm_get_ends|].
    intros [x|] Hx; [|ends]. apply ends_bind; [|intros; ends]. apply IH; [|lia].
    destruct fuel; [|lia]. exfalso. revert Hx. cbn [mget cm_like L]. unfold cm_get, cm_pos. cbn [fst snd].
    rewrite (proj2 (orb_true_iff _ _)); [discriminate|]. rewrite !Nat.leb_le. lia. }
  apply G; lia.
Qed.
Lemma det_col_ends n i (ac : cm A * nat) : ends (det_col n i ac).
Proof.
  unfold det_col, max_by, cmp_unwrap, swap_rows, index_set. ends; first [apply cm_index_ends|apply cm_upd_ends].
Qed.
Lemma determinant_ends (m : cm A) : ends (determinant m).
Proof.
  unfold determinant, det_lu_pivot. ends; first [apply cm_index_ends|apply det_col_ends|apply diag_ends].
Qed.
End const.

Lemma const_det_ends {A : arith} n (rows : list (list A)) : ends (const_det n rows).
Proof. unfold const_det, cm_from_flat_array. apply ends_bind; [ends|]. intros m _. apply determinant_ends. Qed.
Lemma pt_idx_ends {A : arith} (p : point A) i : ends (pt_idx p i).
Proof. unfold pt_idx. ends. Qed.
Lemma in_circle_ends {A : arith} (p a b c : point A) : ends (in_circle p a b c).
Proof.
  unfold in_circle, row_circle. apply ends_bind; [ends; apply pt_idx_ends|]. intros rows _. apply ends_bind; [apply const_det_ends|]. intros r _. ends.
Qed.
