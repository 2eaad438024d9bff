(** The scalar instance of exact rationals: axiom-free and executable. *)
From Verif Require Import Scalar.
From Coq Require Import ZArith QArith Qcanon.

Definition Qc_ltb (x y : Qc) : bool := match Qccompare x y with Lt => true | _ => false end.
Definition Qc_eqb (x y : Qc) : bool := Qc_eq_bool x y.

(** Canonical fractions whose canonicity proof computes to [eq_refl], so that computed
    values stay small. *)
Definition Q_dec (x y : Q) : {x = y} + {x <> y}.
Proof. decide equality; [apply Pos.eq_dec|apply Z.eq_dec]. Defined.
Definition qmk (q : Q) : Qc :=
  Qcmake (Qred q) match Q_dec (Qred (Qred q)) (Qred q) with
                  | left e => e
                  | right n => False_ind _ (n (Qred_involutive q))
                  end.
Lemma qmk_eq q : qmk q = Q2Qc q.
Proof. apply Qc_is_canon. reflexivity. Qed.

(** exact on squares of rationals, otherwise a lower approximation *)
Definition Qc_sqrt (x : Qc) : Qc := qmk (Z.sqrt (Qnum x) # Pos.sqrt (Qden x)).

(** sqrt exact on rational squares; cos/sin replaced by the constant rational
    rotation (3/5,4/5) *)
Definition Qc_arith : arith :=
  {| carrier := Qc; s0 := qmk 0; s1 := qmk 1;
     sadd := fun x y => qmk (x + y); ssub := fun x y => qmk (x - y);
     smul := fun x y => qmk (x * y); sdiv := fun x y => qmk (x / y); sneg := fun x => qmk (- x);
     sabs := fun x => if Qc_ltb x (qmk 0) then qmk (- x) else x;
     ssqrt := Qc_sqrt; scos := fun _ => qmk (3 # 5); ssin := fun _ => qmk (4 # 5);
     seqb := Qc_eqb; sltb := Qc_ltb |}.

Lemma Qc_field_laws : field_laws Qc_arith.
Proof.
  constructor.
  - cbn. constructor; [constructor| | |]; intros;
      try (apply Qc_is_canon; cbn; rewrite ?Qred_correct; ring).
    + discriminate.
    + apply Qc_is_canon. cbn. rewrite ?Qred_correct. unfold Qdiv. ring.
    + apply Qc_is_canon. cbn. rewrite ?Qred_correct. unfold Qdiv. rewrite Qmult_1_l, Qmult_comm.
      apply Qmult_inv_r. intros E. apply H, Qc_is_canon. exact E.
  - intros x y; simpl. unfold Qc_eqb. split; [apply Qc_eq_bool_correct|].
    intros ->. unfold Qc_eq_bool. now destruct (Qc_eq_dec y y).
Qed.

Lemma Qc_ltb_iff (x y : Qc) : Qc_ltb x y = true <-> (x < y)%Qc.
Proof.
  unfold Qc_ltb. rewrite Qclt_alt. destruct (x ?= y)%Qc; split; congruence.
Qed.

Lemma Qc_ord_laws : ord_laws Qc_arith.
Proof.
  constructor; simpl.
  - exact Qc_field_laws.
  - intros x. apply not_true_iff_false. rewrite Qc_ltb_iff. intros H.
    exact (Qclt_not_eq x x H eq_refl).
  - intros x y z. rewrite !Qc_ltb_iff. apply Qclt_trans.
  - intros x y. rewrite !Qc_ltb_iff. destruct (Qc_dec x y) as [[H|H]|H]; auto.
  - intros x y z. rewrite !Qc_ltb_iff. unfold Qclt, Qcplus. intros H.
    simpl. rewrite !Qred_correct.
    apply Qplus_lt_l. exact H.
  - intros x y. rewrite !Qc_ltb_iff. unfold Qclt, Qcmult. simpl. intros Hx Hy.
    rewrite (Qred_correct (x * y)). apply Qmult_lt_0_compat; assumption.
  - reflexivity.
Qed.

(** shorthand for writing rational literals in examples *)
Definition qc (n : Z) : Qc_arith := qmk (inject_Z n).
Definition qcd (n : Z) (d : positive) : Qc_arith := qmk (n # d).

(** Equality of computed rationals: compare numerators and denominators. *)
Lemma qc_eq (x y : Qc_arith) : this x = this y -> x = y.
Proof. intros H. apply Qc_is_canon. rewrite H. reflexivity. Qed.
Lemma qc_list_eq (x y : list Qc_arith) : map this x = map this y -> x = y.
Proof.
  revert y; induction x as [|a x IH]; intros [|b y] H; try discriminate; [reflexivity|].
  cbn in H. injection H as H1 H2. f_equal; [|now apply IH]. now apply Qc_is_canon; rewrite H1.
Qed.
Lemma qc_ret_eq (x y : out Qc_arith) : (a ← x; Ret (this a)) = (a ← y; Ret (this a)) -> x = y.
Proof.
  destruct x, y; cbn; try congruence. intros [= H]. f_equal. now apply qc_eq.
Qed.
Lemma qc_ret_list_eq (x y : out (list Qc_arith)) :
  (a ← x; Ret (map this a)) = (a ← y; Ret (map this a)) -> x = y.
Proof.
  destruct x, y; cbn; try congruence. intros [= H]. f_equal. now apply qc_list_eq.
Qed.
(** Run the left-hand side on the virtual machine.  [vm_compute] on the whole goal would
    also normalise the record of operations inside the types. *)
Ltac vm_refl :=
  match goal with
  | |- @eq ?T ?e ?r =>
    tryif has_evar r
    then (let v := eval vm_compute in e in unify r v; vm_cast_no_check (@eq_refl T v))
    else vm_cast_no_check (@eq_refl T r)
  end.
(** name the result [m] of running [e], with the equation [E : e = Ret m] *)
Ltac vm_run e m E :=
  let v := eval vm_compute in e in
  let T := type of e in
  assert (E : e = v) by (vm_cast_no_check (@eq_refl T v));
  match type of E with _ = Ret ?x => set (m := x) in E end.
(** solve a goal [computed = literal] over the rationals *)
Ltac qc_compute := vm_refl.
Lemma qc_neq (x y : Qc_arith) : seqb x y = false -> x <> y.
Proof. intros H E. apply (fl_eqb _ Qc_field_laws) in E. congruence. Qed.
