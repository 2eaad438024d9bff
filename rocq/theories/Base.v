(** Base definitions shared by the whole model.

    [out] is the result of running a piece of Rust code:
      - [Ret a]  : normal return,
      - [Panic]  : the code panics (explicit panic!, failed assert!, unwrap on
                   None, slice index out of bounds, usize underflow in a build
                   with overflow checks),
      - [UB]     : the code performs an out-of-bounds access through
                   [get_unchecked] / [get_unchecked_mut] (undefined behaviour),
      - [Fuel]   : the model's step bound was exhausted (only for loops whose
                   termination is not structural; never a normal answer). *)
From stdpp Require Export prelude list gmap sorting.
From Coq Require Export ZifyBool ZifyNat Lia.

Global Arguments Nat.div : simpl never.
Global Arguments Nat.modulo : simpl never.
Global Arguments Nat.ltb : simpl never.
Global Arguments Nat.leb : simpl never.
Global Arguments Nat.eqb : simpl never.

Inductive out (A : Type) : Type :=
| Ret (a : A)
| Panic
| UB
| Fuel.
Global Arguments Ret {A} _.
Global Arguments Panic {A}.
Global Arguments UB {A}.
Global Arguments Fuel {A}.

Global Instance out_ret : MRet out := fun A a => Ret a.
Global Instance out_bind : MBind out := fun A B f m =>
  match m with Ret a => f a | Panic => Panic | UB => UB | Fuel => Fuel end.
Global Instance out_fmap : FMap out := fun A B f m =>
  match m with Ret a => Ret (f a) | Panic => Panic | UB => UB | Fuel => Fuel end.

(** [assert b] : Rust's assert!/explicit panic on a failed check. *)
Definition assert_ (b : bool) : out unit := if b then Ret tt else Panic.

(** [unwrap o] : Option::unwrap / expect. *)
Definition unwrap {A} (o : option A) : out A :=
  match o with Some a => Ret a | None => Panic end.

(** [l.get_unchecked(i)]: undefined behaviour when out of range. *)
Definition get_unchecked {A} (l : list A) (i : nat) : out A :=
  match l !! i with Some a => Ret a | None => UB end.

(** [*l.get_unchecked_mut(i) = f(old)]. *)
Definition upd_unchecked {A} (l : list A) (i : nat) (f : A -> A) : out (list A) :=
  match l !! i with Some a => Ret (<[i := f a]> l) | None => UB end.

(** [l[i]] on a slice or Vec: panics when out of range. *)
Definition idx {A} (l : list A) (i : nat) : out A := unwrap (l !! i).

(** [l[i] = v] on a slice or Vec: panics when out of range. *)
Definition set {A} (l : list A) (i : nat) (v : A) : out (list A) :=
  match l !! i with Some _ => Ret (<[i := v]> l) | None => Panic end.

(** usize subtraction with overflow checks. *)
Definition usub (a b : nat) : out nat := if decide (b <= a) then Ret (a - b) else Panic.

(** [for x in l { s = body(x, s)? }] *)
Fixpoint foldM {A S} (f : A -> S -> out S) (l : list A) (s : S) : out S :=
  match l with
  | [] => Ret s
  | x :: l' => s' ← f x s; foldM f l' s'
  end.

(** collecting iterator adaptor: [l.iter().map(f).collect()] *)
Fixpoint mapM_out {A B} (f : A -> out B) (l : list A) : out (list B) :=
  match l with
  | [] => Ret []
  | x :: l' => y ← f x; ys ← mapM_out f l'; Ret (y :: ys)
  end.

(** the Rust range a..b *)
Definition range (a b : nat) : list nat := seq a (b - a).

(** ** Reasoning principles *)

Lemma bind_ret {A B} (a : A) (f : A -> out B) : (Ret a ≫= f) = f a.
Proof. reflexivity. Qed.

Lemma bind_ret_inv {A B} (m : out A) (f : A -> out B) b :
  (m ≫= f) = Ret b -> exists a, m = Ret a /\ f a = Ret b.
Proof. destruct m; simpl; try discriminate. eauto. Qed.

Lemma foldM_app {A S} (f : A -> S -> out S) l1 l2 s :
  foldM f (l1 ++ l2) s = (foldM f l1 s ≫= foldM f l2).
Proof.
  revert s; induction l1 as [|x l1 IH]; intros s; [reflexivity|].
  cbn [foldM app]. destruct (f x s); [|reflexivity..]. cbn [mbind out_bind].
  apply IH.
Qed.

Lemma seq_S_app a n : seq a (S n) = seq a n ++ [a + n].
Proof. revert a; induction n as [|n IH]; intros a; [simpl; f_equal; lia|].
  change (seq a (S (S n))) with (a :: seq (S a) (S n)). rewrite IH. simpl. repeat f_equal; lia. Qed.

(** Loop rule for [for i in a..a+n]: an invariant carried from index to index. *)
Lemma foldM_seq_inv {S} (P : nat -> S -> Prop) (f : nat -> S -> out S) a n s :
  P a s ->
  (forall i s, a <= i < a + n -> P i s -> exists s', f i s = Ret s' /\ P (Datatypes.S i) s') ->
  exists s', foldM f (seq a n) s = Ret s' /\ P (a + n) s'.
Proof.
  revert a s; induction n as [|n IH]; intros a s H0 Hstep; cbn [seq foldM].
  - exists s; split; [reflexivity|]. now rewrite Nat.add_0_r.
  - destruct (Hstep a s) as (s1 & E1 & H1); [lia|exact H0|]. rewrite E1. cbn [mbind out_bind].
    destruct (IH (Datatypes.S a) s1) as (s' & E' & H'); [exact H1| |].
    + intros i s2 Hi; apply Hstep; lia.
    + exists s'; split; [exact E'|]. now replace (a + Datatypes.S n) with (Datatypes.S a + n) by lia.
Qed.

Lemma foldM_range_inv {S} (P : nat -> S -> Prop) (f : nat -> S -> out S) a b s :
  a <= b ->
  P a s ->
  (forall i s, a <= i < b -> P i s -> exists s', f i s = Ret s' /\ P (Datatypes.S i) s') ->
  exists s', foldM f (range a b) s = Ret s' /\ P b s'.
Proof.
  intros Hab H0 Hs. unfold range.
  destruct (foldM_seq_inv P f a (b - a) s) as (s' & E & H); [exact H0| |].
  - intros i s1 Hi; apply Hs; lia.
  - exists s'; split; [exact E|]. now replace b with (a + (b - a)) by lia.
Qed.

(** Loop rule over an arbitrary list, invariant indexed by the consumed prefix. *)
Lemma foldM_list_inv {A S} (P : list A -> S -> Prop) (f : A -> S -> out S) l s :
  P [] s ->
  (forall pre x post s, l = pre ++ x :: post -> P pre s ->
     exists s', f x s = Ret s' /\ P (pre ++ [x]) s') ->
  exists s', foldM f l s = Ret s' /\ P l s'.
Proof.
  intros H0 Hs.
  assert (G : forall post pre s, l = pre ++ post -> P pre s ->
             exists s', foldM f post s = Ret s' /\ P l s').
  { induction post as [|x post IH]; intros pre s1 El HP.
    - exists s1; split; [reflexivity|]. rewrite app_nil_r in El. now subst.
    - destruct (Hs pre x post s1 El HP) as (s2 & E2 & H2). cbn [foldM]. rewrite E2.
      cbn [mbind out_bind]. apply (IH (pre ++ [x]) s2); [|exact H2].
      rewrite <- app_assoc. exact El. }
  apply (G l []); [reflexivity|exact H0].
Qed.

Lemma mapM_out_Ret {A B} (f : A -> out B) (g : A -> B) l :
  (forall x, x ∈ l -> f x = Ret (g x)) -> mapM_out f l = Ret (map g l).
Proof.
  induction l as [|x l IH]; intros H; [reflexivity|].
  cbn [mapM_out map]. rewrite H by (left). cbn [mbind out_bind].
  rewrite IH; [reflexivity|]. intros y Hy; apply H; now right.
Qed.

Lemma idx_lookup {A} (l : list A) i a : l !! i = Some a -> idx l i = Ret a.
Proof. unfold idx. now intros ->. Qed.

Lemma set_lookup {A} (l : list A) i v : i < length l -> set l i v = Ret (<[i:=v]> l).
Proof. intros H. unfold set. destruct (lookup_lt_is_Some_2 l i H) as [x ->]. reflexivity. Qed.

Lemma usub_ret a b : b <= a -> usub a b = Ret (a - b).
Proof. intros H. unfold usub. rewrite decide_True by lia. reflexivity. Qed.
