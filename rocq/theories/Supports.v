(** Supports: the reduction of loads and matrices and the expansion of displacements. *)
From stdpp Require Import sorting.
From Verif Require Export ElemMore.

(** ** selecting entries *)
Lemma kept_cons b mask : kept (b :: mask) = (if b then [0] else []) ++ map S (kept mask).
Proof.
  assert (G : forall (f : nat -> bool) l, List.filter f (map S l) = map S (List.filter (fun i => f (S i)) l)).
  { intros f. induction l as [|x l IH]; [reflexivity|]. cbn [map List.filter]. destruct (f (S x)); cbn [map]; now rewrite IH. }
  unfold kept. cbn [length seq]. rewrite <- seq_shift.
  change (0 :: map S (seq 0 (length mask))) with ([0] ++ map S (seq 0 (length mask))).
  rewrite List.filter_app, G. now destruct b.
Qed.

Lemma kept_bound mask i : i ∈ kept mask <-> mask !! i = Some true.
Proof.
  unfold kept. rewrite elem_of_list_In, filter_In, in_seq. split.
  - intros [Hi Hn]. destruct (lookup_lt_is_Some_2 mask i ltac:(lia)) as [v E]. rewrite E. f_equal.
    rewrite <- Hn. symmetry. now apply nth_lookup_Some.
  - intros E. split; [pose proof (lookup_lt_Some _ _ _ E); lia|]. now apply nth_lookup_Some.
Qed.

Section unmask.
Context {A : arith}.

Lemma mask_map (mask : list bool) (xs : list A) : length mask = length xs ->
  map snd (List.filter fst (zip mask xs)) = map (vel xs) (kept mask).
Proof.
  revert xs; induction mask as [|b mask IH]; intros [|x xs] Hl; try discriminate; [reflexivity|].
  rewrite kept_cons, map_app, map_map. cbn [zip zip_with List.filter fst]. injection Hl as Hl.
  change (map (fun x0 => vel (x :: xs) (S x0)) (kept mask)) with (map (vel xs) (kept mask)).
  destruct b; cbn [map snd app]; rewrite <- IH by exact Hl; reflexivity.
Qed.

Lemma unmask_length mask : forall (xs u : list A), unmask mask xs = Ret u -> length u = length mask.
Proof.
  induction mask as [|[] mask IH]; intros xs u; cbn [unmask].
  - now injection 1 as <-.
  - destruct xs as [|x xs]; [discriminate|]. intros E. apply bind_ret_inv in E as (l & E & E').
    injection E' as <-. cbn. f_equal. eauto.
  - intros E. apply bind_ret_inv in E as (l & E & E'). injection E' as <-. cbn. f_equal. eauto.
Qed.

Lemma unmask_ret mask : forall (xs : list A), length (kept mask) <= length xs -> exists u, unmask mask xs = Ret u.
Proof.
  induction mask as [|[] mask IH]; intros xs; rewrite ?kept_cons; cbn [unmask app length]; rewrite ?map_length; intros Hl.
  - eauto.
  - destruct xs as [|x xs]; [cbn in Hl; lia|]. destruct (IH xs) as (u & ->); [cbn in Hl; lia|]. cbn. eauto.
  - destruct (IH xs Hl) as (u & ->). cbn. eauto.
Qed.

(** kept entries are read in order, the others are zero *)
Lemma unmask_vel mask : forall (xs u : list A), unmask mask xs = Ret u ->
  (forall k i, kept mask !! k = Some i -> vel u i = vel xs k) /\
  (forall i, mask !! i = Some false -> vel u i = s0).
Proof.
  induction mask as [|b mask IH]; intros xs u; cbn [unmask].
  - injection 1 as <-. split; [intros k i H; discriminate|intros i H; discriminate].
  - intros E. rewrite kept_cons. destruct b.
    + destruct xs as [|x xs]; [discriminate|]. apply bind_ret_inv in E as (l & E & E'). injection E' as <-.
      destruct (IH xs l E) as [H1 H2]. split.
      * intros [|k] i Hk; [injection Hk as <-; reflexivity|].
        change (map S (kept mask) !! k = Some i) in Hk. rewrite list_lookup_fmap in Hk. destruct (kept mask !! k) as [j|] eqn:Ek; [|discriminate].
        injection Hk as <-. exact (H1 k j Ek).
      * intros [|i] Hi; [discriminate|]. exact (H2 i Hi).
    + apply bind_ret_inv in E as (l & E & E'). injection E' as <-.
      destruct (IH xs l E) as [H1 H2]. split.
      * intros k i Hk. cbn [app] in Hk. rewrite list_lookup_fmap in Hk. destruct (kept mask !! k) as [j|] eqn:Ek; [|discriminate].
        injection Hk as <-. exact (H1 k j Ek).
      * intros [|i] Hi; [reflexivity|]. exact (H2 i Hi).
Qed.
End unmask.

Section unmask_sum.
Context {A : arith} (FL : field_laws A).
Add Field Afield40 : (fl_field A FL).
Local Open Scope arith_scope.

Lemma bigsum_first n (f : nat -> A) : bigsum (S n) f = f 0%nat + bigsum n (fun i => f (S i)).
Proof. change (S n) with (1 + n)%nat. rewrite (bigsum_app FL 1 n f). cbn. ring. Qed.

Lemma unmask_sum mask : forall (xs u : list A) (g : nat -> A), unmask mask xs = Ret u ->
  bigsum (length mask) (fun j => vel u j * g j) =
  bigsum (length (kept mask)) (fun i => vel xs i * g (nth i (kept mask) 0%nat)).
Proof.
  induction mask as [|b mask IH]; intros xs u g; cbn [unmask].
  - reflexivity.
  - intros E. rewrite kept_cons.
    assert (Hn : forall n i, nth i (map S (kept mask)) n = S (nth i (kept mask) (pred n)) \/ (length (kept mask) <= i)%nat).
    { intros n i. destruct (decide (i < length (kept mask))%nat) as [Hi|Hi]; [left|right; lia].
      rewrite (nth_indep _ _ (S (pred n))) by now rewrite map_length. now rewrite map_nth. }
    cbn [length]. rewrite bigsum_first. destruct b.
    + destruct xs as [|x xs]; [discriminate|]. apply bind_ret_inv in E as (l & E & E'). injection E' as <-.
      cbn [app length]. rewrite map_length, bigsum_first. cbn [nth]. f_equal.
      etransitivity; [exact (IH xs l (fun j => g (S j)) E)|]. apply bigsum_ext. intros i Hi.
      change (vel (x :: xs) (S i)) with (vel xs i). f_equal. destruct (Hn 0%nat i) as [->|]; [reflexivity|lia].
    + apply bind_ret_inv in E as (l & E & E'). injection E' as <-. cbn [app]. rewrite map_length.
      change (vel (0 :: l) 0) with (0 : A). replace (0 * g 0%nat) with (0 : A) by ring.
      transitivity (bigsum (length mask) (fun j => vel l j * g (S j))); [|].
      * transitivity (0 + bigsum (length mask) (fun j => vel l j * g (S j))); [reflexivity|ring].
      * rewrite (IH xs l (fun j => g (S j)) E). apply bigsum_ext. intros i Hi. f_equal.
        destruct (Hn 0%nat i) as [->|]; [reflexivity|lia].
Qed.
End unmask_sum.

(** ** the transform of a list of supports *)
Section transform.
Context {A : arith}.
Implicit Types cons : list (constr A).

(** which of a node's two unknowns survive *)
Definition free_x (c : constr A) : bool := match c with Free | YFixed => true | _ => false end.
Definition free_y (c : constr A) : bool := match c with Free | XFixed | AngleFixed _ => true | _ => false end.
Definition rot_at (i : nat) (c : constr A) : list (nat * nat * A) :=
  match c with AngleFixed theta => [(i * 2, i * 2 + 1, theta)] | _ => [] end.
Definition rots_of cons : list (nat * nat * A) := concat (imap rot_at cons).

Lemma rots_snoc cons c : rots_of (cons ++ [c]) = rots_of cons ++ rot_at (length cons) c.
Proof. unfold rots_of. rewrite imap_app, concat_app. cbn. now rewrite Nat.add_0_r, app_nil_r. Qed.

Definition fc_step (ic : nat * constr A) (t : dtr A) : out (dtr A) :=
    let '(i, con) := ic in
    match con with
    | Free => Ret t
    | XFixed => m ← set (dt_mask t) (i * 2) false; Ret (DTr m (dt_rots t))
    | YFixed => m ← set (dt_mask t) (i * 2 + 1) false; Ret (DTr m (dt_rots t))
    | XYFixed => m ← set (dt_mask t) (i * 2) false;
                 m ← set m (i * 2 + 1) false; Ret (DTr m (dt_rots t))
    | AngleFixed theta => m ← set (dt_mask t) (i * 2) false;
                          Ret (DTr m (dt_rots t ++ [(i * 2, i * 2 + 1, theta)]))
    end.

Lemma set_ret {B} (l : list B) i x : i < length l -> set l i x = Ret (<[i := x]> l).
Proof. intros H. unfold set. destruct (lookup_lt_is_Some_2 l i H) as [v ->]. reflexivity. Qed.

Definition fc_inv cons M (t : dtr A) : Prop :=
  length (dt_mask t) = M /\ dt_rots t = rots_of cons /\
  (forall i c, cons !! i = Some c -> dt_mask t !! (i * 2) = Some (free_x c) /\ dt_mask t !! (i * 2 + 1) = Some (free_y c)) /\
  (forall i, length cons * 2 <= i -> i < M -> dt_mask t !! i = Some true).

Lemma fc_fold cons M : length cons * 2 <= M ->
  exists t, foldM fc_step (imap pair cons) (DTr (replicate M true) []) = Ret t /\ fc_inv cons M t.
Proof.
  induction cons as [|c cons IH] using rev_ind; intros HM.
  - eexists. split; [reflexivity|]. split; [apply replicate_length|]. split; [reflexivity|].
    split; [intros i c H; discriminate|]. intros i _ Hi. now apply lookup_replicate_2.
  - rewrite app_length in HM. cbn in HM. destruct IH as (t & E & L & R & H1 & H2); [lia|].
    rewrite imap_app, foldM_app, E. cbn [mbind out_bind imap foldM].
    change (imap (pair ∘ Nat.add (length cons)) [c]) with [(length cons + 0, c)]. rewrite Nat.add_0_r.
    cbn [foldM]. set (n := length cons) in *.
    assert (Hx : dt_mask t !! (n * 2) = Some true) by (apply H2; lia).
    assert (Hy : dt_mask t !! (n * 2 + 1) = Some true) by (apply H2; lia).
    assert (G : forall m', length m' = M -> (forall i, i < n * 2 \/ n * 2 + 1 < i -> m' !! i = dt_mask t !! i) ->
       m' !! (n * 2) = Some (free_x c) -> m' !! (n * 2 + 1) = Some (free_y c) ->
       fc_inv (cons ++ [c]) M (DTr m' (dt_rots t ++ rot_at n c))).
    { intros m' L' Hm Hmx Hmy. split; [exact L'|]. split; [cbn; now rewrite R, rots_snoc|]. cbn. split.
      - intros i c' Hi. apply lookup_app_Some in Hi as [Hi|[Hi Hi']].
        + pose proof (lookup_lt_Some _ _ _ Hi). fold n in H. rewrite !Hm by lia. now apply H1.
        + apply list_lookup_singleton_Some in Hi' as [Hi' <-]. fold n in Hi, Hi'. replace i with n by lia. auto.
      - intros i Hi HiM. rewrite app_length in Hi. cbn in Hi. fold n in Hi. rewrite Hm by lia. apply H2; lia. }
    assert (Le : forall (m : list bool) k (v : bool), length (<[k:=v]> m) = length m) by (intros; apply insert_length).
    destruct c as [| | | |th]; cbn [fc_step].
    + eexists. split; [reflexivity|]. specialize (G (dt_mask t) L). rewrite app_nil_r in G. destruct t. now apply G.
    + rewrite set_ret by lia. cbn [mbind out_bind]. eexists. split; [reflexivity|].
      cbn in G. rewrite app_nil_r in G. apply G.
      * now rewrite Le.
      * intros i Hi. now rewrite list_lookup_insert_ne by lia.
      * now rewrite list_lookup_insert by lia.
      * now rewrite list_lookup_insert_ne by lia.
    + rewrite set_ret by lia. cbn [mbind out_bind]. eexists. split; [reflexivity|].
      cbn in G. rewrite app_nil_r in G. apply G.
      * now rewrite Le.
      * intros i Hi. now rewrite list_lookup_insert_ne by lia.
      * now rewrite list_lookup_insert_ne by lia.
      * now rewrite list_lookup_insert by lia.
    + rewrite set_ret by lia. cbn [mbind out_bind]. rewrite set_ret by (rewrite Le; lia). cbn [mbind out_bind].
      eexists. split; [reflexivity|].
      cbn in G. rewrite app_nil_r in G. apply G.
      * now rewrite !Le.
      * intros i Hi. now rewrite !list_lookup_insert_ne by lia.
      * rewrite list_lookup_insert_ne by lia. now rewrite list_lookup_insert by lia.
      * now rewrite list_lookup_insert by (rewrite Le; lia).
    + rewrite set_ret by lia. cbn [mbind out_bind]. eexists. split; [reflexivity|]. apply G.
      * now rewrite Le.
      * intros i Hi. now rewrite list_lookup_insert_ne by lia.
      * now rewrite list_lookup_insert by lia.
      * now rewrite list_lookup_insert_ne by lia.
Qed.

Lemma from_constraints_ret cons : exists t, from_constraints cons = Ret t /\ fc_inv cons (length cons * 2) t.
Proof. exact (fc_fold cons _ (le_n _)). Qed.

(** ** rotating vectors *)
Definition ang cons (n : nat) : option A :=
  match cons !! n with Some (AngleFixed theta) => Some theta | _ => None end.

Local Open Scope arith_scope.
Definition ub_step (abt : nat * nat * A) (xs : list A) : out (list A) :=
    let '(a, b, theta) := abt in
    u ← idx xs a; v ← idx xs b;
    xs ← set xs a (0 + scos theta * u - ssin theta * v);
    set xs b (0 + ssin theta * u + scos theta * v).
Definition bv_step (abt : nat * nat * A) (xs : list A) : out (list A) :=
    let '(a, b, theta) := abt in
    u ← idx xs a; v ← idx xs b;
    xs ← set xs a (0 + scos theta * u + ssin theta * v);
    set xs b (0 - ssin theta * u + scos theta * v).

(** both loops rewrite the two entries of every angled node *)
Lemma rot_fold (step : nat * nat * A -> list A -> out (list A)) (fx fy : A -> A -> A -> A) cons :
  (forall a b th xs, (a < b)%nat -> (b < length xs)%nat ->
     step (a, b, th) xs = Ret (<[b := fy th (vel xs a) (vel xs b)]> (<[a := fx th (vel xs a) (vel xs b)]> xs))) ->
  forall xs, (length cons * 2 <= length xs)%nat ->
  exists ys, foldM step (rots_of cons) xs = Ret ys /\ length ys = length xs /\
    (forall n, (n < length cons)%nat ->
       match ang cons n with
       | Some th => vel ys (n * 2) = fx th (vel xs (n * 2)) (vel xs (n * 2 + 1)) /\
                    vel ys (n * 2 + 1) = fy th (vel xs (n * 2)) (vel xs (n * 2 + 1))
       | None => vel ys (n * 2) = vel xs (n * 2) /\ vel ys (n * 2 + 1) = vel xs (n * 2 + 1)
       end) /\
    (forall i, (length cons * 2 <= i)%nat -> vel ys i = vel xs i).
Proof.
  intros Hs. induction cons as [|c cons IH] using rev_ind; intros xs Hl.
  - exists xs. split; [reflexivity|]. split; [reflexivity|]. split; [cbn; lia|reflexivity].
  - rewrite app_length in Hl. cbn in Hl. destruct (IH xs ltac:(lia)) as (ys & E & L & V1 & V2).
    rewrite rots_snoc, foldM_app, E. cbn [mbind out_bind]. set (n := length cons) in *.
    assert (Ha : forall k, (k < n)%nat -> ang (cons ++ [c]) k = ang cons k)
      by (intros k Hk; unfold ang; now rewrite lookup_app_l).
    assert (Hn : ang (cons ++ [c]) n = match c with AngleFixed th => Some th | _ => None end).
    { unfold ang. rewrite lookup_app_r by reflexivity. unfold n. rewrite Nat.sub_diag. reflexivity. }
    assert (D : rot_at n c = [] -> exists zs, foldM step (rot_at n c) ys = Ret zs /\ length zs = length xs /\
      (forall k, (k < length (cons ++ [c]))%nat ->
       match ang (cons ++ [c]) k with
       | Some th => vel zs (k * 2) = fx th (vel xs (k * 2)) (vel xs (k * 2 + 1)) /\
                    vel zs (k * 2 + 1) = fy th (vel xs (k * 2)) (vel xs (k * 2 + 1))
       | None => vel zs (k * 2) = vel xs (k * 2) /\ vel zs (k * 2 + 1) = vel xs (k * 2 + 1)
       end) /\ (forall i, (length (cons ++ [c]) * 2 <= i)%nat -> vel zs i = vel xs i)).
    { intros Er. rewrite Er. exists ys. split; [reflexivity|]. split; [exact L|]. split.
      - intros k Hk. rewrite app_length in Hk. cbn in Hk. fold n in Hk.
        destruct (decide (k = n)) as [->|Hkn].
        + rewrite Hn. destruct c; try discriminate; split; apply V2; lia.
        + rewrite Ha by lia. apply V1. lia.
      - intros i Hi. rewrite app_length in Hi. cbn in Hi. fold n in Hi. apply V2. lia. }
    destruct c as [| | | |th]; try (apply D; reflexivity). clear D.
    cbn [rot_at foldM]. rewrite Hs by lia. cbn [mbind out_bind].
    eexists. split; [reflexivity|]. split; [now rewrite !insert_length|].
    assert (Vz : forall i, vel (<[(n * 2 + 1)%nat:=fy th (vel ys (n * 2)) (vel ys (n * 2 + 1))]>
        (<[(n * 2)%nat:=fx th (vel ys (n * 2)) (vel ys (n * 2 + 1))]> ys)) i =
       if (i =? n * 2 + 1)%nat then fy th (vel ys (n * 2)) (vel ys (n * 2 + 1)) else
       if (i =? n * 2)%nat then fx th (vel ys (n * 2)) (vel ys (n * 2 + 1)) else vel ys i).
    { intros i. rewrite vel_insert by (rewrite insert_length; lia). now rewrite vel_insert by lia. }
    rewrite (V2 (n * 2)%nat), (V2 (n * 2 + 1)%nat) in * by lia.
    split.
    + intros k Hk. rewrite app_length in Hk. cbn in Hk. fold n in Hk. rewrite !Vz.
      destruct (decide (k = n)) as [->|Hkn].
      * rewrite Hn, !Nat.eqb_refl. destruct (Nat.eqb_spec (n * 2) (n * 2 + 1)); [lia|auto].
      * rewrite Ha by lia.
        destruct (Nat.eqb_spec (k * 2) (n * 2 + 1)); [lia|]. destruct (Nat.eqb_spec (k * 2) (n * 2)); [lia|].
        destruct (Nat.eqb_spec (k * 2 + 1) (n * 2 + 1)); [lia|]. destruct (Nat.eqb_spec (k * 2 + 1) (n * 2)); [lia|].
        apply V1. lia.
    + intros i Hi. rewrite app_length in Hi. cbn in Hi. fold n in Hi. rewrite Vz.
      destruct (Nat.eqb_spec i (n * 2 + 1)); [lia|]. destruct (Nat.eqb_spec i (n * 2)); [lia|]. apply V2. lia.
Qed.

Lemma ub_step_ret (a b : nat) th (xs : list A) : (a < b)%nat -> (b < length xs)%nat ->
  ub_step (a, b, th) xs = Ret (<[b := 0 + ssin th * vel xs a + scos th * vel xs b]>
                              (<[a := 0 + scos th * vel xs a - ssin th * vel xs b]> xs)).
Proof.
  intros Hab Hb. unfold ub_step. rewrite !idx_vel by lia. cbn [mbind out_bind].
  rewrite set_ret by lia. cbn [mbind out_bind]. now rewrite set_ret by (rewrite insert_length; lia).
Qed.
Lemma bv_step_ret (a b : nat) th (xs : list A) : (a < b)%nat -> (b < length xs)%nat ->
  bv_step (a, b, th) xs = Ret (<[b := 0 - ssin th * vel xs a + scos th * vel xs b]>
                              (<[a := 0 + scos th * vel xs a + ssin th * vel xs b]> xs)).
Proof.
  intros Hab Hb. unfold bv_step. rewrite !idx_vel by lia. cbn [mbind out_bind].
  rewrite set_ret by lia. cbn [mbind out_bind]. now rewrite set_ret by (rewrite insert_length; lia).
Qed.

(** expanded vectors *)
Lemma unbar_ret cons t xs u0 : fc_inv cons (length cons * 2) t -> unmask_vec t xs = Ret u0 ->
  exists u, unbar_vec t xs = Ret u /\ length u = (length cons * 2)%nat /\
    forall n, (n < length cons)%nat ->
       match ang cons n with
       | Some th => vel u (n * 2) = 0 + scos th * vel u0 (n * 2) - ssin th * vel u0 (n * 2 + 1) /\
                    vel u (n * 2 + 1) = 0 + ssin th * vel u0 (n * 2) + scos th * vel u0 (n * 2 + 1)
       | None => vel u (n * 2) = vel u0 (n * 2) /\ vel u (n * 2 + 1) = vel u0 (n * 2 + 1)
       end.
Proof.
  intros (L & R & _) E. unfold unbar_vec. rewrite E. cbn [mbind out_bind]. rewrite R.
  pose proof (unmask_length _ _ _ E) as L0.
  destruct (rot_fold ub_step (fun th x y => 0 + scos th * x - ssin th * y) (fun th x y => 0 + ssin th * x + scos th * y)
     cons ub_step_ret u0) as (ys & E1 & L1 & V & _); [lia|].
  exists ys. split; [exact E1|]. split; [congruence|]. exact V.
Qed.

Lemma bar_ret cons t r : fc_inv cons (length cons * 2) t -> length r = (length cons * 2)%nat ->
  exists r0, bar_vec t r = Ret (map (vel r0) (kept (dt_mask t))) /\ length r0 = (length cons * 2)%nat /\
    forall n, (n < length cons)%nat ->
       match ang cons n with
       | Some th => vel r0 (n * 2) = 0 + scos th * vel r (n * 2) + ssin th * vel r (n * 2 + 1) /\
                    vel r0 (n * 2 + 1) = 0 - ssin th * vel r (n * 2) + scos th * vel r (n * 2 + 1)
       | None => vel r0 (n * 2) = vel r (n * 2) /\ vel r0 (n * 2 + 1) = vel r (n * 2 + 1)
       end.
Proof.
  intros (L & R & _) Hr. unfold bar_vec. rewrite R.
  destruct (rot_fold bv_step (fun th x y => 0 + scos th * x + ssin th * y) (fun th x y => 0 - ssin th * x + scos th * y)
     cons bv_step_ret r) as (ys & E1 & L1 & V & _); [lia|].
  exists ys. change (foldM _ (rots_of cons) r) with (foldM bv_step (rots_of cons) r). rewrite E1. cbn [mbind out_bind].
  unfold mask_vec. rewrite (proj2 (Nat.eqb_eq _ _)) by lia. cbn [assert_ mbind out_bind].
  split; [now rewrite mask_map by lia|]. split; [congruence|exact V].
Qed.
End transform.
