(** Proofs about the LU decomposition and the inverse. *)
From Verif Require Export Rep.

(** Specification: a table restricted to its leading k x k block is non-singular. *)
Definition nonsingular {A : arith} (k : nat) (a : nat -> nat -> A) : Prop :=
  forall x : nat -> A, (forall i, i < k -> mv k a x i = s0) -> forall i, i < k -> x i = s0.

Section lu.
Context {A : arith} (FL : field_laws A).
Add Field Afield3 : (fl_field A FL).
Local Open Scope arith_scope.

Lemma neq_1_0 : (1 : A) <> 0.
Proof. exact (F_1_neq_0 (fl_field A FL)). Qed.

(** back substitution exists for every upper triangle with non-zero diagonal *)
Lemma upper_exists n (a : nat -> nat -> A) (b : nat -> A) :
  (forall i, i < n -> a i i <> 0) ->
  exists x : nat -> A, (forall i, i < n ->
    bigsum (n - i) (fun k => a i (i + k)%nat * x (i + k)%nat) = b i).
Proof.
  intros Hd.
  assert (G : forall d, (d <= n)%nat -> exists x : nat -> A, forall i, n - d <= i < n ->
    bigsum (n - i) (fun k => a i (i + k)%nat * x (i + k)%nat) = b i).
  { induction d as [|d IH]; intros Hdn.
    - exists (fun _ => 0). intros i Hi. lia.
    - destruct (IH ltac:(lia)) as [x Hx]. set (j := (n - S d)%nat).
      set (s := bigsum (n - S j) (fun k => a j (S j + k)%nat * x (S j + k)%nat)).
      exists (fun i => if (i =? j)%nat then (b j - s) / a j j else x i).
      intros i Hi. destruct (decide (i = j)) as [->|Hij].
      + replace (n - j)%nat with (1 + (n - S j))%nat by (unfold j; lia).
        rewrite (bigsum_app FL). cbn [bigsum]. rewrite Nat.add_0_r, Nat.eqb_refl.
        rewrite (bigsum_ext _ (fun k => a j (S j + k)%nat * x (S j + k)%nat)).
        * fold s. field. apply Hd. unfold j; lia.
        * intros k Hk. replace (j + (1 + k))%nat with (S j + k)%nat by lia.
          rewrite (proj2 (Nat.eqb_neq _ j)) by lia. reflexivity.
      + rewrite <- (Hx i) by (unfold j in *; lia). apply bigsum_ext. intros k Hk.
        rewrite (proj2 (Nat.eqb_neq _ j)) by (unfold j in *; lia). reflexivity. }
  destruct (G n ltac:(lia)) as [x Hx]. exists x. intros i Hi. apply Hx. lia.
Qed.

(** an upper triangle whose last diagonal entry is zero has a kernel vector with last
    component one *)
Lemma upper_kernel i (u : nat -> nat -> A) :
  (forall r c, c < r -> u r c = 0) -> (forall r, r < i -> u r r <> 0) -> u i i = 0 ->
  exists x : nat -> A, x i = 1 /\ forall r, r < S i -> mv (S i) u x r = 0.
Proof.
  intros Hl Hd Hz.
  destruct (upper_exists i u (fun r => - u r i) Hd) as [x Hx].
  exists (fun k => if (k =? i)%nat then 1 else x k). rewrite Nat.eqb_refl. split; [reflexivity|].
  intros r Hr. unfold mv. cbn [bigsum]. rewrite Nat.eqb_refl.
  rewrite (bigsum_ext _ (fun k => u r k * x k)).
  2:{ intros k Hk. rewrite (proj2 (Nat.eqb_neq k i)) by lia. reflexivity. }
  destruct (decide (r = i)) as [->|Hri].
  - rewrite (bigsum_0 FL), Hz; [ring|]. intros k Hk. rewrite Hl by lia. ring.
  - rewrite (bigsum_split FL i r) by lia. rewrite (bigsum_0 FL r).
    + rewrite Hx by lia. ring.
    + intros k Hk. rewrite Hl by lia. ring.
Qed.

Lemma dot_map (f g : nat -> A) n :
  dot (map f (seq 0 n)) (map g (seq 0 n)) = bigsum n (fun k => f k * g k).
Proof. unfold dot. rewrite zip_with_seq, ssum_seq. reflexivity. Qed.

Lemma lt_row (l : ltm A) r : ltm_wf l -> (r < lt_dim l)%nat ->
  row l r = Ret (map (el l r) (seq 0 (lt_dim l))).
Proof. intros H Hr. now rewrite (row_ret _ _ lt_laws l r H). Qed.

Lemma ut_col (u : utm A) c : utm_wf u -> (c < ut_dim u)%nat ->
  Matrix.col u c = Ret (map (fun r => el u r c) (seq 0 (ut_dim u))).
Proof. intros H Hr. now rewrite (col_ret _ _ ut_laws u c H). Qed.

Lemma bool_and3 (r i c k : nat) :
  ((r =? i) && ((i <=? c) && (c <? k)) = true <-> r = i /\ i <= c < k)%nat.
Proof. rewrite !andb_true_iff, Nat.eqb_eq, Nat.leb_le, Nat.ltb_lt. tauto. Qed.

(** the row of U computed in step i *)
Lemma lu_upper_loop (m : lm A) n a i (l : ltm A) (u : utm A) : rep m n n a -> (i < n)%nat ->
  ltm_wf l -> lt_dim l = n -> utm_wf u -> ut_dim u = n ->
  exists u', foldM (fun k u => x ← Matrix.col u k; y ← row l i; v ← index m (i, k);
                               index_set u (i, k) (v - dot x y)) (range i n) u = Ret u' /\
    utm_wf u' /\ ut_dim u' = n /\
    (forall r c, el u' r c = if decide (r = i /\ i <= c < n)
       then a i c - bigsum n (fun j => el u j c * el l i j) else el u r c).
Proof.
  intros Hm Hi Hwl Hln Hwu Hun.
  destruct (foldM_range_inv
    (fun k u' => utm_wf u' /\ ut_dim u' = n /\
       (forall r c, el u' r c = if decide (r = i /\ i <= c < k)
          then a i c - bigsum n (fun j => el u j c * el l i j) else el u r c))
    (fun k u => x ← Matrix.col u k; y ← row l i; v ← index m (i, k);
                index_set u (i, k) (v - dot x y)) i n u) as (u' & E & H); [lia| | |].
  - split; [auto|]. split; [auto|]. intros r c. rewrite decide_False by lia. reflexivity.
  - intros k uk Hk (Hw & Hd & He).
    rewrite ut_col by (auto; lia). cbn [mbind out_bind].
    rewrite lt_row by (auto; lia). cbn [mbind out_bind].
    rewrite (rep_index m n n a) by (auto; lia). cbn [mbind out_bind].
    rewrite Hd, Hln, dot_map.
    destruct (index_set_ret _ _ ut_laws uk i k
       (a i k - bigsum n (fun j => el uk j k * el l i j)) Hw) as (u1 & E1 & Hw1 & Hs1 & _ & He1).
    { unfold utm_dom. apply andb_true_iff. rewrite Nat.ltb_lt, Nat.leb_le. lia. }
    exists u1. split; [exact E1|]. split; [auto|]. split; [cbn in Hs1; congruence|].
    intros r c. rewrite He1, He.
    destruct (Nat.eqb_spec r i) as [->|Hr], (Nat.eqb_spec c k) as [->|Hc]; cbn [andb].
    + rewrite decide_True by lia. f_equal. apply bigsum_ext. intros j Hj. rewrite He.
      rewrite decide_False by lia. reflexivity.
    + destruct (decide (i = i /\ i <= c < k)), (decide (i = i /\ i <= c < S k)); try lia; reflexivity.
    + rewrite !decide_False by lia. reflexivity.
    + rewrite !decide_False by lia. reflexivity.
  - exists u'. split; [exact E|]. exact H.
Qed.

(** the column of L computed in step i *)
Lemma lu_lower_loop (m : lm A) n a i (l : ltm A) (u : utm A) : rep m n n a -> (i < n)%nat ->
  ltm_wf l -> lt_dim l = n -> utm_wf u -> ut_dim u = n ->
  exists l', foldM (fun k l => if (i =? k)%nat then index_set l (i, i) 1
                          else x ← row l k; y ← Matrix.col u i;
                               v ← index m (k, i); d ← index u (i, i);
                               index_set l (k, i) ((v - dot x y) / d)) (range i n) l = Ret l' /\
    ltm_wf l' /\ lt_dim l' = n /\
    (forall r c, el l' r c = if decide (c = i /\ i <= r < n)
       then (if decide (r = i) then 1
             else (a r i - bigsum n (fun j => el l r j * el u j i)) / el u i i)
       else el l r c).
Proof.
  intros Hm Hi Hwl Hln Hwu Hun.
  destruct (foldM_range_inv
    (fun k l' => ltm_wf l' /\ lt_dim l' = n /\
       (forall r c, el l' r c = if decide (c = i /\ i <= r < k)
         then (if decide (r = i) then 1
             else (a r i - bigsum n (fun j => el l r j * el u j i)) / el u i i)
         else el l r c))
    (fun k l => if (i =? k)%nat then index_set l (i, i) 1
                          else x ← row l k; y ← Matrix.col u i;
                               v ← index m (k, i); d ← index u (i, i);
                               index_set l (k, i) ((v - dot x y) / d)) i n l) as (l' & E & H); [lia| | |].
  - split; [auto|]. split; [auto|]. intros r c. rewrite decide_False by lia. reflexivity.
  - intros k lk Hk (Hw & Hd & He).
    destruct (Nat.eqb_spec i k) as [<-|Hik].
    + destruct (index_set_ret _ _ lt_laws lk i i 1 Hw) as (l1 & E1 & Hw1 & Hs1 & _ & He1).
      { unfold ltm_dom. apply andb_true_iff. rewrite Nat.ltb_lt, Nat.leb_le. lia. }
      exists l1. split; [exact E1|]. split; [auto|]. split; [cbn in Hs1; congruence|].
      intros r c. rewrite He1, He.
      destruct (Nat.eqb_spec r i) as [->|Hr], (Nat.eqb_spec c i) as [->|Hc]; cbn [andb].
      * rewrite decide_True by lia. now rewrite decide_True.
      * rewrite !decide_False by lia. reflexivity.
      * rewrite !decide_False by lia. reflexivity.
      * rewrite !decide_False by lia. reflexivity.
    + rewrite lt_row by (auto; lia). cbn [mbind out_bind].
      rewrite ut_col by (auto; lia). cbn [mbind out_bind].
      rewrite (rep_index m n n a) by (auto; lia). cbn [mbind out_bind].
      rewrite (index_ret _ _ ut_laws u i i Hwu) by (cbn; lia). cbn [mbind out_bind].
      rewrite Hd, Hun, dot_map.
      destruct (index_set_ret _ _ lt_laws lk k i
         ((a k i - bigsum n (fun j => el lk k j * el u j i)) / el u i i) Hw)
         as (l1 & E1 & Hw1 & Hs1 & _ & He1).
      { unfold ltm_dom. apply andb_true_iff. rewrite Nat.ltb_lt, Nat.leb_le. lia. }
      exists l1. split; [exact E1|]. split; [auto|]. split; [cbn in Hs1; congruence|].
      intros r c. rewrite He1, He.
      destruct (Nat.eqb_spec r k) as [->|Hr], (Nat.eqb_spec c i) as [->|Hc]; cbn [andb].
      * rewrite decide_True by lia. rewrite decide_False by lia.
        do 2 f_equal. apply bigsum_ext. intros j Hj. rewrite He.
        rewrite decide_False by lia. reflexivity.
      * rewrite !decide_False by lia. reflexivity.
      * destruct (decide (i = i /\ i <= r < k)), (decide (i = i /\ i <= r < S k)); try lia; reflexivity.
      * rewrite !decide_False by lia. reflexivity.
  - exists l'. split; [exact E|]. exact H.
Qed.

(** a product of triangles restricted to a leading block *)
Lemma lu_block n k (l u : nat -> nat -> A) r c : (k <= n)%nat -> (r < k)%nat ->
  (forall r c, r < c -> l r c = 0) ->
  bigsum n (fun j => l r j * u j c) = bigsum k (fun j => l r j * u j c).
Proof.
  intros Hk Hr Hl. rewrite (bigsum_split FL n k) by lia. rewrite (bigsum_0 FL (n - k)); [ring|].
  intros j Hj. rewrite Hl by lia. ring.
Qed.

Definition lu_inv (n : nat) (a : nat -> nat -> A) (i : nat) (lu : ltm A * utm A) : Prop :=
  ltm_wf lu.1 /\ lt_dim lu.1 = n /\ utm_wf lu.2 /\ ut_dim lu.2 = n /\
  (forall r c, i <= c -> el lu.1 r c = 0) /\
  (forall r c, i <= r -> el lu.2 r c = 0) /\
  (forall r, r < i -> el lu.1 r r = 1) /\
  (forall r, r < i -> r < n - 1 -> el lu.2 r r <> 0) /\
  (forall r c, r < n -> c < n -> r < i \/ c < i ->
     bigsum n (fun k => el lu.1 r k * el lu.2 k c) = a r c).

Lemma lu_decompose_inv (m : lm A) n a : rep m n n a ->
  (forall k, k < n -> nonsingular k a) ->
  exists lu, lu_decompose m = Ret lu /\ lu_inv n a n lu.
Proof.
  intros Hm Hns. unfold lu_decompose. destruct Hm as (Hwm & Hsm & Hem).
  assert (Hm : rep m n n a) by (split; auto). rewrite Hsm. cbn [fst snd].
  rewrite Nat.eqb_refl. cbn [negb].
  apply (foldM_range_inv (lu_inv n a)); [lia| |].
  { split; [apply lt_zeros_wf|]. split; [cbn; lia|]. split; [apply ut_zeros_wf|]. split; [cbn; lia|].
    split; [intros; apply lt_zeros_el|]. split; [intros; apply ut_zeros_el|].
    split; [intros; lia|]. split; [intros; lia|]. intros; lia. }
  intros i [l u] Hi (Hwl & Hln & Hwu & Hun & HLz & HUz & HL1 & HUd & HP). cbn [fst snd] in *.
  destruct (lu_upper_loop m n a i l u Hm) as (u' & -> & Hwu' & Hun' & Hu'); auto; [lia|].
  cbn [mbind out_bind].
  destruct (lu_lower_loop m n a i l u' Hm) as (l' & -> & Hwl' & Hln' & Hl'); auto; [lia|].
  cbn [mbind out_bind]. eexists; split; [reflexivity|]. unfold lu_inv. cbn [fst snd].
  assert (Hlu : forall r c, r < c -> el l' r c = 0) by (intros; now apply el_lt_upper).
  assert (Huu : forall r c, c < r -> el u' r c = 0) by (intros; now apply el_ut_lower).
  (* rank-one structure of the step *)
  assert (Hstep : forall r c, bigsum n (fun k => el l' r k * el u' k c) =
             bigsum n (fun k => el l r k * el u k c) + el l' r i * el u' i c).
  { intros r c. rewrite (bigsum_remove FL n i) by lia.
    rewrite (bigsum_remove FL n i (fun k => el l r k * el u k c)) by lia.
    rewrite (HLz r i) by lia.
    rewrite (bigsum_ext _ (fun k => if (k =? i)%nat then 0 else el l r k * el u k c)); [ring|].
    intros k Hk. destruct (Nat.eqb_spec k i) as [_|Hki]; [reflexivity|].
    rewrite (Hl' r k), (Hu' k c). rewrite !decide_False by lia. reflexivity. }
  assert (HLz' : forall r c, S i <= c -> el l' r c = 0).
  { intros r c Hc. rewrite Hl'. rewrite decide_False by lia. apply HLz; lia. }
  assert (Hl1 : el l' i i = 1) by (rewrite Hl'; rewrite decide_True by lia; now rewrite decide_True).
  assert (Hrow : forall c, c < n -> bigsum n (fun k => el l' i k * el u' k c) = a i c).
  { intros c Hc. destruct (decide (c < i)).
    - rewrite Hstep, HP by (auto; lia). rewrite (Huu i c) by lia. ring.
    - rewrite Hstep, Hl1, (Hu' i c). rewrite decide_True by lia.
      rewrite (bigsum_ext (fun j => el u j c * el l i j) (fun j => el l i j * el u j c))
        by (intros; ring). ring. }
  assert (Hup : forall r c, r < i -> c < n -> bigsum n (fun k => el l' r k * el u' k c) = a r c).
  { intros r c Hr Hc. rewrite Hstep, HP by (auto; lia). rewrite (Hlu r i) by lia. ring. }
  assert (Hud : forall r, r < i -> el u' r r <> 0).
  { intros r Hr. rewrite Hu'. rewrite decide_False by lia. apply HUd; lia. }
  (* the pivot is non-zero unless it is the last one *)
  assert (Hpiv : i < n - 1 -> el u' i i <> 0).
  { intros Hin Hz.
    destruct (upper_kernel i (el u') Huu Hud Hz) as (x & Hx1 & Hx0).
    assert (Hxi : x i = 0).
    { apply (Hns (S i) ltac:(lia) x); [|lia]. intros r Hr. unfold mv.
      transitivity (bigsum (S i) (fun c => bigsum (S i) (fun j => el l' r j * el u' j c * x c))).
      - apply bigsum_ext. intros c Hc. rewrite (bigsum_scale_r FL). f_equal.
        rewrite <- (lu_block n (S i)) by (auto; lia). symmetry.
        destruct (decide (r = i)) as [->|]; [apply Hrow; lia|apply Hup; lia].
      - rewrite (bigsum_swap FL). apply (bigsum_0 FL). intros j Hj.
        rewrite (bigsum_ext _ (fun c => el l' r j * (el u' j c * x c))) by (intros; ring).
        rewrite (bigsum_scale_l FL). unfold mv in Hx0. rewrite Hx0 by lia. ring. }
    rewrite Hx1 in Hxi. now apply neq_1_0. }
  split; [auto|]. split; [auto|]. split; [auto|]. split; [auto|]. split; [exact HLz'|].
  split.
  { intros r c Hr. rewrite Hu'. rewrite decide_False by lia. apply HUz; lia. }
  split.
  { intros r Hr. destruct (decide (r = i)) as [->|]; [exact Hl1|]. rewrite Hl'.
    rewrite decide_False by lia. apply HL1; lia. }
  split.
  { intros r Hr Hrn. destruct (decide (r = i)) as [->|]; [apply Hpiv; lia|]. apply Hud; lia. }
  intros r c Hr Hc Hrc.
  destruct (decide (r < i)) as [H1|H1]; [now apply Hup|].
  destruct (decide (r = i)) as [->|H2]; [now apply Hrow|].
  destruct (decide (c < i)) as [H3|H3].
  - rewrite Hstep, HP by (auto; lia). rewrite (Huu i c) by lia. ring.
  - assert (c = i) as -> by lia. rewrite Hstep, (Hl' r i). rewrite decide_True by lia.
    rewrite decide_False by lia.
    rewrite (bigsum_ext (fun j => el l r j * el u' j i) (fun j => el l r j * el u j i)).
    + field. apply Hpiv; lia.
    + intros j Hj. rewrite (Hu' j i). destruct (decide _) as [[-> _]|]; [|reflexivity].
      rewrite HLz by lia. ring.
Qed.

(** if the whole matrix is non-singular the last pivot is non-zero as well *)
Lemma lu_last_pivot n a (lu : ltm A * utm A) : lu_inv n a n lu -> nonsingular n a ->
  forall r, r < n -> el lu.2 r r <> 0.
Proof.
  destruct lu as [l u]. intros (Hwl & Hln & Hwu & Hun & HLz & HUz & HL1 & HUd & HP) Hns r Hr.
  cbn [fst snd] in *.
  destruct (decide (r < n - 1)); [now apply HUd|]. assert (r = n - 1)%nat as -> by lia. intros Hz.
  destruct (upper_kernel (n - 1) (el u)) as (x & Hx1 & Hx0); auto.
  { intros; now apply el_ut_lower. }
  { intros k Hk. apply HUd; lia. }
  replace (S (n - 1)) with n in Hx0 by lia.
  assert (Hxi : x (n - 1)%nat = 0).
  { apply (Hns x); [|lia]. intros k Hk. unfold mv.
    transitivity (bigsum n (fun c => bigsum n (fun j => el l k j * el u j c * x c))).
    - apply bigsum_ext. intros c Hc. rewrite (bigsum_scale_r FL). f_equal. symmetry. apply HP; lia.
    - rewrite (bigsum_swap FL). apply (bigsum_0 FL). intros j Hj.
      rewrite (bigsum_ext _ (fun c => el l k j * (el u j c * x c))) by (intros; ring).
      rewrite (bigsum_scale_l FL). unfold mv in Hx0. rewrite Hx0 by lia. ring. }
  rewrite Hx1 in Hxi. now apply neq_1_0.
Qed.

(** the product of the two triangular inverses is the inverse *)
Lemma inv_lu_spec (m : lm A) n a : rep m n n a ->
  (forall k, k <= n -> nonsingular k a) ->
  exists m', inv_lu m = Ret m' /\ lm_wf m' /\ mshape m' = (n, n) /\
    forall i j, i < n -> j < n -> mm n a (el m') i j = delta i j /\ mm n (el m') a i j = delta i j.
Proof.
  intros Hm Hns. unfold inv_lu.
  destruct (lu_decompose_inv m n a Hm) as ([l u] & -> & HI); [intros; apply Hns; lia|].
  pose proof (lu_last_pivot n a (l, u) HI (Hns n ltac:(lia))) as Hud.
  destruct HI as (Hwl & Hln & Hwu & Hun & HLz & HUz & HL1 & _ & HP). cbn [mbind out_bind fst snd] in *.
  destruct (lt_tri_inv_right FL l Hwl) as (li & -> & Hwli & Hlin & Hli).
  { intros k Hk. rewrite HL1 by lia. exact neq_1_0. }
  cbn [mbind out_bind].
  destruct (ut_tri_inv_right FL u Hwu) as (ui & -> & Hwui & Huin & Hui).
  { intros k Hk. apply Hud. lia. }
  cbn [mbind out_bind].
  destruct (proj1 (mmul_spec _ _ ut_laws _ _ lt_laws ui li Hwui Hwli)) as (m' & E & Hw' & Hs' & He').
  { cbn. lia. }
  cbn [mshape ut_like lt_like fst snd] in He', Hs'. rewrite Huin, Hun in He', Hs'. rewrite Hlin, Hln in He', Hs'.
  rewrite Hln in Hli. rewrite Hun in Hui.
  exists m'. split; [exact E|]. split; [exact Hw'|]. split; [exact Hs'|].
  assert (Hr : forall i j, i < n -> j < n -> mm n a (el m') i j = delta i j).
  { intros i j Hi Hj.
    transitivity (mm n (mm n (el l) (el u)) (mm n (el ui) (el li)) i j).
    { apply mm_ext; intros k Hk; [symmetry; apply HP; lia|apply He'; lia]. }
    rewrite (mm_assoc FL). transitivity (mm n (el l) (el li) i j); [|now apply Hli].
    apply mm_ext; [auto|]. intros k Hk. rewrite <- (mm_assoc FL).
    rewrite <- (mm_delta_l FL n (el li) k j) by lia. apply mm_ext; auto. }
  intros i j Hi Hj. split; [now apply Hr|].
  apply (right_left_inverse FL n a (el m')); auto.
  intros x y Hxy k Hk. assert (Hz : x k - y k = 0).
  { apply (Hns n ltac:(lia) (fun k => x k - y k)); [|exact Hk]. intros r Hrn. unfold mv.
    rewrite (bigsum_ext _ (fun k => a r k * x k - a r k * y k)) by (intros; ring).
    rewrite (bigsum_sub FL). specialize (Hxy r Hrn). unfold mv in Hxy. rewrite Hxy. ring. }
  transitivity (x k - y k + y k); [ring|]. rewrite Hz. ring.
Qed.

Lemma inverse_spec (m : lm A) n a : rep m n n a ->
  (forall k, k <= n -> nonsingular k a) \/ (n = 2%nat /\ a 0%nat 0%nat * a 1%nat 1%nat - a 1%nat 0%nat * a 0%nat 1%nat <> 0) ->
  exists m', inverse m = Ret m' /\ lm_wf m' /\ mshape m' = (n, n) /\
    forall i j, i < n -> j < n -> mm n a (el m') i j = delta i j /\ mm n (el m') a i j = delta i j.
Proof.
  intros Hm Hns. unfold inverse. pose proof Hm as (Hwm & Hsm & Hem). rewrite Hsm.
  destruct (decide ((n, n) = (1, 1))%nat) as [E1|E1]; [|destruct (decide ((n, n) = (2, 2))%nat) as [E2|E2]].
  - injection E1 as -> _. assert (Ha : a 0%nat 0%nat <> 0).
    { destruct Hns as [Hns|[? _]]; [|lia]. intros Hz. apply neq_1_0.
      apply (Hns 1%nat ltac:(lia) (fun _ => 1)) with (i := 0%nat); [|lia].
      intros i Hi. assert (i = 0%nat) as -> by lia. unfold mv. cbn. rewrite Hz. ring. }
    rewrite (rep_index m 1 1 a) by (auto; lia). cbn [mbind out_bind].
    destruct (rep_from_flat 1 1 [1 / a 0%nat 0%nat]) as (m' & E & Hw & Hs & He); [reflexivity|].
    exists m'. split; [exact E|]. split; [exact Hw|]. split; [exact Hs|].
    intros i j Hi Hj. assert (i = 0%nat) as -> by lia. assert (j = 0%nat) as -> by lia.
    unfold mm, delta. cbn [bigsum]. rewrite He by lia. cbn. rewrite decide_True by reflexivity.
    split; field; exact Ha.
  - injection E2 as -> _.
    assert (Hd : a 0%nat 0%nat * a 1%nat 1%nat - a 1%nat 0%nat * a 0%nat 1%nat <> 0).
    { destruct Hns as [Hns|[_ ?]]; [|assumption]. intros Hz.
      (* the vector (-a01, a00) is in the kernel, and a00 <> 0 *)
      assert (Ha : a 0%nat 0%nat <> 0).
      { intros Hz0. apply neq_1_0. apply (Hns 1%nat ltac:(lia) (fun _ => 1)) with (i := 0%nat); [|lia].
        intros i Hi. assert (i = 0%nat) as -> by lia. unfold mv. cbn. rewrite Hz0. ring. }
      apply Ha.
      apply (Hns 2%nat ltac:(lia) (fun k => if (k =? 0)%nat then - a 0%nat 1%nat else a 0%nat 0%nat))
        with (i := 1%nat); [|lia].
      intros i Hi. unfold mv. cbn.
      change (0 =? 0)%nat with true. change (1 =? 0)%nat with false. cbn.
      destruct i as [|[|i]]; [ring| |lia]. etransitivity; [|exact Hz]. ring. }
    unfold determinant. rewrite Hsm. rewrite decide_True by reflexivity.
    rewrite !(rep_index m 2 2 a) by (auto; lia). cbn [mbind out_bind].
    set (det := a 0%nat 0%nat * a 1%nat 1%nat - a 1%nat 0%nat * a 0%nat 1%nat) in *.
    destruct (rep_from_flat 2 2 [a 1%nat 1%nat / det; - (1) * (a 0%nat 1%nat / det); - (1) * (a 1%nat 0%nat / det); a 0%nat 0%nat / det])
      as (m' & E & Hw & Hs & He); [reflexivity|].
    exists m'. split; [exact E|]. split; [exact Hw|]. split; [exact Hs|].
    intros i j Hi Hj. unfold mm, delta. cbn [bigsum]. rewrite !He by lia. cbn.
    destruct i as [|[|i]]; [| |lia]; (destruct j as [|[|j]]; [| |lia]);
      repeat (rewrite decide_True by reflexivity); repeat (rewrite decide_False by lia);
      cbn; unfold vel; cbn; (split; unfold det; field; exact Hd).
  - apply inv_lu_spec; auto. destruct Hns as [Hns|[-> _]]; [exact Hns|congruence].
Qed.
End lu.
