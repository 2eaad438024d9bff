(** Which coefficients of the reduced stiffness matrix are stored, and what the sparse
    solver's graph therefore is, in terms of the mesh. *)
From Coq Require Import Ascii String.
From Verif Require Export HeldProofs.
From Verif Require Import CliProofs CliMesh.
From Verif Require Import Cli.
Local Close Scope string_scope.
Local Open Scope nat_scope.
Local Open Scope list_scope.

(** ** stored places *)
Definition keyed {A : arith} (d : dict A) (r c : nat) : Prop := is_Some (d_data d !! (r, c)).

Lemma foldM_keyed {X S} (key : S -> nat -> nat -> Prop) (P : X -> nat -> nat -> Prop) (F : X -> S -> out S) l :
  (forall x s s', x ∈ l -> F x s = Ret s' -> forall r c, key s' r c <-> key s r c \/ P x r c) ->
  forall s s', foldM F l s = Ret s' -> forall r c, key s' r c <-> key s r c \/ exists x, x ∈ l /\ P x r c.
Proof.
  induction l as [|x l IH]; intros H s s' E r c; cbn [foldM] in E.
  - injection E as <-. split; [now left|]. intros [Hk|(x & Hx & _)]; [exact Hk|]. now apply elem_of_nil in Hx.
  - apply bind_ret_inv in E as (s1 & E1 & E). rewrite (IH (fun y s2 s3 Hy => H y s2 s3 (elem_of_list_further _ _ _ Hy)) s1 s' E).
    rewrite (H x s s1 ltac:(left) E1). split.
    + intros [[Hk|Hk]|(y & Hy & Hk)]; [now left|right; exists x; split; [left|exact Hk]|right; exists y; split; [now right|exact Hk]].
    + intros [Hk|(y & Hy & Hk)]; [now left; left|]. apply elem_of_cons in Hy as [->|Hy]; [now left; right|right; eauto].
Qed.

Section keys.
Context {A : arith}.
Implicit Types d : dict A.

Lemma upd_keyed d a b f d' : index_upd d (a, b) f = Ret d' -> forall r c, keyed d' r c <-> keyed d r c \/ (r = a /\ c = b).
Proof.
  unfold index_upd, keyed. cbn. unfold d_mut. destruct (d_in d (a, b)); [|discriminate]. cbn. intros [= <-] r c. cbn.
  destruct (decide ((a, b) = (r, c))) as [[= -> ->]|Hne].
  - rewrite lookup_insert. split; [auto|eauto].
  - rewrite lookup_insert_ne by exact Hne. split; [tauto|]. intros [H|[-> ->]]; [exact H|congruence].
Qed.

Lemma zeros_keyed s r c : ~ keyed (d_zeros (A := A) s) r c.
Proof. unfold keyed. cbn. rewrite lookup_empty. now intros [? H]. Qed.

Lemma order_keyed ord d r c : hash_order ord d -> keyed d r c <-> exists v, ((r, c), v) ∈ ord.
Proof.
  intros Ho. unfold keyed. split; intros [v Hv]; exists v; [now apply (order_lookup ord d _ _ Ho)|now apply (order_lookup ord d _ _ Ho) in Hv].
Qed.

(** products *)
Lemma mul_keyed ord1 ord2 (a b d : dict A) : hash_order ord1 a -> hash_order ord2 b ->
  StronglySorted (fun x y : (nat * nat) * A => (x.1.1 <= y.1.1)%nat) ord2 ->
  mul_dict ord1 ord2 a b = Ret d -> forall r c, keyed d r c <-> exists k, keyed a r k /\ keyed b k c.
Proof.
  intros Ho1 Ho2 Hs E r c. unfold mul_dict in E. apply bind_ret_inv in E as (_ & _ & E). rewrite row_slices_spec in E by exact Hs.
  rewrite (foldM_keyed keyed (fun kv r c => r = kv.1.1 /\ exists kv2, kv2 ∈ ord2 /\ kv2.1.1 = kv.1.2 /\ kv2.1.2 = c) _ ord1) with (2 := E).
  - split.
    + intros [H|([[r0 k] v] & Hin & -> & [[k2 c2] v2] & Hin2 & Ek & Ec)]; [now apply zeros_keyed in H|]. cbn in Ek, Ec |- *. subst.
      exists k. split; [apply (order_keyed ord1 a r0 k Ho1); eauto|apply (order_keyed ord2 b _ _ Ho2); eauto].
    + intros (k & Ha & Hb). right. apply (order_keyed ord1 a r k Ho1) in Ha as (v & Ha). apply (order_keyed ord2 b k c Ho2) in Hb as (v2 & Hb).
      exists ((r, k), v). split; [exact Ha|]. split; [reflexivity|]. exists ((k, c), v2). auto.
  - intros [[r0 k] v] s s' _ E1 r1 c1. cbn [fst snd] in *. apply bind_ret_inv in E1 as (sl & Esl & E1).
    unfold idx in Esl. destruct (map _ _ !! k) as [sl'|] eqn:El; [|discriminate]. injection Esl as ->.
    apply list_lookup_fmap_inv in El as (k' & -> & Hk). apply lookup_seq in Hk as [-> _]. cbn [Nat.add] in E1.
    rewrite (foldM_keyed keyed (fun kv2 r c => r = r0 /\ c = kv2.1.2) _ _) with (2 := E1).
    + split; (intros [H|H]; [now left|right]).
      * destruct H as (kv2 & Hin & -> & ->). split; [reflexivity|]. exists kv2. apply elem_of_list_In, filter_In in Hin as [Hin Hk].
        apply Nat.eqb_eq in Hk. apply elem_of_list_In in Hin. auto.
      * destruct H as (-> & kv2 & Hin & Hk & <-). exists kv2. split; [|auto]. apply elem_of_list_In, filter_In.
        split; [now apply elem_of_list_In|]. now apply Nat.eqb_eq.
    + intros kv2 s2 s3 _ E2 r2 c2. apply bind_ret_inv in E2 as (_ & _ & E2). exact (upd_keyed _ _ _ _ _ E2 r2 c2).
Qed.

Lemma transposed_keyed ord d r c : hash_order ord d -> keyed (d_transposed ord d) r c <-> keyed d c r.
Proof. intros Ho. unfold keyed. now rewrite d_transposed_data. Qed.

Lemma mask_keyed ord d mask d' : hash_order ord d -> d_mask ord d mask = Ret d' ->
  forall i j, keyed d' i j <-> exists p q, kept mask !! i = Some p /\ kept mask !! j = Some q /\ keyed d p q.
Proof.
  intros Ho E i j. unfold d_mask in E. apply bind_ret_inv in E as (_ & _ & E). apply bind_ret_inv in E as (_ & _ & E).
  pose proof (mask_idxs_spec mask) as (H1 & H2 & H3 & H4). destruct (mask_idxs mask) as [idxs n]. cbn [fst snd] in *.
  rewrite (foldM_keyed keyed (fun kv r c => idxs !! kv.1.1 = Some (Some r) /\ idxs !! kv.1.2 = Some (Some c)) _ ord) with (2 := E).
  - split.
    + intros [H|([[p q] v] & Hin & Hp & Hq)]; [now apply zeros_keyed in H|]. exists p, q. split; [now apply H4|]. split; [now apply H4|].
      apply (order_keyed ord d _ _ Ho). eauto.
    + intros (p & q & Hp & Hq & Hk). right. apply (order_keyed ord d _ _ Ho) in Hk as (v & Hk). exists ((p, q), v).
      split; [exact Hk|]. split; now apply H3.
  - intros [[p q] v] s s' _ E1 r c. cbn [fst snd] in *. unfold idx in E1. destruct (idxs !! p) as [op|]; [|discriminate].
    cbn [mbind out_bind] in E1. destruct (idxs !! q) as [oq|]; [|discriminate]. cbn [mbind out_bind] in E1.
    destruct op as [p'|]; [destruct oq as [q'|]|].
    + rewrite (upd_keyed _ _ _ _ _ E1 r c). split; (intros [H|[Hr Hc]]; [now left|right]); [split; congruence|]. split; congruence.
    + injection E1 as <-. split; [now left|]. intros [H|[_ H]]; [exact H|discriminate].
    + injection E1 as <-. split; [now left|]. intros [H|[H _]]; [exact H|discriminate].
Qed.

(** the rotation matrix has its diagonal and couples the two directions of one node *)
Lemma eye_keyed N d : eye (M := dict A) (N, N) = Ret d -> forall r c, keyed d r c <-> r = c /\ (r < N)%nat.
Proof.
  unfold eye. cbn [fst snd]. rewrite Nat.max_id. change (mzeros (M := dict A) (N, N)) with (Ret (d_zeros (A := A) (N, N))).
  cbn [mbind out_bind]. intros E r c.
  assert (G : forall (l : list nat) (s s' : dict A), (forall x, x ∈ l -> x < N) -> d_shape s = (N, N) -> foldM (fun i m => put m (i, i) s1) l s = Ret s' ->
     keyed s' r c <-> keyed s r c \/ exists x, x ∈ l /\ r = x /\ c = x).
  { clear. induction l as [|x l IH]; intros s s' Hl Hs E; cbn [foldM] in E.
    - injection E as <-. split; [now left|]. intros [Hk|(x & Hx & _)]; [exact Hk|]. now apply elem_of_nil in Hx.
    - apply bind_ret_inv in E as (s1' & E1 & E). unfold put in E1. cbn in E1. unfold d_mut in E1.
      assert (Hin : d_in s (x, x) = true).
      { unfold d_in. rewrite Hs. cbn. assert (x < N) by (apply Hl; left). rewrite !(proj2 (Nat.ltb_lt _ _)) by assumption. reflexivity. }
      rewrite Hin in E1. cbn in E1. injection E1 as <-.
      match type of E with foldM _ _ ?z = _ => rewrite (IH z s' (fun y Hy => Hl y (elem_of_list_further _ _ _ Hy)) Hs E) end.
      unfold keyed at 1. cbn [d_data].
      destruct (decide ((x, x) = (r, c))) as [[= -> ->]|Hne].
      + rewrite lookup_insert. split; [intros _; right; exists c; split; [left|auto]|intros _; left; eauto].
      + rewrite lookup_insert_ne by exact Hne. fold (keyed s r c). split.
        * intros [H|(y & Hy & H)]; [now left|right; exists y; split; [now right|exact H]].
        * intros [H|(y & Hy & Hr & Hc)]; [now left|]. apply elem_of_cons in Hy as [->|Hy]; [congruence|right; eauto]. }
  rewrite (G (range 0 N) (d_zeros (N, N)) d ltac:(intros x Hx; unfold range in Hx; apply elem_of_seq in Hx; lia) eq_refl E).
  split.
  - intros [H|(x & Hx & -> & ->)]; [now apply zeros_keyed in H|]. unfold range in Hx. apply elem_of_seq in Hx. split; [reflexivity|lia].
  - intros [-> Hr]. right. exists c. split; [unfold range; apply elem_of_seq; lia|auto].
Qed.

Lemma rots_node cons (a b : nat) (th : A) : (a, b, th) ∈ rots_of cons -> exists n, a = n * 2 /\ b = n * 2 + 1.
Proof.
  induction cons as [|c cons IH] using rev_ind; [intros H; now apply elem_of_nil in H|].
  rewrite rots_snoc, elem_of_app. intros [H|H]; [auto|]. destruct c; cbn in H; try (now apply elem_of_nil in H).
  apply elem_of_list_singleton in H as [= -> -> _]. eauto.
Qed.

Lemma rotation_keyed (cons : list (constr A)) t rot : fc_inv cons (length cons * 2) t -> Assem.rotation_matrix t = Ret rot ->
  (forall r, r < length cons * 2 -> keyed rot r r) /\ (forall r c, keyed rot r c -> r / 2 = c / 2).
Proof.
  intros (L & R & _) E. unfold Assem.rotation_matrix in E. rewrite L, R in E. apply bind_ret_inv in E as (d0 & E0 & E).
  apply bind_ret_inv in E as (st & E1 & E). injection E as <-.
  assert (K : forall r c, keyed st.1 r c <-> keyed d0 r c \/
     exists x, x ∈ rots_of cons /\ (r = x.1.1 \/ r = x.1.2) /\ (c = x.1.1 \/ c = x.1.2)).
  { refine (foldM_keyed (fun st : dict A * list bool => keyed st.1)
     (fun abt r c => (r = abt.1.1 \/ r = abt.1.2) /\ (c = abt.1.1 \/ c = abt.1.2)) _ _ _ _ _ E1).
    clear. intros [[a b] th] s s' _ E r c. cbn [fst snd].
    apply bind_ret_inv in E as (va & _ & E). apply bind_ret_inv in E as (vb & _ & E). apply bind_ret_inv in E as (_ & _ & E).
    apply bind_ret_inv in E as (v1 & _ & E). apply bind_ret_inv in E as (v2 & _ & E).
    apply bind_ret_inv in E as (d1 & E1 & E). apply bind_ret_inv in E as (d2 & E2 & E).
    apply bind_ret_inv in E as (d3 & E3 & E). apply bind_ret_inv in E as (d4 & E4 & E). injection E as <-. cbn [fst].
    rewrite (upd_keyed _ _ _ _ _ E4), (upd_keyed _ _ _ _ _ E3), (upd_keyed _ _ _ _ _ E2), (upd_keyed _ _ _ _ _ E1). tauto. }
  split.
  - intros r Hr. apply K. left. now apply (eye_keyed _ _ E0).
  - intros r c Hk. apply K in Hk as [Hk|([[a b] th] & Hin & Hr & Hc)].
    + apply (eye_keyed _ _ E0) in Hk as [-> _]. reflexivity.
    + cbn in Hr, Hc. apply rots_node in Hin as (n & -> & ->).
      assert (D : forall x, x = n * 2 \/ x = n * 2 + 1 -> x / 2 = n).
      { intros x [-> | ->]; [apply Nat.div_mul; lia|]. rewrite Nat.add_comm, Nat.div_add by lia. reflexivity. }
      now rewrite (D r Hr), (D c Hc).
Qed.
End keys.

(** ** the mesh *)
Section mesh.
Context {A : arith}.

(** two nodes of one element *)
Definition together (a : elas A) (m n : nat) : Prop := exists e, e ∈ ea_elems a /\ m ∈ e_id_list e /\ n ∈ e_id_list e.
(** a node the supports leave free to move in some direction *)
Definition loose (a : elas A) (n : nat) : Prop := exists c, ea_cons a !! n = Some c /\ c <> XYFixed.
(** how many unknowns the supports leave *)
Definition unknowns (cons : list (constr A)) : nat :=
  list_sum (map (fun c => match c with Free => 2 | XYFixed => 0 | _ => 1 end) cons).
(** the nodes left free hang together through elements *)
Definition hangs_together (a : elas A) : Prop :=
  (forall n, loose a n -> together a n n) /\
  (forall m n, loose a m -> loose a n -> rtc (fun x y => loose a x /\ loose a y /\ together a x y) m n).

Lemma e_dof_node (e : element A) p m : p / 2 = m -> m ∈ e_id_list e -> exists i, i < 6 /\ to_dof (e_dof e i) = p.
Proof.
  intros Hp Hm. unfold e_id_list in Hm. pose proof (Nat.div_mod p 2 ltac:(lia)) as Hd.
  assert (Hr : p mod 2 < 2) by (apply Nat.mod_upper_bound; lia). subst m.
  assert (G : forall k, k < 3 -> nth k (e_id_list e) 0 = p / 2 -> exists i, i < 6 /\ to_dof (e_dof e i) = p).
  { intros k Hk Hn. exists (k * 2 + p mod 2). split; [lia|]. unfold to_dof, e_dof. cbn [fst snd].
    rewrite (Nat.add_comm (k * 2)), Nat.div_add, Nat.mod_add, Nat.div_small, Nat.add_0_l, Hn by lia.
    rewrite (Nat.mod_small (p mod 2)) by lia. lia. }
  apply elem_of_cons in Hm as [E|Hm]; [apply (G 0); [lia|symmetry; exact E]|].
  apply elem_of_cons in Hm as [E|Hm]; [apply (G 1); [lia|symmetry; exact E]|].
  apply elem_of_list_singleton in Hm as E. apply (G 2); [lia|symmetry; exact E].
Qed.
Lemma e_dof_on (e : element A) i : i < 6 -> to_dof (e_dof e i) / 2 ∈ e_id_list e.
Proof.
  intros Hi. unfold to_dof, e_dof. cbn [fst snd].
  assert (i mod 2 < 2) by (apply Nat.mod_upper_bound; lia).
  rewrite (Nat.add_comm (_ * 2)), Nat.div_add, Nat.div_small, Nat.add_0_l by lia.
  apply elem_of_list_In, nth_In. change (length (e_id_list e)) with 3. apply Nat.div_lt_upper_bound; lia.
Qed.

Lemma assembled_keyed (a : elas A) K : ea_ok a -> ea_calc_k a = Ret K ->
  forall p q, keyed K p q <-> together a (p / 2) (q / 2).
Proof.
  intros Hok E p q. unfold ea_calc_k, accum in E.
  rewrite (foldM_keyed keyed (fun e r c => r / 2 ∈ e_id_list e /\ c / 2 ∈ e_id_list e) _ _) with (2 := E).
  - split.
    + intros [H|(e & He & Hp & Hq)]; [now apply zeros_keyed in H|]. exists e. auto.
    + intros (e & He & Hp & Hq). right. exists e. auto.
  - intros e s s' He E1 r c. destruct (proj2 Hok e He) as (Hpl & _). rewrite (calc_k_ret e Hpl) in E1. cbn [mbind out_bind] in E1.
    rewrite (foldM_keyed keyed (fun t r c => r = to_dof t.1.1 /\ c = to_dof t.1.2) _ _) with (2 := E1).
    + split; (intros [H|H]; [now left|right]).
      * destruct H as (t & Ht & -> & ->). apply elem_of_list_lookup in Ht as (k & Hk).
        apply rm_list_lookup_Some in Hk as (i & j & Hi & Hj & _ & ->). cbn [fst snd]. split; now apply e_dof_on.
      * destruct H as [Hr Hc]. destruct (e_dof_node e r _ eq_refl Hr) as (i & Hi & <-). destruct (e_dof_node e c _ eq_refl Hc) as (j & Hj & <-).
        exists (e_dof e i, e_dof e j, K_c e i j). split; [|auto].
        apply elem_of_list_lookup. exists (6 * i + j). now apply (rm_list_lookup 6 6 (fun i j => (e_dof e i, e_dof e j, K_c e i j))).
    + intros t s2 s3 _ E2 r2 c2. exact (upd_keyed _ _ _ _ _ E2 r2 c2).
Qed.
Lemma assembled_m_keyed (a : elas A) K : ea_ok a -> ea_calc_m a = Ret K ->
  forall p q, keyed K p q <-> together a (p / 2) (q / 2).
Proof.
  intros Hok E p q. unfold ea_calc_m, accum in E.
  rewrite (foldM_keyed keyed (fun e r c => r / 2 ∈ e_id_list e /\ c / 2 ∈ e_id_list e) _ _) with (2 := E).
  - split.
    + intros [H|(e & He & Hp & Hq)]; [now apply zeros_keyed in H|]. exists e. auto.
    + intros (e & He & Hp & Hq). right. exists e. auto.
  - intros e s s' He E1 r c. destruct (proj2 Hok e He) as (Hpl & _). rewrite (calc_m_ret e Hpl) in E1. cbn [mbind out_bind] in E1.
    rewrite (foldM_keyed keyed (fun t r c => r = to_dof t.1.1 /\ c = to_dof t.1.2) _ _) with (2 := E1).
    + split; (intros [H|H]; [now left|right]).
      * destruct H as (t & Ht & -> & ->). apply elem_of_list_lookup in Ht as (k & Hk).
        apply rm_list_lookup_Some in Hk as (i & j & Hi & Hj & _ & ->). cbn [fst snd]. split; now apply e_dof_on.
      * destruct H as [Hr Hc]. destruct (e_dof_node e r _ eq_refl Hr) as (i & Hi & <-). destruct (e_dof_node e c _ eq_refl Hc) as (j & Hj & <-).
        exists (e_dof e i, e_dof e j, M_c e i j). split; [|auto].
        apply elem_of_list_lookup. exists (6 * i + j). now apply (rm_list_lookup 6 6 (fun i j => (e_dof e i, e_dof e j, M_c e i j))).
    + intros t s2 s3 _ E2 r2 c2. exact (upd_keyed _ _ _ _ _ E2 r2 c2).
Qed.

Lemma keyed_in d N p q : dict_wf (A := A) d -> d_shape d = (N, N) -> keyed d p q -> p < N /\ q < N.
Proof. intros W Hs [v Hv]. apply W in Hv. rewrite Hs in Hv. exact Hv. Qed.
Lemma together_in (a : elas A) m n : ea_ok a -> together a m n -> m < node_count a /\ n < node_count a.
Proof.
  intros Hok (e & He & Hm & Hn). destruct (proj2 Hok e He) as (_ & _ & _ & P0 & P1 & P2). apply lookup_lt_Some in P0, P1, P2.
  unfold node_count, e_id_list in *. rewrite !elem_of_cons in Hm, Hn.
  split; [destruct Hm as [->|[->|[->|H]]]|destruct Hn as [->|[->|[->|H]]]]; try assumption; now apply elem_of_nil in H.
Qed.

(** what the reduced matrix stores *)
Lemma barred_keyed (a : elas A) ho t0 K t Kb : oracle_ok ho -> (forall p q, keyed K p q <-> together a (p / 2) (q / 2)) -> from_constraints (ea_cons a) = Ret t ->
  bar_matrix ho t0 t K = Ret Kb ->
  forall i j, keyed Kb i j <-> exists p q, kept (dt_mask t) !! i = Some p /\ kept (dt_mask t) !! j = Some q /\ together a (p / 2) (q / 2).
Proof.
  intros Ho HK Et EKb i j.
  destruct (from_constraints_ret (ea_cons a)) as (t' & Et' & Hf). assert (t' = t) as -> by congruence. clear Et'.
  assert (Hoo : forall k (d : dict A), hash_order (ho k (d_data d)) d) by (intros k d; apply Ho).
  unfold bar_matrix in EKb. apply bind_ret_inv in EKb as (rot & Er & E). apply bind_ret_inv in E as (inner & Ei & E).
  apply bind_ret_inv in E as (res & Es & E). set (rot' := d_transposed (ho t0 (d_data rot)) rot) in *.
  destruct (rotation_keyed (ea_cons a) t rot Hf Er) as [R1 R2].
  rewrite (mask_keyed _ _ _ _ (Hoo _ _) E i j).
  assert (Q : forall p q, p < length (ea_cons a) * 2 -> q < length (ea_cons a) * 2 -> keyed res p q <-> together a (p / 2) (q / 2)).
  { intros p q Hp Hq. rewrite (mul_keyed _ _ _ _ _ (Hoo _ _) (by_row_order _ _ (Hoo _ _)) (by_row_sorted _) Es p q). split.
    - intros (k & Hk1 & Hk2). apply (proj1 (transposed_keyed (ho t0 (d_data rot)) rot p k (Hoo _ _))) in Hk1. apply R2 in Hk1.
      apply (mul_keyed _ _ _ _ _ (Hoo _ _) (by_row_order _ _ (Hoo _ _)) (by_row_sorted _) Ei k q) in Hk2 as (l & Hl1 & Hl2).
      apply R2 in Hl2. apply HK in Hl1. now rewrite Hk1, Hl2 in Hl1.
    - intros Ht. exists p. split; [apply (proj2 (transposed_keyed (ho t0 (d_data rot)) rot p p (Hoo _ _))); now apply R1|].
      apply (mul_keyed _ _ _ _ _ (Hoo _ _) (by_row_order _ _ (Hoo _ _)) (by_row_sorted _) Ei p q). exists q.
      split; [now apply HK|now apply R1]. }
  assert (B : forall k p, kept (dt_mask t) !! k = Some p -> p < length (ea_cons a) * 2).
  { intros k p Hk. apply elem_of_list_lookup_2 in Hk. unfold kept in Hk. apply elem_of_list_In, filter_In in Hk as [Hk _].
    apply in_seq in Hk. rewrite (proj1 Hf) in Hk. lia. }
  split; intros (p & q & Hp & Hq & H); exists p, q; (split; [exact Hp|]); (split; [exact Hq|]); apply Q; eauto.
Qed.

Lemma reduced_keyed (a : elas A) ho K t Kb : ea_ok a -> oracle_ok ho -> ea_calc_k a = Ret K -> from_constraints (ea_cons a) = Ret t ->
  bar_matrix ho 0 t K = Ret Kb ->
  forall i j, keyed Kb i j <-> exists p q, kept (dt_mask t) !! i = Some p /\ kept (dt_mask t) !! j = Some q /\ together a (p / 2) (q / 2).
Proof. intros Hok Ho EK. exact (barred_keyed a ho 0 K t Kb Ho (assembled_keyed a K Hok EK)). Qed.
(** the unknowns left by the supports belong to loose nodes *)
Lemma kept_loose (cons : list (constr A)) t p : fc_inv cons (length cons * 2) t ->
  p ∈ kept (dt_mask t) -> exists c, cons !! (p / 2) = Some c /\ c <> XYFixed.
Proof.
  intros (L & _ & H & _) Hp. unfold kept in Hp. apply elem_of_list_In, filter_In in Hp as [Hp Hm]. apply in_seq in Hp. rewrite L in Hp.
  assert (Hn : p / 2 < length cons) by (apply Nat.div_lt_upper_bound; lia).
  destruct (lookup_lt_is_Some_2 cons _ Hn) as (c & Hc). exists c. split; [exact Hc|]. intros ->.
  destruct (H _ _ Hc) as [H1 H2]. pose proof (Nat.div_mod p 2 ltac:(lia)) as Hd. assert (Hr : p mod 2 < 2) by (apply Nat.mod_upper_bound; lia).
  assert (Hlk : dt_mask t !! p = Some false).
  { destruct (p mod 2) as [|[|r]] eqn:Em; [|..|lia]; [replace p with (p / 2 * 2) by lia; exact H1|replace p with (p / 2 * 2 + 1) by lia; exact H2]. }
  rewrite (nth_lookup_Some _ _ _ _ Hlk) in Hm. discriminate.
Qed.
Lemma loose_kept (cons : list (constr A)) t n c : fc_inv cons (length cons * 2) t -> cons !! n = Some c -> c <> XYFixed ->
  exists i p, kept (dt_mask t) !! i = Some p /\ p / 2 = n.
Proof.
  intros (L & _ & H & _) Hc Hne. destruct (H _ _ Hc) as [H1 H2]. pose proof (lookup_lt_Some _ _ _ Hc) as Hn.
  assert (G : forall p, dt_mask t !! p = Some true -> p / 2 = n -> exists i p, kept (dt_mask t) !! i = Some p /\ p / 2 = n).
  { intros p Hp Hpn. assert (Hk : p ∈ kept (dt_mask t)).
    { unfold kept. apply elem_of_list_In, filter_In. split; [apply in_seq; apply lookup_lt_Some in Hp; lia|]. now rewrite (nth_lookup_Some _ _ _ _ Hp). }
    apply elem_of_list_lookup in Hk as (i & Hi). eauto. }
  assert (D0 : n * 2 / 2 = n) by (apply Nat.div_mul; lia).
  assert (D1 : (n * 2 + 1) / 2 = n) by (rewrite Nat.add_comm, Nat.div_add by lia; reflexivity).
  destruct c; cbn in H1, H2; try (now apply (G _ H1 D0)); try (now apply (G _ H2 D1)). congruence.
Qed.

Lemma kept_count mask : length (kept mask) = length (List.filter (fun b : bool => b) mask).
Proof.
  induction mask as [|b mask IH] using rev_ind; [reflexivity|].
  rewrite kept_snoc, List.filter_app, !app_length, IH. now destruct b.
Qed.
Lemma unknowns_kept (cons : list (constr A)) t : fc_inv cons (length cons * 2) t -> length (kept (dt_mask t)) = unknowns cons.
Proof.
  intros (L & _ & H & _). rewrite kept_count.
  assert (E : dt_mask t = concat (map (fun c => [free_x c; free_y c]) cons)).
  { revert L H. generalize (dt_mask t). clear. induction cons as [|c cons IH]; intros m L H; [now apply nil_length_inv in L|].
    destruct (H 0 c eq_refl) as [H0 H1]. destruct m as [|x [|y m]]; try discriminate. cbn in H0, H1. injection H0 as ->. injection H1 as ->.
    cbn [map concat app]. do 2 f_equal. apply IH; [cbn in L |- *; lia|]. intros i c' Hc. destruct (H (S i) c' Hc) as [G0 G1]. split; [exact G0|exact G1]. }
  rewrite E. clear. induction cons as [|c cons IH]; [reflexivity|]. cbn [map concat]. rewrite List.filter_app, app_length, IH.
  unfold unknowns. cbn [map list_sum]. now destruct c.
Qed.

(** the reduced system is linked exactly if the loose nodes hang together *)
Lemma linked_iff (a : elas A) ho K t Kb n : ea_ok a -> oracle_ok ho -> ea_calc_k a = Ret K -> from_constraints (ea_cons a) = Ret t ->
  bar_matrix ho 0 t K = Ret Kb -> n = length (kept (dt_mask t)) -> 2 <= n -> linked n Kb <-> hangs_together a.
Proof.
  intros Hok Ho EK Et EKb Hn H2. pose proof (reduced_keyed a ho K t Kb Hok Ho EK Et EKb) as Hk.
  destruct (from_constraints_ret (ea_cons a)) as (t' & Et' & Hf). assert (t' = t) as -> by congruence. clear Et'.
  assert (Tsym : forall x y, together a x y -> together a y x) by (intros x y (e & He & Hx & Hy); exists e; auto).
  assert (Hpair : forall i j, paired n Kb i j <-> i < n /\ j < n /\ i <> j /\
     exists p q, kept (dt_mask t) !! i = Some p /\ kept (dt_mask t) !! j = Some q /\ together a (p / 2) (q / 2)).
  { intros i j. unfold paired. split; intros (Hi & Hj & Hne & H); repeat (split; [assumption|]).
    - apply Hk in H as (p & q & Hp & Hq & H).
      destruct (decide (i <= j)) as [Hle|Hle]; [rewrite Nat.min_l in Hp by lia; rewrite Nat.max_r in Hq by lia; eauto|].
      rewrite Nat.min_r in Hp by lia. rewrite Nat.max_l in Hq by lia. exists q, p. auto.
    - apply Hk. destruct H as (p & q & Hp & Hq & H).
      destruct (decide (i <= j)) as [Hle|Hle]; [rewrite Nat.min_l, Nat.max_r by lia; eauto|].
      rewrite Nat.min_r, Nat.max_l by lia. exists q, p. auto. }
  assert (Hlo : forall i p, kept (dt_mask t) !! i = Some p -> loose a (p / 2)).
  { intros i p Hp. apply elem_of_list_lookup_2 in Hp. exact (kept_loose _ t p Hf Hp). }
  split.
  - intros Hl. split.
    + intros m (c & Hc & Hcn). destruct (loose_kept _ t m c Hf Hc Hcn) as (i & p & Hp & <-).
      pose proof (lookup_lt_Some _ _ _ Hp) as Hi. rewrite <- Hn in Hi.
      assert (Hj : exists j, j < n /\ j <> i) by (destruct i as [|i]; [exists 1|exists 0]; lia). destruct Hj as (j & Hj & Hji).
      pose proof (Hl i j Hi Hj) as Hr. inversion Hr as [|x y z Hs _]; [congruence|]. subst.
      apply Hpair in Hs as (_ & _ & _ & p' & q & Hp' & Hq & (e & He & Hm & _)). assert (p' = p) as -> by congruence. exists e. auto.
    + intros m m' (c & Hc & Hcn) (c' & Hc' & Hcn'). destruct (loose_kept _ t m c Hf Hc Hcn) as (i & p & Hp & <-).
      destruct (loose_kept _ t m' c' Hf Hc' Hcn') as (j & q & Hq & <-). clear Hc Hcn Hc' Hcn' c c'.
      pose proof (lookup_lt_Some _ _ _ Hp) as Hi. pose proof (lookup_lt_Some _ _ _ Hq) as Hj. rewrite <- Hn in Hi, Hj.
      pose proof (Hl i j Hi Hj) as Hr. clear Hi Hj. revert p Hp. induction Hr as [x|x y z Hs _ IH]; intros p Hp.
      * assert (p = q) as -> by congruence. apply rtc_refl.
      * apply Hpair in Hs as (_ & _ & _ & p' & q' & Hp' & Hq' & Ht). assert (p' = p) as -> by congruence.
        eapply rtc_l; [|exact (IH Hq q' Hq')]. split; [eauto|]. split; [eauto|exact Ht].
  - intros [H1 Hr] i j Hi Hj. rewrite Hn in Hi, Hj. destruct (lookup_lt_is_Some_2 _ _ Hi) as (p & Hp). destruct (lookup_lt_is_Some_2 _ _ Hj) as (q & Hq).
    rewrite <- Hn in Hi, Hj.
    assert (Hstep : forall i j p q, kept (dt_mask t) !! i = Some p -> kept (dt_mask t) !! j = Some q -> together a (p / 2) (q / 2) -> rtc (paired n Kb) i j).
    { intros i' j' p' q' Hp' Hq' Ht. destruct (decide (i' = j')) as [->|Hne]; [apply rtc_refl|]. apply rtc_once, Hpair.
      pose proof (lookup_lt_Some _ _ _ Hp') as Hi'. pose proof (lookup_lt_Some _ _ _ Hq') as Hj'. rewrite <- Hn in Hi', Hj'.
      repeat (split; [assumption|]). eauto. }
    assert (G : forall x y, rtc (fun x y => loose a x /\ loose a y /\ together a x y) x y -> forall i p, kept (dt_mask t) !! i = Some p -> p / 2 = x ->
       forall j q, kept (dt_mask t) !! j = Some q -> q / 2 = y -> rtc (paired n Kb) i j).
    { clear i j p q Hi Hj Hp Hq. intros x y. induction 1 as [x|x y z (Hx & Hy & Ht) _ IH]; intros i p Hp Hpx j q Hq Hqy.
      - apply (Hstep i j p q Hp Hq). rewrite Hpx, Hqy. apply H1. rewrite <- Hpx. eauto.
      - destruct Hy as (c & Hc & Hcn). destruct (loose_kept _ t y c Hf Hc Hcn) as (k & w & Hw & Hwy).
        eapply rtc_transitive; [|exact (IH k w Hw Hwy j q Hq Hqy)]. apply (Hstep i k p w Hp Hw). now rewrite Hpx, Hwy. }
    exact (G _ _ (Hr _ _ (Hlo _ _ Hp) (Hlo _ _ Hq)) i p Hp eq_refl j q Hq eq_refl).
Qed.
End mesh.

(** ** when the sparse solver answers *)
Section answers.
Context {A : arith} (OL : ord_laws A).
Let FL : field_laws A := ol_field A OL.
Add Field Afield74 : (fl_field A FL).
Context (Trig : forall th : A, sadd (smul (scos th) (scos th)) (smul (ssin th) (ssin th)) = s1).

Lemma reduced_iff_mesh (a : elas A) ho oc ol r : ea_ok a -> oracle_ok ho -> calc_load a oc ol = Ret r ->
  reduced_connected ho a <-> 2 <= unknowns (ea_cons a) /\ hangs_together a.
Proof.
  intros Hok Ho Er.
  destruct (calc_disp_ret OL a ho oc ol r Hok Ho Er) as (K & t & Kb & s & k & rv & EK & Et & EKb & SKb & _).
  destruct (from_constraints_ret (ea_cons a)) as (t' & Et' & Hf). assert (t' = t) as -> by congruence. clear Et'.
  assert (Hn : sy_dofs s = length (kept (dt_mask t))).
  { destruct (assembled_k FL a Hok) as (K' & EK' & WK & SK & _). assert (K' = K) as -> by congruence.
    change (node_count a) with (length (ea_nodes a)) in SK. rewrite <- (proj1 Hok) in SK.
    destruct (bar_matrix_ret FL (ea_cons a) t ho 0 K Hf Ho WK SK) as (Kb' & E & _ & S' & _). congruence. }
  rewrite <- (unknowns_kept _ t Hf), <- Hn. split.
  - intros Hc. destruct (Hc K t Kb _ EK Et EKb SKb) as [H2 Hl]. split; [exact H2|]. now apply (linked_iff a ho K t Kb _ Hok Ho EK Et EKb Hn H2).
  - intros [H2 Hh] K1 t1 Kb1 n E1 E2 E3 E4. assert (K1 = K) as -> by congruence. assert (t1 = t) as -> by congruence. assert (Kb1 = Kb) as -> by congruence.
    assert (n = sy_dofs s) as -> by congruence. split; [exact H2|]. now apply (linked_iff a ho K t Kb _ Hok Ho EK Et EKb Hn H2).
Qed.

(** an answer of the sparse solver means that the loose nodes hang together *)
Lemma cholesky_hangs (a : elas A) ho ho' oc ol disp : ea_ok a -> oracle_ok ho -> oracle_ok ho' ->
  calc_displacements ho oc ol (cholesky_solver ho') a = Ret disp -> 2 <= unknowns (ea_cons a) /\ hangs_together a.
Proof.
  intros Hok Ho Ho' E.
  assert (Hr : exists r, calc_load a oc ol = Ret r).
  { unfold calc_displacements in E. apply bind_ret_inv in E as (? & _ & E). apply bind_ret_inv in E as (? & _ & E). apply bind_ret_inv in E as (r & Er & _). eauto. }
  destruct Hr as (r & Er). apply (reduced_iff_mesh a ho oc ol r Hok Ho Er).
  destruct (calc_disp_ret OL a ho oc ol r Hok Ho Er) as (K & t & Kb & s & k & rv & EK & Et & EKb & SKb & Ws & Ps & Ek & Erv & Lrv & Hel & Hst & Hinv & _).
  destruct (Hinv _ _ E) as (raw & Eraw). destruct (cholesky_connected ho' s k rv _ Ho' Ws Ek Erv Eraw) as [H2 Hl].
  intros K1 t1 Kb1 n E1 E2 E3 E4. assert (K1 = K) as -> by congruence. assert (t1 = t) as -> by congruence. assert (Kb1 = Kb) as -> by congruence.
  assert (n = sy_dofs s) as -> by congruence. split; [exact H2|].
  intros i j Hi Hj. eapply rtc_subrel; [|exact (Hl i j Hi Hj)]. intros x y. unfold paired. now rewrite Hst.
Qed.

Lemma cholesky_answers (SQ : sqrt_law A) (h : hashes A) a oc ol r : hashes_ok h -> ea_ok a -> calc_load a oc ol = Ret r -> held a ->
  (exists disp, calc_displacements (h_k h) oc ol (cholesky_solver (h_sys h)) a = Ret disp /\ the_solution a oc ol disp) <->
  2 <= unknowns (ea_cons a) /\ hangs_together a.
Proof.
  intros Hh Hok Er Hhe. split.
  - intros (disp & E & _). exact (cholesky_hangs a _ _ oc ol disp Hok (ho_k _ Hh) (ho_sys _ Hh) E).
  - intros H. apply (reduced_iff_mesh a (h_k h) oc ol r Hok (ho_k _ Hh) Er) in H.
    apply (study_returns OL Trig h (Some (txt "cholesky")) a oc ol _ r Hh Hok eq_refl Er). right. split; [reflexivity|]. auto.
Qed.
End answers.
