(** Equivalent stresses, averages, combination of supports. *)
From Coq Require Import Reals Lra Psatz.
From Verif Require Export ElemTop InstR.

(** ** averages *)
Section mean.
Context {A : arith} (OL : ord_laws A).
Let FL : field_laws A := ol_field A OL.
Add Field Afield43 : (fl_field A FL).
Local Open Scope arith_scope.

Definition mean (l : list A) : A := ssum l / sz (Z.of_nat (length l)).

Lemma count_neq n : sz (Z.of_nat (S n)) <> (0 : A).
Proof. intros E. pose proof (sz_pos OL (Pos.of_succ_nat n)) as H. change (Z.pos (Pos.of_succ_nat n)) with (Z.of_nat (S n)) in H.
  rewrite E in H. now apply (lts_irr OL) in H. Qed.

Lemma mean_one (x : A) : mean [x] = x.
Proof. unfold mean, ssum. cbn [length fold_left]. change (sz (Z.of_nat 1)) with (1 : A). field. apply (one_neq_0 OL). Qed.

Lemma mean_snoc (l : list A) x : l <> [] ->
  (mean l * sz (Z.of_nat (length l)) + x) / sz (Z.of_nat (S (length l))) = mean (l ++ [x]).
Proof.
  intros Hl. unfold mean. rewrite app_length, ssum_snoc. cbn [length]. rewrite Nat.add_1_r.
  destruct l as [|y l]; [congruence|]. cbn [length].
  pose proof (count_neq (length l)). pose proof (count_neq (S (length l))). field. auto.
Qed.

(** running average of scalars *)
Lemma average_mean (l : list A) : l <> [] ->
  average_consume (fold_left (average_update sdiv smul sadd) l average_new) = Some (mean l).
Proof.
  enough (H : forall l : list A, l <> [] -> fold_left (average_update sdiv smul sadd) l average_new = Average (length l) (Some (mean l))).
  { intros Hl. now rewrite H. }
  clear l. induction l as [|x l IH] using rev_ind; [congruence|]. intros _. rewrite fold_left_app. cbn [fold_left].
  destruct (decide (l = [])) as [->|Hl].
  - cbn [fold_left app]. unfold average_update, average_new. cbn [av_avg length]. now rewrite mean_one.
  - rewrite IH by exact Hl. unfold average_update. cbn [av_avg av_n]. rewrite mean_snoc by exact Hl.
    now rewrite app_length, Nat.add_1_r.
Qed.

(** ** averages of stress states *)
Definition st_comp (i : nat) (s : stress A) : A := nth i (st_data s) 0.
Definition is_mean (l : list (stress A)) (m : stress A) : Prop :=
  (forall s, s ∈ l -> st_type s = st_type m) /\ length (st_data m) = 6%nat /\
  forall i, (i < 6)%nat -> st_comp i m = mean (map (st_comp i) l).

Lemma st_update_mean l v s w : Forall (fun s => length (st_data s) = 6%nat) (l ++ [s]) ->
  match l with [] => v = average_new | _ :: _ => exists m, v = Average (length l) (Some m) /\ is_mean l m end ->
  st_update v s = Ret w -> exists m, w = Average (length (l ++ [s])) (Some m) /\ is_mean (l ++ [s]) m.
Proof.
  intros Hd Hv E. apply Forall_app in Hd as [Hd Hs]. apply Forall_inv in Hs.
  destruct l as [|s0' l].
  - rewrite Hv in E. cbn in E. injection E as <-. exists s. split; [reflexivity|]. split; [|split; [exact Hs|]].
    + intros t Ht. apply elem_of_list_singleton in Ht. now subst.
    + intros i _. cbn [map app]. now rewrite mean_one.
  - set (L := s0' :: l) in *. destruct Hv as (m & -> & Ht & Lm & Hm). unfold st_update in E. cbn [av_avg av_n] in E.
    apply bind_ret_inv in E as (t & E & E'). injection E' as <-. unfold st_add in E. cbn [st_type st_mul st_data] in E.
    destruct (decide (st_type m = st_type s)) as [Et|]; [|discriminate]. injection E as <-.
    eexists. split; [rewrite app_length, Nat.add_1_r; reflexivity|]. split; [|split].
    + cbn [st_type st_div]. intros t Hin. apply elem_of_app in Hin as [Hin|Hin]; [now apply Ht|].
      apply elem_of_list_singleton in Hin. subst. now symmetry.
    + cbn [st_data st_div]. rewrite map_length, zip_with_length, map_length, Lm, Hs. reflexivity.
    + intros i Hi. rewrite map_app. cbn [map]. rewrite <- mean_snoc by discriminate. rewrite map_length.
      rewrite <- Hm by exact Hi. unfold st_comp. cbn [st_data st_div].
      destruct (lookup_lt_is_Some_2 (st_data m) i ltac:(lia)) as [x Ex]. destruct (lookup_lt_is_Some_2 (st_data s) i ltac:(lia)) as [y Ey].
      rewrite (nth_lookup_Some _ i 0 _ Ex), (nth_lookup_Some _ i 0 _ Ey). apply nth_lookup_Some.
      rewrite list_lookup_fmap, lookup_zip_with, list_lookup_fmap, Ex, Ey. reflexivity.
Qed.

Definition at_node (n : nat) (L : list (nat * stress A)) : list (stress A) :=
  map snd (List.filter (fun p => p.1 =? n)%nat L).
Definition av_inv (L : list (nat * stress A)) (n : nat) (v : average (stress A)) : Prop :=
  match at_node n L with
  | [] => v = average_new
  | _ :: _ => exists m, v = Average (length (at_node n L)) (Some m) /\ is_mean (at_node n L) m
  end.

Lemma at_node_snoc n L p : at_node n (L ++ [p]) = at_node n L ++ (if (p.1 =? n)%nat then [p.2] else []).
Proof. unfold at_node. rewrite List.filter_app, map_app. f_equal. cbn. now destruct (p.1 =? n)%nat. Qed.

Lemma st_fold N L avs : Forall (fun p : nat * stress A => length (st_data p.2) = 6%nat) L ->
  foldM (fun ns avs => v ← idx avs ns.1; v ← st_update v ns.2; set avs ns.1 v) L (replicate N average_new) = Ret avs ->
  length avs = N /\ forall n v, avs !! n = Some v -> av_inv L n v.
Proof.
  revert avs. induction L as [|p L IH] using rev_ind; intros avs Hd E.
  - injection E as <-. split; [apply replicate_length|]. intros n v Hn. apply lookup_replicate in Hn as [-> _]. reflexivity.
  - rewrite foldM_app in E. apply bind_ret_inv in E as (avs0 & E0 & E). apply Forall_app in Hd as [Hd Hp].
    destruct (IH avs0 Hd E0) as [Ln Hv]. cbn [foldM] in E. apply bind_ret_inv in E as (x & E & E'). injection E' as ->.
    apply bind_ret_inv in E as (v & Ev & E). apply idx_inv in Ev. apply bind_ret_inv in E as (w & Ew & E).
    assert (Ea : avs = <[p.1 := w]> avs0) by (unfold set in E; rewrite Ev in E; now injection E as <-).
    subst avs. split; [now rewrite insert_length|]. intros n u Hu. unfold av_inv. rewrite at_node_snoc.
    destruct (Nat.eqb_spec p.1 n) as [<-|Hne].
    + rewrite list_lookup_insert in Hu by (now apply lookup_lt_Some in Ev). injection Hu as <-.
      specialize (Hv _ _ Ev). unfold av_inv in Hv.
      destruct (st_update_mean (at_node p.1 L) v p.2 w) as (m & -> & Hm).
      * apply Forall_app. split; [|constructor; [exact (Forall_inv Hp)|constructor]].
        unfold at_node. rewrite Forall_fmap. apply List.Forall_forall. intros q Hq. apply filter_In in Hq as [Hq _].
        rewrite List.Forall_forall in Hd. now apply Hd.
      * exact Hv.
      * exact Ew.
      * destruct (at_node p.1 L); cbn [app] in *; eauto.
    + rewrite list_lookup_insert_ne in Hu by exact Hne. rewrite app_nil_r. exact (Hv _ _ Hu).
Qed.

Lemma st_from_vector_len (v : lm A) s : st_from_vector v = Ret s -> length (st_data s) = 6%nat.
Proof.
  unfold st_from_vector. destruct (mshape v) as [r c]. destruct (negb _); [discriminate|].
  intros E. apply bind_ret_inv in E as (l & _ & E). apply bind_ret_inv in E as (data & Ed & E).
  assert (L : length data = 6%nat).
  { refine (foldM_ret_inv (fun _ (d : list A) => length d = 6%nat) _ _ _ _ _ _ Ed); [|reflexivity].
    intros _ [i x] _ d d' _ Hl E'. cbn [fst snd] in E'. destruct (6 <=? i)%nat; [discriminate|]. unfold set in E'. destruct (d !! i); [|discriminate].
    injection E' as <-. now rewrite insert_length. }
  destruct (r `max` c)%nat as [|[|[|[|[|[|[|k]]]]]]]; try discriminate; injection E as <-; exact L.
Qed.

Lemma e_stresses_len (e : element A) disps l : e_stresses e disps = Ret l ->
  Forall (fun p : nat * stress A => length (st_data p.2) = 6%nat) l.
Proof.
  unfold e_stresses. intros E. apply bind_ret_inv in E as (us & _ & E). apply bind_ret_inv in E as (u & _ & E).
  apply bind_ret_inv in E as (c & _ & E). revert l E. generalize (e_id_list e). intros ids.
  induction ids as [|n ids IH]; intros l; cbn [mapM_out]; [injection 1 as <-; constructor|].
  intros E. apply bind_ret_inv in E as (x & Ex & E). apply bind_ret_inv in E as (l' & El & E). injection E as <-.
  constructor; [|now apply IH].
  apply bind_ret_inv in Ex as (p & _ & Ex). apply bind_ret_inv in Ex as (m & _ & Ex). apply bind_ret_inv in Ex as (st & _ & Ex).
  apply bind_ret_inv in Ex as (st' & _ & Ex). apply bind_ret_inv in Ex as (s & Es & Ex). injection Ex as <-.
  exact (st_from_vector_len _ _ Es).
Qed.

(** node stresses are the means over the adjacent elements *)
Lemma ea_stresses_mean (a : elas A) disp out : ea_stresses a disp = Ret out ->
  exists Ls, mapM_out (fun e => e_stresses e (idx disp)) (ea_elems a) = Ret Ls /\ length out = node_count a /\
    forall n o, out !! n = Some o ->
      match at_node n (concat Ls), o with
      | [], None => True
      | [], Some _ => False
      | _ :: _, Some m => is_mean (at_node n (concat Ls)) m
      | _ :: _, None => False
      end.
Proof.
  unfold ea_stresses. intros E. apply bind_ret_inv in E as (avs & E & E'). injection E' as <-.
  assert (F : forall els avs0 avs1, foldM (fun e avs => l ← e_stresses e (idx disp);
      foldM (fun ns avs => v ← idx avs ns.1; v ← st_update v ns.2; set avs ns.1 v) l avs) els avs0 = Ret avs1 ->
      exists Ls, mapM_out (fun e => e_stresses e (idx disp)) els = Ret Ls /\
        foldM (fun ns avs => v ← idx avs ns.1; v ← st_update v ns.2; set avs ns.1 v) (concat Ls) avs0 = Ret avs1 /\
        Forall (fun p : nat * stress A => length (st_data p.2) = 6%nat) (concat Ls)).
  { clear. induction els as [|e els IH]; intros avs0 avs1; cbn [foldM].
    - injection 1 as <-. exists []. repeat split. constructor.
    - intros E. apply bind_ret_inv in E as (x & E & E2). apply bind_ret_inv in E as (l & El & E).
      destruct (IH _ _ E2) as (Ls & EL & Ef & Hd). exists (l :: Ls). cbn [mapM_out concat]. rewrite El. cbn [mbind out_bind]. rewrite EL.
      split; [reflexivity|]. rewrite foldM_app, E. split; [exact Ef|]. apply Forall_app. split; [|exact Hd].
      exact (e_stresses_len _ _ _ El). }
  destruct (F _ _ _ E) as (Ls & EL & Ef & Hd). exists Ls. split; [exact EL|].
  destruct (st_fold _ _ _ Hd Ef) as [Ln Hv]. split; [now rewrite map_length|].
  intros n o Ho. rewrite list_lookup_fmap in Ho. destruct (avs !! n) as [v|] eqn:Ev; [|discriminate]. injection Ho as <-.
  specialize (Hv n v Ev). unfold av_inv in Hv. destruct (at_node n (concat Ls)); [now subst|].
  destruct Hv as (m & -> & Hm). exact Hm.
Qed.
End mean.

(** ** the Cauchy tensor: upper triangle only *)
Section cauchy.
Context {A : arith}.

Lemma cauchy_upper (s : stress A) m : length (st_data s) = 6 -> to_cauchy s = Ret m ->
  exists dim, mshape m = (dim, dim) /\ forall r c, r < dim -> c < dim ->
    exists i, st_loc (st_type s) r c = Ret i /\ el m r c = if r <=? c then nth i (st_data s) s0 else s0.
Proof.
  destruct s as [t d]. cbn [st_data st_type]. intros L.
  destruct d as [|d0 [|d1 [|d2 [|d3 [|d4 [|d5 [|d6 d]]]]]]]; try discriminate L. clear L.
  destruct t.
  - intros E. exists 1. assert (m = LM 1 1 true [d0]) as -> by (revert E; vm_compute; congruence).
    split; [reflexivity|]. intros [|r] [|c]; try lia. intros _ _. exists 0. split; reflexivity.
  - intros E. exists 2. assert (m = LM 2 2 true [d0; d2; s0; d1]) as -> by (revert E; vm_compute; congruence).
    split; [reflexivity|]. intros [|[|r]] [|[|c]]; try lia; intros _ _; eexists; (split; [reflexivity|vm_compute; reflexivity]).
  - intros E. vm_compute in E. discriminate.
  - intros E. exists 3. assert (m = LM 3 3 true [d0; d3; d5; s0; d1; d4; s0; s0; d2]) as -> by (revert E; vm_compute; congruence).
    split; [reflexivity|]. intros [|[|[|r]]] [|[|[|c]]]; try lia; intros _ _; eexists; (split; [reflexivity|vm_compute; reflexivity]).
Qed.
End cauchy.

(** ** combining supports *)
Section supports.
Context {A : arith}.
Local Open Scope arith_scope.

(** motions (x, y) of a node that a support allows *)
Definition allows (c : constr A) (x y : A) : Prop :=
  match c with
  | Free => True
  | XFixed => x = 0
  | YFixed => y = 0
  | XYFixed => x = 0 /\ y = 0
  | AngleFixed th => scos th * x + ssin th * y = 0
  end.
Definition simple (c : constr A) : Prop := c = Free \/ c = XFixed \/ c = YFixed.

Lemma combine_simple (cs : list (constr A)) (x y : A) : Forall simple cs ->
  allows (fold_left Assem.combine cs Free) x y <-> Forall (fun c => allows c x y) cs.
Proof.
  intros H.
  enough (G : forall old, simple old \/ old = XYFixed -> Forall simple cs ->
    (allows (fold_left Assem.combine cs old) x y <-> allows old x y /\ Forall (fun c => allows c x y) cs)).
  { rewrite G; [|left; left; reflexivity|exact H]. cbn. tauto. }
  clear H. induction cs as [|c cs IH]; intros old Ho Hs; cbn [fold_left].
  - split; [intros Ha; split; [exact Ha|constructor]|tauto].
  - inversion Hs as [|? ? Hc Hs']; subst. rewrite IH; [|destruct Ho as [[->|[->| ->]]| ->], Hc as [->|[->| ->]]; unfold simple; cbn; tauto|exact Hs'].
    rewrite Forall_cons.
    destruct Ho as [[->|[->| ->]]| ->], Hc as [->|[->| ->]]; cbn; tauto.
Qed.

(** the supports of a node after a sequence of add_constraint calls *)
Lemma add_constraints_ret (a : elas A) n cs old : ea_cons a !! n = Some old ->
  exists a', foldM (fun c a => add_constraint a n c) cs a = Ret a' /\
    ea_cons a' = <[n := fold_left Assem.combine cs old]> (ea_cons a).
Proof.
  revert a old. induction cs as [|c cs IH]; intros a old Ho; cbn [foldM fold_left].
  - exists a. split; [reflexivity|]. now rewrite list_insert_id.
  - pose proof (lookup_lt_Some _ _ _ Ho) as Hn.
    set (a1 := Elas (ea_nodes a) (ea_cond a) (ea_mat a) (ea_elems a) (<[n := Assem.combine old c]> (ea_cons a)) (ea_conc a) (ea_line a)).
    assert (add_constraint a n c = Ret a1) as ->.
    { unfold add_constraint. rewrite (idx_lookup _ _ _ Ho). cbn [mbind out_bind]. now rewrite set_ret by exact Hn. }
    cbn [mbind out_bind].
    destruct (IH a1 (Assem.combine old c)) as (a' & E & Hc); [cbn; now apply list_lookup_insert|].
    exists a'. split; [exact E|]. rewrite Hc. cbn. now rewrite list_insert_insert.
Qed.
End supports.

(** ** equivalent stress over the reals *)
Section vm.
Local Open Scope R_scope.

Lemma st3 (a b c d e f : R) :
  von_mises (Stress (A := R_arith) ThreeD [a; b; c; d; e; f]) =
  R_sqrt.sqrt (1 / 2 * ((a - b) * (a - b) + (b - c) * (b - c) + (a - c) * (a - c)) + 3 * (d * d + e * e + f * f)).
Proof.
  unfold von_mises. cbn. f_equal; unfold ssq; cbn; field.
Qed.
Lemma st2 (a b t x y z : R) :
  von_mises (Stress (A := R_arith) Plane [a; b; t; x; y; z]) = R_sqrt.sqrt ((a - b) * (a - b) + 3 * (t * t)).
Proof. unfold von_mises. cbn. f_equal; unfold ssq; cbn; ring. Qed.
Lemma sta (a b t c x y : R) :
  von_mises (Stress (A := R_arith) AxiSym [a; b; t; c; x; y]) =
  R_sqrt.sqrt (1 / 2 * ((a - b) * (a - b) + (b - c) * (b - c) + (a - c) * (a - c)) + 3 * (t * t)).
Proof. unfold von_mises. cbn. f_equal; unfold ssq; cbn; field. Qed.

Lemma sq0 (x : R) : 0 <= x * x.
Proof. exact (Rle_0_sqr x). Qed.
Lemma sq_zero (x : R) : x * x = 0 -> x = 0.
Proof. intros H. destruct (Rmult_integral _ _ H); assumption. Qed.

Lemma plane_vm (a b t x y z : R) :
  von_mises (Stress (A := R_arith) Plane [a; b; t; x; y; z]) =
  von_mises (Stress (A := R_arith) ThreeD [a; b; 0; t; 0; 0]) <-> a * b = 0.
Proof.
  rewrite st2, st3. split.
  - intros E. apply R_sqrt.sqrt_inj in E; [lra| |]; clear E;
      pose proof (sq0 (a - b)); pose proof (sq0 t); pose proof (sq0 (b - 0)); pose proof (sq0 (a - 0)); lra.
  - intros E. f_equal. lra.
Qed.
Lemma vm_nonneg (s : stress R_arith) : st_type s <> Bar -> 0 <= von_mises s.
Proof. intros H. destruct s as [[] d]; cbn in H; try congruence; apply R_sqrt.sqrt_pos. Qed.
Lemma vm_shift (a b c d e f p : R) :
  von_mises (Stress (A := R_arith) ThreeD [a + p; b + p; c + p; d; e; f]) =
  von_mises (Stress (A := R_arith) ThreeD [a; b; c; d; e; f]).
Proof. rewrite !st3. f_equal. ring. Qed.
Lemma vm_zero (a b c d e f : R) :
  von_mises (Stress (A := R_arith) ThreeD [a; b; c; d; e; f]) = 0 <-> a = b /\ b = c /\ d = 0 /\ e = 0 /\ f = 0.
Proof.
  rewrite st3. split.
  - intros E.
    pose proof (sq0 (a - b)); pose proof (sq0 (b - c)); pose proof (sq0 (a - c)).
    pose proof (sq0 d); pose proof (sq0 e); pose proof (sq0 f).
    assert (H5 : 1 / 2 * ((a - b) * (a - b) + (b - c) * (b - c) + (a - c) * (a - c)) + 3 * (d * d + e * e + f * f) = 0)
      by (apply R_sqrt.sqrt_eq_0; [clear E; lra|exact E]). clear E.
    assert (a - b = 0) by (apply sq_zero; lra). assert (b - c = 0) by (apply sq_zero; lra).
    split; [lra|]. split; [lra|]. split; [apply sq_zero; lra|]. split; apply sq_zero; lra.
  - intros (-> & -> & -> & -> & ->). replace (_ + _) with 0 by field. apply R_sqrt.sqrt_0.
Qed.
Lemma vm_axi (a b t c x y : R) :
  von_mises (Stress (A := R_arith) AxiSym [a; b; t; c; x; y]) =
  von_mises (Stress (A := R_arith) ThreeD [a; b; c; t; 0; 0]).
Proof. rewrite sta, st3. f_equal. ring. Qed.
End vm.
