(** Assembly of the global matrices: what every reachable assemblage satisfies and the
    global matrix as a sum of element contributions. *)
From Verif Require Export ElemProofs SystemProofs.

(** ** Reachable assemblages *)
Inductive ea_op (A : arith) :=
  | ANodes (ns : list (point A))
  | AElement (d : nat * nat * nat)
  | AConc (n : nat) (f : point A)
  | ALine (n m : nat) (f : point A)
  | ASupport (n : nat) (c : constr A).
Global Arguments ANodes {A} _.
Global Arguments AElement {A} _.
Global Arguments AConc {A} _ _.
Global Arguments ALine {A} _ _ _.
Global Arguments ASupport {A} _ _.
Definition ea_step {A : arith} (o : ea_op A) (a : elas A) : out (elas A) :=
  match o with
  | ANodes ns => Ret (add_nodes a ns).1
  | AElement d => add_element a d
  | AConc n f => Ret (add_conc_force a n f)
  | ALine n m f => Ret (add_dist_line_force a n m f)
  | ASupport n c => add_constraint a n c
  end.
Definition ea_built {A : arith} (a : elas A) : Prop :=
  exists mat cond ops, foldM ea_step ops (ea_new mat cond) = Ret a.

Section built.
Context {A : arith}.

(** the corners of [e] are the nodes it names *)
Definition el_of (a : elas A) (e : element A) : Prop :=
  planar e /\ e_mat e = ea_mat a /\ e_cond e = ea_cond a /\
  ea_nodes a !! (e_ids e).1.1 = Some (e_pts e).1.1 /\
  ea_nodes a !! (e_ids e).1.2 = Some (e_pts e).1.2 /\
  ea_nodes a !! (e_ids e).2 = Some (e_pts e).2.
Definition ea_ok (a : elas A) : Prop :=
  length (ea_cons a) = length (ea_nodes a) /\ forall e, e ∈ ea_elems a -> el_of a e.

Lemma jacobian_planar (e : element A) j : jacobian_ratio e = Ret j -> planar e.
Proof.
  unfold jacobian_ratio. intros E. apply bind_ret_inv in E as (js & E & _).
  cbn [tri_samples mapM_out] in E. apply bind_ret_inv in E as (x & E & _).
  apply bind_ret_inv in E as (m & E & _). exact (mats_planar _ _ _ E).
Qed.

Lemma idx_inv {B} (l : list B) i x : idx l i = Ret x -> l !! i = Some x.
Proof. unfold idx, unwrap. destruct (l !! i); [now injection 1 as ->|discriminate]. Qed.

Lemma set_inv {B} (l : list B) i x l' : set l i x = Ret l' -> i < length l /\ l' = <[i:=x]> l.
Proof.
  unfold set. destruct (l !! i) eqn:H; [|discriminate]. intros E. injection E as <-. split; [exact (lookup_lt_Some _ _ _ H)|reflexivity].
Qed.

Lemma ea_step_ok o (a a' : elas A) : ea_ok a -> ea_step o a = Ret a' -> ea_ok a'.
Proof.
  intros [Hl He]. destruct o as [ns|d|n f|n m f|n c]; cbn [ea_step].
  - injection 1 as <-. split; cbn.
    + rewrite !app_length, replicate_length, Hl. reflexivity.
    + intros e Hin. destruct (He e Hin) as (H1 & H2 & H3 & H4 & H5 & H6).
      repeat (split; [assumption|]). cbn. rewrite !lookup_app_l by (eapply lookup_lt_Some; eassumption).
      auto.
  - unfold add_element, build_element, ea_node. intros E.
    apply bind_ret_inv in E as (e & E1 & E). apply bind_ret_inv in E as (j & Ej & E).
    apply bind_ret_inv in E1 as (p0 & E0 & E1). apply bind_ret_inv in E1 as (p1 & E2 & E1).
    apply bind_ret_inv in E1 as (p2 & E3 & E1). injection E1 as <-.
    destruct (sltb j s0); [discriminate|]. injection E as <-. split; [exact Hl|]. cbn.
    intros e Hin. apply elem_of_app in Hin as [Hin|Hin]; [exact (He e Hin)|].
    apply elem_of_list_singleton in Hin as ->. apply idx_inv in E0, E2, E3.
    split; [exact (jacobian_planar _ _ Ej)|]. cbn. auto.
  - injection 1 as <-. split; [exact Hl|]. exact He.
  - injection 1 as <-. split; [exact Hl|]. exact He.
  - unfold add_constraint. intros E. apply bind_ret_inv in E as (old & Eo & E).
    apply bind_ret_inv in E as (cs & Es & E). injection E as <-.
    apply set_inv in Es as [_ ->]. split; cbn; [now rewrite insert_length|exact He].
Qed.

Lemma foldM_ok {B T} (f : B -> T -> out T) (P : T -> Prop) l : forall s s',
  (forall x s s', P s -> f x s = Ret s' -> P s') -> P s -> foldM f l s = Ret s' -> P s'.
Proof.
  induction l as [|x l IH]; intros s s' Hf Hs E; cbn [foldM] in E.
  - now injection E as <-.
  - apply bind_ret_inv in E as (s1 & E1 & E). eapply IH; [exact Hf| |exact E]. eauto.
Qed.

Lemma ea_built_ok (a : elas A) : ea_built a -> ea_ok a.
Proof.
  intros (mat & cond & ops & E). eapply foldM_ok; [|  |exact E].
  - intros o s s'. apply ea_step_ok.
  - split; [reflexivity|]. intros e He. apply elem_of_nil in He. contradiction.
Qed.

Lemma el_of_dof a (e : element A) i : el_of a e -> i < 6 -> to_dof (e_dof e i) < node_count a * 2.
Proof.
  intros (_ & _ & _ & H0 & H1 & H2) Hi. apply lookup_lt_Some in H0, H1, H2. unfold node_count, to_dof, e_dof.
  cbn [fst snd]. assert (i mod 2 < 2) by (apply Nat.mod_upper_bound; lia).
  assert (nth (i / 2) (e_id_list e) 0 < length (ea_nodes a)); [|lia].
  unfold e_id_list. do 6 (destruct i as [|i]; [cbn; assumption|]). lia.
Qed.
End built.

(** ** The accumulated matrix *)
Notation contribs A := (list ((nat * nat) * (nat * nat) * carrier A)).
Section accum.
Context {A : arith} (FL : field_laws A).
Add Field Afield33 : (fl_field A FL).
Local Open Scope arith_scope.

(** sum of the contributions to global position (i, j) *)
Definition contrib (l : contribs A) (i j : nat) : A :=
  ssum (map (fun t => if ((to_dof t.1.1 =? i) && (to_dof t.1.2 =? j))%nat then t.2 else 0) l).

Lemma ssum_app (l1 l2 : list A) : ssum (l1 ++ l2) = ssum l1 + ssum l2.
Proof.
  induction l1 as [|x l1 IH]; cbn [app]; [unfold ssum at 2; cbn; ring|].
  rewrite !(ssum_cons FL), IH. ring.
Qed.

Lemma ssum_rm (g : nat -> nat -> A) R C : ssum (rm_list R C g) = bigsum R (fun i => bigsum C (fun j => g i j)).
Proof.
  unfold rm_list. induction R as [|R IH]; [reflexivity|].
  rewrite seq_S_app, map_app, concat_app, ssum_app, IH. cbn [map concat bigsum Nat.add].
  rewrite app_nil_r, ssum_seq. reflexivity.
Qed.

Lemma contrib_app l1 l2 i j : contrib (l1 ++ l2) i j = contrib l1 i j + contrib l2 i j.
Proof. unfold contrib. now rewrite map_app, ssum_app. Qed.

Lemma accum_one (l : contribs A) N : forall d, dict_wf d -> d_shape d = (N, N) ->
  (forall t, t ∈ l -> (to_dof t.1.1 < N)%nat /\ (to_dof t.1.2 < N)%nat) ->
  exists d', foldM (fun ijv d => index_upd d (to_dof ijv.1.1, to_dof ijv.1.2) (fun x => sadd x ijv.2)) l d = Ret d' /\
    dict_wf d' /\ d_shape d' = (N, N) /\ forall i j, el d' i j = el d i j + contrib l i j.
Proof.
  induction l as [|t l IH]; intros d W Hs Hb.
  - exists d. split; [reflexivity|]. split; [exact W|]. split; [exact Hs|]. intros i j. unfold contrib, ssum. cbn. ring.
  - cbn [foldM]. destruct (Hb t) as [H1 H2]; [left|].
    destruct (index_upd_ret _ _ d_laws d (to_dof t.1.1) (to_dof t.1.2) (fun x => sadd x t.2) W)
      as (d1 & E1 & W1 & S1 & _ & V1).
    { unfold full_dom. apply in_shape_true. cbn. rewrite Hs. cbn. auto. }
    rewrite E1. cbn [mbind out_bind].
    destruct (IH d1 W1) as (d' & E' & W' & S' & V').
    { change (mshape d1 = (N, N)). rewrite S1. exact Hs. }
    { intros t' Ht'. apply Hb. now right. }
    exists d'. split; [exact E'|]. split; [exact W'|]. split; [exact S'|].
    intros i j. rewrite V', V1. unfold contrib. cbn [map]. rewrite (ssum_cons FL).
    rewrite (Nat.eqb_sym i), (Nat.eqb_sym j).
    destruct (Nat.eqb_spec (to_dof t.1.1) i) as [<-|]; cbn [andb]; [|ring].
    destruct (Nat.eqb_spec (to_dof t.1.2) j) as [<-|]; cbn [andb]; [|ring]. ring.
Qed.

Lemma accum_ret (entries : element A -> out (contribs A)) (le : element A -> contribs A) N els :
  forall d, dict_wf d -> d_shape d = (N, N) ->
  (forall e, e ∈ els -> entries e = Ret (le e) /\
     forall t, t ∈ le e -> (to_dof t.1.1 < N)%nat /\ (to_dof t.1.2 < N)%nat) ->
  exists d', accum entries els d = Ret d' /\ dict_wf d' /\ d_shape d' = (N, N) /\
    forall i j, el d' i j = el d i j + contrib (concat (map le els)) i j.
Proof.
  induction els as [|e els IH]; intros d W Hs Hb.
  - exists d. split; [reflexivity|]. split; [exact W|]. split; [exact Hs|]. intros i j. unfold contrib, ssum. cbn. ring.
  - unfold accum. cbn [foldM]. destruct (Hb e) as [He Ht]; [left|]. rewrite He. cbn [mbind out_bind].
    destruct (accum_one (le e) N d W Hs Ht) as (d1 & E1 & W1 & S1 & V1). rewrite E1. cbn [mbind out_bind].
    destruct (IH d1 W1 S1) as (d' & E' & W' & S' & V').
    { intros e' He'. apply Hb. now right. }
    exists d'. split; [exact E'|]. split; [exact W'|]. split; [exact S'|].
    intros i j. rewrite V', V1. cbn [map concat]. rewrite contrib_app. ring.
Qed.

(** pairing with vectors *)
Lemma contrib_form (l : contribs A) N (u w : nat -> A) :
  (forall t, t ∈ l -> (to_dof t.1.1 < N)%nat /\ (to_dof t.1.2 < N)%nat) ->
  bigsum N (fun i => bigsum N (fun j => u i * contrib l i j * w j)) =
  ssum (map (fun t => u (to_dof t.1.1) * t.2 * w (to_dof t.1.2)) l).
Proof.
  induction l as [|t l IH]; intros Hb.
  - unfold contrib, ssum. cbn. apply (bigsum_0 FL). intros i _. apply (bigsum_0 FL). intros j _. ring.
  - cbn [map]. rewrite (ssum_cons FL), <- IH by (intros t' Ht'; apply Hb; now right).
    destruct (Hb t) as [H1 H2]; [left|].
    rewrite (bigsum_ext _ (fun i => bigsum N (fun j => u i * (if ((to_dof t.1.1 =? i) && (to_dof t.1.2 =? j))%nat then t.2 else 0) * w j)
       + bigsum N (fun j => u i * contrib l i j * w j))).
    2:{ intros i _. rewrite <- (bigsum_add FL). apply bigsum_ext. intros j _. unfold contrib. cbn [map].
        rewrite (ssum_cons FL). ring. }
    rewrite (bigsum_add FL). f_equal.
    rewrite (bigsum_single FL N (to_dof t.1.1)).
    2: assumption.
    2:{ intros i _ Hi. apply (bigsum_0 FL). intros j _. destruct (Nat.eqb_spec (to_dof t.1.1) i); [congruence|cbn; ring]. }
    rewrite (bigsum_single FL N (to_dof t.1.2)).
    + rewrite !Nat.eqb_refl. reflexivity.
    + assumption.
    + intros j _ Hj. rewrite Nat.eqb_refl. destruct (Nat.eqb_spec (to_dof t.1.2) j); [congruence|cbn; ring].
Qed.

Lemma contrib_row (l : contribs A) N i (w : nat -> A) :
  (forall t, t ∈ l -> (to_dof t.1.2 < N)%nat) ->
  bigsum N (fun j => contrib l i j * w j) =
  ssum (map (fun t => if (to_dof t.1.1 =? i)%nat then t.2 * w (to_dof t.1.2) else 0) l).
Proof.
  induction l as [|t l IH]; intros Hb.
  - unfold contrib, ssum. cbn. apply (bigsum_0 FL). intros j _. ring.
  - cbn [map]. rewrite (ssum_cons FL), <- IH by (intros t' Ht'; apply Hb; now right).
    rewrite (bigsum_ext _ (fun j => (if ((to_dof t.1.1 =? i) && (to_dof t.1.2 =? j))%nat then t.2 else 0) * w j
       + contrib l i j * w j)).
    2:{ intros j _. unfold contrib. cbn [map]. rewrite (ssum_cons FL). ring. }
    rewrite (bigsum_add FL). f_equal.
    destruct (Nat.eqb_spec (to_dof t.1.1) i) as [_|_]; cbn [andb].
    + rewrite (bigsum_single FL N (to_dof t.1.2)).
      * now rewrite Nat.eqb_refl.
      * apply Hb. left.
      * intros j _ Hj. destruct (Nat.eqb_spec (to_dof t.1.2) j); [congruence|ring].
    + apply (bigsum_0 FL). intros j _. ring.
Qed.

(** contributions of one element matrix *)
Definition el_list (g : element A -> nat -> nat -> A) (e : element A) : contribs A :=
  rm_list 6 6 (fun i j => (e_dof e i, e_dof e j, g e i j)).

Lemma el_list_bound a (e : element A) g t : el_of a e -> t ∈ el_list g e ->
  (to_dof t.1.1 < node_count a * 2)%nat /\ (to_dof t.1.2 < node_count a * 2)%nat.
Proof.
  intros He Ht. apply elem_of_list_lookup in Ht as (k & Hk).
  apply rm_list_lookup_Some in Hk as (r & c & Hr & Hc & _ & ->). cbn.
  split; now apply el_of_dof.
Qed.

Lemma concat_bound a (els : list (element A)) g t : (forall e, e ∈ els -> el_of a e) ->
  t ∈ concat (map (el_list g) els) ->
  (to_dof t.1.1 < node_count a * 2)%nat /\ (to_dof t.1.2 < node_count a * 2)%nat.
Proof.
  intros He Ht. apply elem_of_list_In, in_concat in Ht as (l & Hl & Ht).
  apply in_map_iff in Hl as (e & <- & Hin). apply elem_of_list_In in Hin, Ht.
  exact (el_list_bound a e g t (He e Hin) Ht).
Qed.

Lemma assembled (a : elas A) (entries : element A -> out (contribs A)) g : ea_ok a ->
  (forall e, planar e -> entries e = Ret (el_list g e)) ->
  exists d, accum entries (ea_elems a) (d_zeros (node_count a * 2, node_count a * 2)%nat) = Ret d /\
    dict_wf d /\ d_shape d = (node_count a * 2, node_count a * 2)%nat /\
    forall i j, el d i j = contrib (concat (map (el_list g) (ea_elems a))) i j.
Proof.
  intros [_ He] Hg.
  destruct (accum_ret entries (el_list g) (node_count a * 2) (ea_elems a)
     (d_zeros (node_count a * 2, node_count a * 2)%nat) (d_zeros_wf _) eq_refl) as (d & E & W & Hs & V).
  { intros e Hin. split; [apply Hg, (He e Hin)|]. intros t. apply el_list_bound. now apply He. }
  exists d. split; [exact E|]. split; [exact W|]. split; [exact Hs|].
  intros i j. rewrite V, d_zeros_el. ring.
Qed.

Lemma assembled_k (a : elas A) : ea_ok a ->
  exists d, ea_calc_k a = Ret d /\ dict_wf d /\ d_shape d = (node_count a * 2, node_count a * 2)%nat /\
    forall i j, el d i j = contrib (concat (map (el_list K_c) (ea_elems a))) i j.
Proof. intros H. apply assembled; [exact H|]. apply calc_k_ret. Qed.

Lemma assembled_m (a : elas A) : ea_ok a ->
  exists d, ea_calc_m a = Ret d /\ dict_wf d /\ d_shape d = (node_count a * 2, node_count a * 2)%nat /\
    forall i j, el d i j = contrib (concat (map (el_list M_c) (ea_elems a))) i j.
Proof. intros H. apply assembled; [exact H|]. apply calc_m_ret. Qed.

(** energy of the assembled matrix: the sum of the element energies *)
Lemma ssum_concat_map {B} (f : B -> A) (ll : list (list B)) :
  ssum (map f (concat ll)) = ssum (map (fun l => ssum (map f l)) ll).
Proof.
  induction ll as [|l ll IH]; [reflexivity|]. cbn [concat map]. rewrite map_app, ssum_app, (ssum_cons FL), IH. reflexivity.
Qed.

Definition el_form (g : nat -> nat -> A) (u w : nat -> A) : A :=
  bigsum 6 (fun i => bigsum 6 (fun j => u i * g i j * w j)).
Definition loc (e : element A) (u : nat -> A) (i : nat) : A := u (to_dof (e_dof e i)).

Lemma assembled_form (a : elas A) g (u w : nat -> A) : ea_ok a ->
  bigsum (node_count a * 2) (fun i => bigsum (node_count a * 2)
    (fun j => u i * contrib (concat (map (el_list g) (ea_elems a))) i j * w j)) =
  ssum (map (fun e => el_form (g e) (loc e u) (loc e w)) (ea_elems a)).
Proof.
  intros [_ He]. rewrite contrib_form by (intros t; now apply concat_bound).
  rewrite ssum_concat_map, map_map. f_equal. apply map_ext. intros e.
  unfold el_list. rewrite map_rm, ssum_rm. reflexivity.
Qed.

Lemma assembled_row (a : elas A) g i (w : nat -> A) : ea_ok a ->
  bigsum (node_count a * 2) (fun j => contrib (concat (map (el_list g) (ea_elems a))) i j * w j) =
  ssum (map (fun e => bigsum 6 (fun k => if (to_dof (e_dof e k) =? i)%nat
                                         then bigsum 6 (fun j => g e k j * loc e w j) else 0)) (ea_elems a)).
Proof.
  intros [_ He]. rewrite contrib_row by (intros t Ht; eapply concat_bound; [exact He|exact Ht]).
  rewrite ssum_concat_map, map_map. f_equal. apply map_ext. intros e.
  unfold el_list. rewrite map_rm, ssum_rm. apply bigsum_ext. intros k _. cbn [fst snd].
  destruct (Nat.eqb_spec (to_dof (e_dof e k)) i); [reflexivity|]. apply (bigsum_0 FL). reflexivity.
Qed.
End accum.
