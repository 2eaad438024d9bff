(** Bookkeeping of the eigenvalue search: brackets, splitting, and what a finished search
    has recorded. *)
From Verif Require Export Ord Eigen.

Lemma mapM_out_inv {X Y} (f : X -> out Y) (l : list X) (l' : list Y) : mapM_out f l = Ret l' ->
  length l' = length l /\ forall i x, l !! i = Some x -> exists y, f x = Ret y /\ l' !! i = Some y.
Proof.
  revert l'. induction l as [|a l IH]; intros l' E; cbn [mapM_out] in E.
  - injection E as <-. split; [reflexivity|]. intros i x H. now rewrite lookup_nil in H.
  - apply bind_ret_inv in E as (b & Eb & E). apply bind_ret_inv in E as (bs & Ebs & E). injection E as <-.
    destruct (IH _ Ebs) as [Hl Hi]. split; [cbn; lia|]. intros [|i] x H; cbn in H |- *.
    + injection H as <-. eauto.
    + now apply Hi.
Qed.

Lemma usub_inv a b c : usub a b = Ret c -> b <= a /\ c = a - b.
Proof. unfold usub. destruct (decide (b <= a)); [intros [= <-]; auto|discriminate]. Qed.

Lemma assert_inv b u : assert_ b = Ret u -> b = true.
Proof. destruct b; [reflexivity|discriminate]. Qed.

Section search.
Context {A : arith} (OL : ord_laws A).
Let FL : field_laws A := ol_field A OL.
Add Field Afield24 : (fl_field A FL).
Local Open Scope arith_scope.

(** the number of values a bracket stands for *)
Definition range_count (r : erange A) : nat :=
  match r with REmpty => 0%nat | ROne _ _ => 1%nat | RMany _ _ a b => b - a end.

(** [r] is the bracket [lo, up) holding the values number a, ..., b-1 *)
Definition range_desc (r : erange A) (lo up : A) (a b : nat) : Prop :=
  match r with
  | REmpty => a = b
  | ROne l u => l = lo /\ u = up /\ b = S a /\ lts lo up
  | RMany l u a' b' => l = lo /\ u = up /\ a' = a /\ b' = b /\ (S a < b)%nat /\ lts lo up
  end.

Lemma one_new_inv lo up (r : erange A) : one_new lo up = Ret r -> r = ROne lo up /\ lts lo up.
Proof. unfold one_new. intros E. apply bind_ret_inv in E as (? & E1 & E). apply assert_inv in E1. injection E as <-. auto. Qed.

Lemma many_new_inv lo up a b (r : erange A) : many_new lo up a b = Ret r ->
  r = RMany lo up a b /\ lts lo up /\ (S a < b)%nat.
Proof.
  unfold many_new. intros E. apply bind_ret_inv in E as (? & E1 & E). apply assert_inv in E1.
  apply bind_ret_inv in E as (? & E2 & E). apply assert_inv, Nat.ltb_lt in E2.
  apply bind_ret_inv in E as (c & E3 & E). apply usub_inv in E3 as [H3 ->].
  apply bind_ret_inv in E as (? & E4 & E). apply assert_inv, Nat.ltb_lt in E4. injection E as <-.
  split; [reflexivity|]. split; [exact E1|lia].
Qed.

Lemma part_new_inv lo up a b (r : erange A) : (a <= b)%nat -> part_new lo up a b (b - a) = Ret r ->
  range_desc r lo up a b /\ range_count r = (b - a)%nat.
Proof.
  intros Hab. unfold part_new. destruct (b - a)%nat as [|[|c]] eqn:Ec; intros E.
  - injection E as <-. cbn. split; lia.
  - apply one_new_inv in E as [-> H]. cbn. repeat split; auto; lia.
  - apply many_new_inv in E as (-> & H & H'). cbn. repeat split; auto; lia.
Qed.

Lemma many_split_inv lo up a b n (rr : erange A * erange A) : many_split lo up a b n = Ret rr ->
  (a <= n <= b)%nat /\ range_desc rr.1 lo (mid_val lo up) a n /\ range_desc rr.2 (mid_val lo up) up n b /\
  (range_count rr.1 = n - a)%nat /\ (range_count rr.2 = b - n)%nat.
Proof.
  unfold many_split. intros E. apply bind_ret_inv in E as (c1 & E1 & E). apply usub_inv in E1 as [H1 ->].
  apply bind_ret_inv in E as (c2 & E2 & E). apply usub_inv in E2 as [H2 ->].
  apply bind_ret_inv in E as (l & El & E). apply bind_ret_inv in E as (u & Eu & E). injection E as <-.
  apply part_new_inv in El as [Hl Hlc]; [|exact H1]. apply part_new_inv in Eu as [Hu Huc]; [|exact H2].
  cbn [fst snd]. repeat split; auto.
Qed.

Lemma range_new_inv lo up a b (r : erange A) : range_new lo up a b = Ret r ->
  range_desc r lo up a b /\ lts lo up /\ (a < b)%nat.
Proof.
  unfold range_new. intros E. apply bind_ret_inv in E as (? & E1 & E). apply assert_inv, Nat.ltb_lt in E1.
  apply bind_ret_inv in E as (c & E2 & E). apply usub_inv in E2 as [H2 ->].
  destruct (Nat.eqb_spec (b - a) 1) as [He|He].
  - apply one_new_inv in E as [-> H]. cbn. repeat split; auto; lia.
  - apply many_new_inv in E as (-> & H & H'). cbn. repeat split; auto; lia.
Qed.

Lemma two_pos : lts 0 (sz 2 : A).
Proof.
  unfold sz. cbn. replace ((1 + 1) * 1 : A) with (1 + 1 : A) by ring. try change (gen_phiPOS1 _ _ _ _) with (1 + 1 : A).
  apply (lts_trans OL) with 1; [apply (one_pos OL)|]. apply (lts_sub0 OL). replace (1 + 1 - 1 : A) with (1 : A) by ring. apply (one_pos OL).
Qed.

Lemma two_eq : (sz 2 : A) = 1 + 1.
Proof. unfold sz. cbn. ring. Qed.

Lemma mid_between (lo up : A) : lts lo up -> lts lo (mid_val lo up) /\ lts (mid_val lo up) up.
Proof.
  intros H. pose proof two_pos as H2. assert (Hn : (sz 2 : A) <> 0) by (intros E; rewrite E in H2; now apply (lts_irr OL) in H2).
  apply (lts_sub0 OL) in H. unfold mid_val. rewrite !(lts_sub0 OL (_ / _)), (lts_sub0 OL lo).
  replace ((lo + up) / sz 2 - lo) with ((up - lo) / sz 2) by (rewrite two_eq in *; field; exact Hn).
  replace (up - (lo + up) / sz 2) with ((up - lo) / sz 2) by (rewrite two_eq in *; field; exact Hn).
  split; now apply (div_pos OL).
Qed.

(** ** the record a search leaves *)
Section trace.
Variables (es : esys A) (fi : nat) (rnd : list A).

(** pair number [i] of [ps] was computed from bracket (lo, hi) *)
Definition from_bracket (ps : list (epair A)) (i : nat) (b : A * A) (p : epair A) : Prop :=
  lts b.1 b.2 /\ eigenvalues_under es b.2 = Ret (S i) /\
  (exists c, eigenvalues_under es b.1 = Ret c /\ (c <= i)%nat) /\
  inverse_iterate fi rnd (es_k es) (es_m es) (mid_val b.1 b.2) (gso_slice (take i ps)) = Ret p.

Definition ordered (bs : list (A * A)) : Prop :=
  forall i j b b', (i < j)%nat -> bs !! i = Some b -> bs !! j = Some b' -> les b.2 b'.1.

(** everything above [x] so far lies below [up] *)
Definition trace_ok (bs : list (A * A)) (ps : list (epair A)) : Prop :=
  length bs = length ps /\ ordered bs /\
  (forall i b p, bs !! i = Some b -> ps !! i = Some p -> from_bracket ps i b p).

Definition below (bs : list (A * A)) (x : A) : Prop := forall b, b ∈ bs -> les b.2 x.

Lemma from_bracket_app ps qs i b p : (i < length ps)%nat -> from_bracket ps i b p -> from_bracket (ps ++ qs) i b p.
Proof. unfold from_bracket. intros Hi H. rewrite take_app_le by lia. exact H. Qed.

Lemma trace_snoc bs ps b p : trace_ok bs ps -> below bs b.1 -> from_bracket ps (length ps) b p ->
  trace_ok (bs ++ [b]) (ps ++ [p]).
Proof.
  intros (Hl & Ho & Hf) Hb Hp. split; [rewrite !app_length; cbn; lia|]. split.
  - intros i j b1 b2 Hij H1 H2. destruct (decide (j < length bs)%nat) as [Hj|Hj].
    + rewrite lookup_app_l in H1 by lia; rewrite lookup_app_l in H2 by lia. exact (Ho i j b1 b2 Hij H1 H2).
    + rewrite lookup_app_r in H2 by lia. apply list_lookup_singleton_Some in H2 as [Hj2 <-].
      rewrite lookup_app_l in H1 by lia. apply Hb. eapply elem_of_list_lookup_2; eassumption.
  - intros i b1 p1 H1 H2. destruct (decide (i < length ps)%nat) as [Hi|Hi].
    + rewrite lookup_app_l in H1 by lia; rewrite lookup_app_l in H2 by lia. apply from_bracket_app; [exact Hi|]. now apply Hf.
    + rewrite lookup_app_r in H1 by lia; rewrite lookup_app_r in H2 by lia. apply list_lookup_singleton_Some in H1 as [Hi1 <-].
      apply list_lookup_singleton_Some in H2 as [Hi2 <-]. replace i with (length ps) by lia.
      unfold from_bracket in *. rewrite take_app_le by lia. exact Hp.
Qed.

Lemma process_spec depth : forall s r lo up a b s' bs,
  se_sys s = es -> range_desc r lo up a b -> les lo up -> length (se_pairs s) = a ->
  trace_ok bs (se_pairs s) -> below bs lo ->
  (exists c, eigenvalues_under es lo = Ret c /\ (c <= a)%nat) -> eigenvalues_under es up = Ret b ->
  process_eigenrange fi depth rnd s r = Ret s' ->
  se_sys s' = es /\ se_mus s' = se_mus s /\ (a <= b)%nat /\ length (se_pairs s') = b /\
  exists ex bs', se_pairs s' = se_pairs s ++ ex /\ trace_ok bs' (se_pairs s') /\ below bs' up.
Proof.
  assert (One : forall depth s lo up a b s' bs,
    se_sys s = es -> range_desc (ROne lo up) lo up a b -> les lo up -> length (se_pairs s) = a ->
    trace_ok bs (se_pairs s) -> below bs lo ->
    (exists c, eigenvalues_under es lo = Ret c /\ (c <= a)%nat) -> eigenvalues_under es up = Ret b ->
    process_eigenrange fi depth rnd s (ROne lo up) = Ret s' ->
    se_sys s' = es /\ se_mus s' = se_mus s /\ (a <= b)%nat /\ length (se_pairs s') = b /\
    exists ex bs', se_pairs s' = se_pairs s ++ ex /\ trace_ok bs' (se_pairs s') /\ below bs' up).
  { intros depth0 s lo up a b s' bs Hs (_ & _ & -> & Hlt) Hle Ha Ht Hb Hlo Hup E.
    assert (E' : process_one fi rnd s lo up = Ret s') by (destruct depth0; exact E). clear E.
    unfold process_one in E'. apply bind_ret_inv in E' as (p & Ep & E). injection E as <-. cbn [se_sys se_mus se_pairs].
    rewrite app_length. cbn [length]. split; [exact Hs|]. split; [reflexivity|]. split; [lia|]. split; [lia|].
    exists [p], (bs ++ [(lo, up)]). split; [reflexivity|]. split.
    - apply trace_snoc; [exact Ht|exact Hb|]. unfold from_bracket. cbn [fst snd]. rewrite Ha.
      split; [exact Hlt|]. split; [exact Hup|]. split; [exact Hlo|]. rewrite <- Ha, firstn_all. rewrite <- Hs at 1 2. exact Ep.
    - intros b Hin. apply elem_of_app in Hin as [Hin|Hin].
      + apply (les_trans OL) with lo; [now apply Hb|exact Hle].
      + apply elem_of_list_singleton in Hin as ->. apply (les_refl OL). }
  induction depth as [|depth IH]; intros s r lo up a b s' bs Hs Hr Hle Ha Ht Hb Hlo Hup E; destruct r as [l u|l u a' b'|].
  - destruct Hr as (-> & -> & Hr). eapply One; try eassumption. cbn. auto.
  - discriminate E.
  - injection E as <-. cbn in Hr. subst b. split; [exact Hs|]. split; [reflexivity|]. split; [lia|]. split; [lia|].
    exists [], bs. rewrite app_nil_r. split; [reflexivity|]. split; [exact Ht|]. intros x Hx. apply (les_trans OL) with lo; [now apply Hb|exact Hle].
  - destruct Hr as (-> & -> & Hr). eapply One; try eassumption. cbn. auto.
  - destruct Hr as (-> & -> & -> & -> & Hab & Hlt). cbn [process_eigenrange] in E.
    apply bind_ret_inv in E as (n & En & E). apply bind_ret_inv in E as (rr & Er & E).
    apply bind_ret_inv in E as (s1 & E1 & E2). apply many_split_inv in Er as (Hn & Hl & Hu & _).
    destruct (mid_between lo up Hlt) as [Hm1 Hm2]. rewrite Hs in En.
    destruct (IH s rr.1 lo (mid_val lo up) a n s1 bs) as (Hs1 & Hmu1 & Hle1 & Hn1 & ex1 & bs1 & Hex1 & Ht1 & Hb1); try assumption.
    { now apply (lts_les OL). }
    destruct (IH s1 rr.2 (mid_val lo up) up n b s' bs1) as (Hs2 & Hmu2 & Hle2 & Hn2 & ex2 & bs2 & Hex2 & Ht2 & Hb2); try assumption.
    { now apply (lts_les OL). }
    { exists n. split; [exact En|lia]. }
    split; [exact Hs2|]. split; [congruence|]. split; [lia|]. split; [exact Hn2|].
    exists (ex1 ++ ex2), bs2. split; [rewrite Hex2, Hex1; now rewrite app_assoc|]. auto.
  - injection E as <-. cbn in Hr. subst b. split; [exact Hs|]. split; [reflexivity|]. split; [lia|]. split; [lia|].
    exists [], bs. rewrite app_nil_r. split; [reflexivity|]. split; [exact Ht|]. intros x Hx. apply (les_trans OL) with lo; [now apply Hb|exact Hle].
Qed.

Lemma double_loop_spec fs : forall eu mu r mo mn, double_loop fs es eu mu = Ret (r, mo, mn) ->
  (exists c, eigenvalues_under es mu = Ret c /\ (c <= eu)%nat) ->
  exists nu, (eu < nu)%nat /\ lts 0 mu /\ les mu mo /\ lts mo mn /\ range_desc r mo mn eu nu /\
    eigenvalues_under es mn = Ret nu /\ exists c, eigenvalues_under es mo = Ret c /\ (c <= eu)%nat.
Proof.
  induction fs as [|fs IH]; intros eu mu r mo mn E Hmu; cbn [double_loop] in E; [discriminate E|].
  apply bind_ret_inv in E as (nu & En & E). destruct (Nat.ltb_spec eu nu) as [Hlt|Hge].
  - apply bind_ret_inv in E as (r' & Er & E). injection E as <- <- <-. apply range_new_inv in Er as (Hr & Hl & _).
    exists nu. split; [exact Hlt|]. split; [|split; [apply (les_refl OL)|split; [exact Hl|auto]]].
    apply (lts_sub0 OL) in Hl. rewrite two_eq in Hl. now replace (mu * (1 + 1) - mu) with mu in Hl by ring.
  - apply IH in E as (nu' & H1 & H2 & H3 & H4 & H5 & H6 & H7); [|eauto].
    assert (Hp : lts 0 mu).
    { destruct (lts_total OL 0 mu) as [H|[<-|H]]; [exact H|exfalso..].
      - rewrite two_eq in H2. replace (0 * (1 + 1)) with (0 : A) in H2 by ring. now apply (lts_irr OL) in H2.
      - rewrite two_eq in H2. replace (mu * (1 + 1)) with (mu + mu) in H2 by ring.
        apply (lts_asym OL) in H2. apply H2. pose proof (lts_les_add OL _ _ _ _ H (lts_les OL _ _ H)) as H8.
        now replace (0 + 0) with (0 : A) in H8 by ring. }
    exists nu'. split; [exact H1|]. split; [exact Hp|]. split; [|auto].
    apply (les_trans OL) with (mu * sz 2); [|exact H3]. rewrite two_eq. apply (lts_les OL), (lts_sub0 OL).
    now replace (mu * (1 + 1) - mu) with mu by ring.
Qed.

Lemma starts_loop_spec fs : forall mu r, starts_loop fs es mu = Ret r -> eigenvalues_under es r.2 = Ret 0%nat.
Proof.
  induction fs as [|fs IH]; intros mu r E; cbn [starts_loop] in E; [discriminate E|].
  apply bind_ret_inv in E as (p & Ep & E). destruct (Nat.eqb_spec p 0) as [->|Hp].
  - injection E as <-. exact Ep.
  - exact (IH _ _ E).
Qed.

(** what holds between two calls *)
Definition search_inv (s : searcher A) : Prop :=
  se_sys s = es /\ exists bs, trace_ok bs (se_pairs s) /\
  match se_mus s with
  | None => se_pairs s = []
  | Some mu => eigenvalues_under es mu.2 = Ret (length (se_pairs s)) /\ below bs mu.2
  end.

Lemma secant_iterate_one_spec fs s s' : search_inv s -> secant_iterate_one fi fs rnd s = Ret s' ->
  search_inv s' /\ (length (se_pairs s) < es_dofs es -> length (se_pairs s) < length (se_pairs s'))%nat.
Proof.
  intros (Hs & bs & Ht & Hm) E. unfold secant_iterate_one in E. rewrite Hs in E.
  destruct (Nat.leb_spec (es_dofs es) (length (se_pairs s))) as [Hge|Hlt].
  { injection E as <-. split; [|lia]. split; [exact Hs|]. exists bs. auto. }
  apply bind_ret_inv in E as (mu & Emu & E). apply bind_ret_inv in E as ([[r mo] mn] & Ed & E).
  apply bind_ret_inv in E as (s1 & E1 & E). injection E as <-. cbn [fst snd] in *.
  assert (Hc : eigenvalues_under es mu.2 = Ret (length (se_pairs s)) /\ below bs mu.2).
  { destruct (se_mus s) as [mu'|].
    - injection Emu as <-. exact Hm.
    - rewrite Hm in *. unfold secant_starts in Emu. apply bind_ret_inv in Emu as (x & _ & Emu).
      apply bind_ret_inv in Emu as (q & _ & Emu). apply starts_loop_spec in Emu. split; [exact Emu|].
      destruct Ht as (Hl & _). destruct bs; [|discriminate Hl]. intros b Hb. now apply elem_of_nil in Hb. }
  destruct Hc as [Hc Hbm].
  destruct (double_loop_spec _ _ _ _ _ _ Ed ltac:(eauto)) as (nu & Hnu & Hpos & Hle & Hlt2 & Hr & Hcn & Hco).
  assert (Hbo : below bs mo) by (intros b Hb; apply (les_trans OL) with mu.2; [now apply Hbm|exact Hle]).
  destruct (process_spec _ _ _ _ _ _ _ _ bs Hs Hr (lts_les OL _ _ Hlt2) eq_refl Ht Hbo Hco Hcn E1)
    as (Hs1 & _ & _ & Hn1 & ex & bs1 & _ & Ht1 & Hb1).
  cbn [se_pairs]. split; [|lia]. split; [exact Hs1|]. exists bs1. cbn [se_mus se_pairs]. split; [exact Ht1|].
  cbn [snd]. rewrite Hn1. auto.
Qed.

Lemma find_loop_spec fl fs n : forall s s', search_inv s -> find_loop fl fi fs n rnd s = Ret s' ->
  search_inv s' /\ (n <= length (se_pairs s'))%nat.
Proof.
  induction fl as [|fl IH]; intros s s' Hi E; cbn [find_loop] in E;
    destruct (Nat.ltb_spec (length (se_pairs s)) n) as [Hlt|Hge].
  - discriminate E.
  - injection E as <-. auto.
  - apply bind_ret_inv in E as (s1 & E1 & E). apply secant_iterate_one_spec in E1 as [Hi1 _]; [|exact Hi].
    exact (IH _ _ Hi1 E).
  - injection E as <-. auto.
Qed.

Lemma find_eigens_spec fl fs n s s' l : search_inv s -> find_eigens fl fi fs n rnd s = Ret (s', l) ->
  search_inv s' /\ (n <= es_dofs es)%nat /\ length l = n /\ (n <= length (se_pairs s'))%nat /\
  forall i, (i < n)%nat -> exists p q, se_pairs s' !! i = Some p /\ ep_permute (es_perm es) p = Ret q /\ l !! i = Some q.
Proof.
  intros Hi E. unfold find_eigens in E. apply bind_ret_inv in E as (? & Ea & E). apply assert_inv, Nat.leb_le in Ea.
  apply bind_ret_inv in E as (s1 & E1 & E). apply bind_ret_inv in E as (l1 & El & E). injection E as <- <-.
  destruct Hi as (Hs & Hi0). rewrite Hs in Ea.
  apply find_loop_spec in E1 as [Hi1 Hn1]; [|now split]. destruct Hi1 as (Hs1 & Hi1). rewrite Hs1 in El.
  apply mapM_out_inv in El as [Hl Hlk]. split; [now split|]. split; [exact Ea|].
  split; [rewrite take_length; lia|]. split; [exact Hn1|]. intros i Hi.
  destruct (lookup_lt_is_Some_2 (se_pairs s1) i ltac:(lia)) as [p Hp]. destruct (Hlk i p Hp) as (q & Hq & Hq').
  exists p, q. split; [exact Hp|]. split; [exact Hq|]. rewrite lookup_take by lia. exact Hq'.
Qed.

Lemma search_inv_new : search_inv (searcher_new es).
Proof.
  split; [reflexivity|]. exists []. split; [|reflexivity]. split; [reflexivity|]. split.
  - intros i j b b' _ H. now rewrite lookup_nil in H.
  - intros i b p H. now rewrite lookup_nil in H.
Qed.

(** with counts that grow with the shift, the lower end counts exactly one less *)
Lemma trace_exact bs ps : trace_ok bs ps ->
  (forall x y a b, les x y -> eigenvalues_under es x = Ret a -> eigenvalues_under es y = Ret b -> (a <= b)%nat) ->
  forall i b, bs !! i = Some b -> eigenvalues_under es b.1 = Ret i.
Proof.
  intros (Hl & Ho & Hf) Hmono i b Hb.
  assert (G : forall i b, bs !! i = Some b -> exists p, from_bracket ps i b p).
  { intros j b' Hb'. assert (Hj : (j < length ps)%nat) by (rewrite <- Hl; eapply lookup_lt_Some; eassumption).
    destruct (lookup_lt_is_Some_2 ps j Hj) as [p Hp]. eauto. }
  destruct (G i b Hb) as (p & _ & _ & (c & Hc & Hci) & _). rewrite Hc. f_equal.
  destruct i as [|i]; [lia|]. assert (Hi : (i < length bs)%nat) by (apply lookup_lt_Some in Hb; lia).
  destruct (lookup_lt_is_Some_2 bs i Hi) as [b' Hb']. destruct (G i b' Hb') as (p' & _ & Hu & _).
  pose proof (Hmono _ _ _ _ (Ho i (S i) b' b ltac:(lia) Hb' Hb) Hu Hc). lia.
Qed.
End trace.
End search.
