(** Texts: decimal numbers, lines, and what the small parsers accept and consume. *)
From Coq Require Import Ascii String.
From Verif Require Export File MeshProofs.

(** the value of a decimal numeral *)
Definition dval (d : text) : N := fold_left (fun v c => (v * 10 + (code c - 48))%N) d 0%N.
Definition digits (d : text) : Prop := Forall (fun c => is_digit c = true) d.
(** a decimal numeral for [n], leading zeros allowed *)
Definition numeral (d : text) (n : nat) : Prop := d <> [] /\ digits d /\ dval d = N.of_nat n.
(** what may follow a number *)
Definition stop (r : text) : Prop := match r with [] => True | c :: _ => c = nl \/ c = " "%char \/ c = "/"%char end.
Definition no_nl (l : text) : Prop := Forall (fun c => c <> nl) l.

Lemma dval_from d v : fold_left (fun v c => (v * 10 + (code c - 48))%N) d v = (v * 10 ^ N.of_nat (length d) + dval d)%N.
Proof.
  unfold dval. revert v. induction d as [|c d IH]; intros v; cbn [fold_left length].
  - change (N.of_nat 0) with 0%N. rewrite N.pow_0_r. lia.
  - rewrite IH, (IH (0 * 10 + _)%N). rewrite Nat2N.inj_succ, N.pow_succ_r'. nia.
Qed.
Lemma dval_app d e : dval (d ++ e) = (dval d * 10 ^ N.of_nat (length e) + dval e)%N.
Proof. unfold dval at 1. rewrite fold_left_app, dval_from. reflexivity. Qed.
Lemma dval_bound d : digits d -> (dval d < 10 ^ N.of_nat (length d))%N.
Proof.
  induction d as [|c d IH] using rev_ind; intros D.
  - cbn. lia.
  - apply Forall_app in D as [D Dc]. apply Forall_cons in Dc as [Dc _].
    rewrite dval_app, app_length. cbn [length]. rewrite Nat2N.inj_add. change (N.of_nat 1) with 1%N.
    rewrite N.pow_add_r, N.pow_1_r. unfold dval at 2. cbn [fold_left].
    unfold is_digit in Dc. apply andb_true_iff in Dc as [D1 D2].
    apply N.leb_le in D1, D2. specialize (IH D). nia.
Qed.

(** *** digits *)
Lemma digit_code n : (n < 10)%N -> code (digit n) = (48 + n)%N.
Proof. intros H. unfold code, digit. rewrite N_ascii_embedding; [reflexivity|lia]. Qed.
Lemma digit_is n : (n < 10)%N -> is_digit (digit n) = true.
Proof. intros H. unfold is_digit. rewrite digit_code by exact H. apply andb_true_iff. split; apply N.leb_le; lia. Qed.
Lemma show_loop_spec fuel n acc : (n < 2 ^ N.of_nat fuel)%N -> (0 < fuel)%nat ->
  exists d, show_loop fuel n acc = d ++ acc /\ d <> [] /\ digits d /\ dval d = n.
Proof.
  revert n acc. induction fuel as [|fuel IH]; intros n acc Hn Hf; [lia|]. cbn [show_loop].
  destruct (n <? 10)%N eqn:E.
  - apply N.ltb_lt in E. exists [digit n]. rewrite N.mod_small by exact E. repeat split; try discriminate.
    + constructor; [|constructor]. apply digit_is, E.
    + unfold dval. cbn [fold_left]. rewrite digit_code by exact E. lia.
  - apply N.ltb_ge in E. rewrite Nat2N.inj_succ, N.pow_succ_r' in Hn.
    assert (Hq : (n / 10 < 2 ^ N.of_nat fuel)%N) by (apply N.div_lt_upper_bound; lia).
    destruct fuel as [|fuel]; [change (2 ^ N.of_nat 0)%N with 1%N in *; lia|].
    destruct (IH (n / 10)%N (digit (n mod 10) :: acc) Hq ltac:(lia)) as (d & Ed & Nd & Dd & Vd).
    assert (Hm : (n mod 10 < 10)%N) by (apply N.mod_lt; lia).
    exists (d ++ [digit (n mod 10)]). repeat split.
    + rewrite Ed, <- app_assoc. reflexivity.
    + destruct d; discriminate.
    + apply Forall_app. split; [exact Dd|]. constructor; [|constructor]. apply digit_is, Hm.
    + rewrite dval_app, Vd. cbn [length]. change (10 ^ N.of_nat 1)%N with 10%N. unfold dval. cbn [fold_left].
      rewrite digit_code by exact Hm. pose proof (N.div_mod n 10 ltac:(lia)). lia.
Qed.
Lemma show_N_spec n : show_N n <> [] /\ digits (show_N n) /\ dval (show_N n) = n.
Proof.
  destruct (show_loop_spec (S (N.to_nat (N.size n))) n []) as (d & E & H).
  - rewrite Nat2N.inj_succ, N2Nat.id, N.pow_succ_r'. pose proof (N.size_gt n). lia.
  - lia.
  - unfold show_N. rewrite E, app_nil_r. exact H.
Qed.
Lemma show_numeral n : numeral (show_nat n) n.
Proof. unfold show_nat. destruct (show_N_spec (N.of_nat n)) as (H1 & H2 & H3). split; [exact H1|split; [exact H2|exact H3]]. Qed.

(** *** spans *)
Lemma span_inv f i a r : span f i = (a, r) ->
  i = a ++ r /\ Forall (fun c => f c = true) a /\ match r with [] => True | c :: _ => f c = false end.
Proof.
  revert a r. induction i as [|c i IH]; intros a r; cbn [span].
  - intros [= <- <-]. repeat split. constructor.
  - destruct (f c) eqn:E.
    + destruct (span f i) as [a' r'] eqn:Es. intros [= <- <-]. destruct (IH a' r' eq_refl) as (H1 & H2 & H3).
      repeat split; [|constructor; assumption|exact H3]. cbn. f_equal. exact H1.
    + intros [= <- <-]. repeat split; [constructor|exact E].
Qed.
Lemma span_app f a r : Forall (fun c => f c = true) a -> match r with [] => True | c :: _ => f c = false end ->
  span f (a ++ r) = (a, r).
Proof.
  intros Ha Hr. induction Ha as [|c a Hc Ha IH]; cbn [app span].
  - destruct r as [|c r]; [reflexivity|]. cbn [span]. rewrite Hr. reflexivity.
  - rewrite Hc, IH. reflexivity.
Qed.
Lemma strip_app p r : strip p (p ++ r) = Some r.
Proof. induction p as [|c p IH]; [destruct r; reflexivity|]. cbn. rewrite Ascii.eqb_refl. exact IH. Qed.
Lemma strip_inv p i r : strip p i = Some r -> i = p ++ r.
Proof.
  revert i. induction p as [|c p IH]; intros i; cbn.
  - destruct i; intros [= <-]; reflexivity.
  - destruct i as [|b i]; [discriminate|]. destruct (Ascii.eqb c b) eqn:E; [|discriminate].
    apply Ascii.eqb_eq in E as ->. intros H. rewrite (IH _ H). reflexivity.
Qed.
Lemma stop_not_digit r : stop r -> match r with [] => True | c :: _ => is_digit c = false end.
Proof. destruct r as [|c r]; [easy|]. intros [->|[->| ->]]; reflexivity. Qed.

(** *** what a parser accepts: the text [c], read as [x], before anything in [R] *)
Definition accepts {X} (R : text -> Prop) (p : parser X) (c : text) (x : X) : Prop :=
  forall r, R r -> p (c ++ r) = Ret (POk r x).
Definition anyr : text -> Prop := fun _ => True.
(** *** what a parser consumed: a text in [P] *)
Definition eats {X} (p : parser X) (P : text -> X -> Prop) : Prop :=
  forall i r x, p i = Ret (POk r x) -> exists c, i = c ++ r /\ P c x.

Section combi.
Context {X Y : Type}.
Lemma acc_bind (R : text -> Prop) (p : parser X) (f : X -> parser Y) c d x y :
  accepts (fun r => exists r', r = d ++ r' /\ R r') p c x -> accepts R (f x) d y -> accepts R (p_bind p f) (c ++ d) y.
Proof.
  intros Hp Hf r Hr. unfold p_bind. rewrite <- app_assoc, (Hp (d ++ r)) by (exists r; tauto). cbn [mbind out_bind].
  apply Hf, Hr.
Qed.
Lemma acc_map R (p : parser X) (f : X -> out Y) c x y : accepts R p c x -> f x = Ret y -> accepts R (p_map p f) c y.
Proof. intros Hp Hf r Hr. unfold p_map. rewrite (Hp r Hr). cbn [mbind out_bind]. rewrite Hf. reflexivity. Qed.
Lemma acc_weak (R R' : text -> Prop) (p : parser X) c x : (forall r, R' r -> R r) -> accepts R p c x -> accepts R' p c x.
Proof. intros H Hp r Hr. apply Hp, H, Hr. Qed.
Lemma acc_tag R s : accepts R (tag s) s tt.
Proof. intros r _. unfold tag. rewrite strip_app. reflexivity. Qed.
Lemma acc_ret R (x : X) : accepts R (p_ret x) [] x.
Proof. intros r _. reflexivity. Qed.
Lemma acc_soften R (p : parser X) c x : accepts R p c x -> accepts R (soften p) c x.
Proof. intros Hp r Hr. unfold soften. rewrite (Hp r Hr). reflexivity. Qed.
Lemma acc_alt1 R (p q : parser X) c x : accepts R p c x -> accepts R (p_alt p q) c x.
Proof. intros Hp r Hr. unfold p_alt. rewrite (Hp r Hr). reflexivity. Qed.
Lemma acc_alt2 (R : text -> Prop) (p q : parser X) c x :
  (forall r, R r -> p (c ++ r) = Ret PErr) -> accepts R q c x -> accepts R (p_alt p q) c x.
Proof. intros Hp Hq r Hr. unfold p_alt. rewrite (Hp r Hr). cbn [mbind out_bind]. apply Hq, Hr. Qed.

Lemma eat_bind (p : parser X) (f : X -> parser Y) (P : text -> X -> Prop) (Q : X -> text -> Y -> Prop) :
  eats p P -> (forall x, eats (f x) (Q x)) -> eats (p_bind p f) (fun c y => exists c1 c2 x, c = c1 ++ c2 /\ P c1 x /\ Q x c2 y).
Proof.
  intros Hp Hf i r y E. unfold p_bind in E. apply bind_ret_inv in E as (o & Eo & E).
  destruct o as [i1 x| |]; try discriminate. destruct (Hp _ _ _ Eo) as (c1 & -> & H1).
  destruct (Hf x _ _ _ E) as (c2 & -> & H2). exists (c1 ++ c2). rewrite app_assoc. split; [reflexivity|].
  exists c1, c2, x. tauto.
Qed.
Lemma eat_map (p : parser X) (f : X -> out Y) P : eats p P -> eats (p_map p f) (fun c y => exists x, P c x /\ f x = Ret y).
Proof.
  intros Hp i r y E. unfold p_map in E. apply bind_ret_inv in E as (o & Eo & E).
  destruct o as [i1 x| |]; try discriminate. apply bind_ret_inv in E as (y' & Ef & E).
  injection E as -> ->. destruct (Hp _ _ _ Eo) as (c1 & -> & H1). exists c1. split; [reflexivity|]. exists x. tauto.
Qed.
Lemma eat_weak (p : parser X) (P Q : text -> X -> Prop) : eats p P -> (forall c x, P c x -> Q c x) -> eats p Q.
Proof. intros Hp H i r x E. destruct (Hp _ _ _ E) as (c & -> & Hc). exists c. auto. Qed.
Lemma eat_tag s : eats (tag s) (fun c _ => c = s).
Proof.
  intros i r x E. unfold tag in E. destruct (strip s i) as [r'|] eqn:Es; [|discriminate].
  injection E as -> _. apply strip_inv in Es. exists s. tauto.
Qed.
Lemma eat_ret (x0 : X) : eats (p_ret x0) (fun c x => c = [] /\ x = x0).
Proof. intros i r x E. unfold p_ret in E. injection E as -> ->. exists []. tauto. Qed.
Lemma eat_soften (p : parser X) P : eats p P -> eats (soften p) P.
Proof.
  intros Hp i r x E. unfold soften in E. apply bind_ret_inv in E as (o & Eo & E).
  destruct o as [i1 x1| |]; try discriminate. injection E as -> ->. apply Hp, Eo.
Qed.
Lemma eat_alt (p q : parser X) P : eats p P -> eats q P -> eats (p_alt p q) P.
Proof.
  intros Hp Hq i r x E. unfold p_alt in E. apply bind_ret_inv in E as (o & Eo & E).
  destruct o as [i1 x1| |]; try discriminate.
  - injection E as -> ->. apply Hp, Eo.
  - apply Hq, E.
Qed.
End combi.

(** *** numbers *)
Lemma uint_loop_app top first v d r : digits d -> (first = true -> d <> []) ->
  (fold_left (fun v c => (v * 10 + (code c - 48))%N) d v < top)%N ->
  match r with [] => True | c :: _ => is_digit c = false end ->
  uint_loop top first v (d ++ r) = POk r (fold_left (fun v c => (v * 10 + (code c - 48))%N) d v).
Proof.
  intros D. revert first v. induction D as [|c d Dc D IH]; intros first v Hf Hb Hr; cbn [app fold_left] in *.
  - destruct first; [contradiction (Hf eq_refl eq_refl)|].
    destruct r as [|c r]; [reflexivity|]. cbn [uint_loop]. rewrite Hr. reflexivity.
  - cbn [uint_loop]. rewrite Dc.
    assert (Hle : forall e w, (w <= fold_left (fun v c => (v * 10 + (code c - 48))%N) e w)%N).
    { intros e. induction e as [|x e IHe]; intros w; cbn [fold_left]; [lia|].
      etransitivity; [|apply IHe]. lia. }
    specialize (Hle d (v * 10 + (code c - 48))%N).
    destruct (N.ltb_spec (v * 10 + (code c - 48))%N top) as [H|H]; [|lia].
    apply IH; [discriminate|exact Hb|exact Hr].
Qed.
Lemma acc_u64 d n : numeral d n -> (N.of_nat n < 2 ^ 64)%N -> accepts stop u64 d n.
Proof.
  intros (Nd & Dd & Vd) Hn r Hr. unfold u64. apply (acc_map stop) with (x := N.of_nat n); [|rewrite Nat2N.id; reflexivity|exact Hr].
  clear r Hr. intros r Hr. unfold uint. rewrite uint_loop_app; [|exact Dd|auto| |apply stop_not_digit, Hr].
  - fold (dval d). rewrite Vd. reflexivity.
  - fold (dval d). rewrite Vd. exact Hn.
Qed.
Lemma uint_loop_inv top first v i r n : uint_loop top first v i = POk r n ->
  exists d, i = d ++ r /\ (first = true -> d <> []) /\ digits d /\ n = fold_left (fun v c => (v * 10 + (code c - 48))%N) d v.
Proof.
  revert first v. induction i as [|c i IH]; intros first v; cbn [uint_loop].
  - destruct first; [discriminate|]. intros [= <- <-]. exists []. repeat split; [discriminate|constructor].
  - destruct (is_digit c) eqn:Ec.
    + destruct (_ <? top)%N; [|discriminate]. intros E. destruct (IH _ _ E) as (d & -> & _ & Dd & ->).
      exists (c :: d). repeat split; [discriminate|constructor; assumption].
    + destruct first; [discriminate|]. intros [= <- <-]. exists []. repeat split; [discriminate|constructor].
Qed.
Lemma eat_uint top : eats (uint top) (fun c x => c <> [] /\ digits c /\ dval c = x).
Proof.
  intros i r x E. unfold uint in E. injection E as E. apply uint_loop_inv in E as (d & -> & H & D & ->).
  exists d. repeat split; auto.
Qed.
Lemma eat_u64 : eats u64 numeral.
Proof.
  unfold u64. eapply eat_weak; [apply eat_map, eat_uint|].
  intros c x (n & (H1 & H2 & H3) & [= <-]). split; [exact H1|split; [exact H2|]]. rewrite N2Nat.id. exact H3.
Qed.
Lemma digits_no_nl d : digits d -> no_nl d.
Proof. intros D. eapply Forall_impl; [exact D|]. intros c Hc ->. discriminate. Qed.

(** *** literals *)
(** a sign, digits, and perhaps a point and more digits *)
Definition lit (s : text) : Prop := exists sg d f, s = sg ++ d ++ f /\
  (sg = [] \/ sg = ["-"%char] \/ sg = ["+"%char]) /\ d <> [] /\ digits d /\ (f = [] \/ exists f', f = "."%char :: f' /\ digits f').
Lemma lit_float s r : lit s -> stop r -> float_text (s ++ r) = POk r s.
Proof.
  intros (sg & d & f & -> & Hsg & Nd & Dd & Hf) Hr. unfold float_text, recognize_float.
  assert (E1 : opt_sign ((sg ++ d ++ f) ++ r) = (sg, d ++ f ++ r)).
  { rewrite <- !app_assoc. destruct Hsg as [->|[->| ->]]; [|reflexivity|reflexivity].
    destruct Dd as [|c d Hc Dd]; [contradiction|]. cbn [app opt_sign].
    destruct (is_sign c) eqn:Es; [|reflexivity]. exfalso. unfold is_sign in Es. apply orb_true_iff in Es as [Es|Es];
      apply Ascii.eqb_eq in Es as ->; discriminate. }
  rewrite E1.
  assert (E2 : float_mant (d ++ f ++ r) = Some (d ++ f, r)).
  { unfold float_mant. destruct Hf as [->|(f' & -> & Df)].
    - cbn [app]. rewrite (span_app _ d r Dd (stop_not_digit r Hr)). rewrite app_nil_r.
      destruct d as [|c d]; [contradiction|]. destruct r as [|c' r]; [reflexivity|].
      destruct Hr as [->|[->| ->]]; reflexivity.
    - cbn [app]. rewrite (span_app _ d ("."%char :: f' ++ r) Dd eq_refl).
      destruct d as [|c d]; [contradiction|]. change (Ascii.eqb "." ".") with true. cbv iota.
      rewrite (span_app _ f' r Df (stop_not_digit r Hr)). reflexivity. }
  rewrite E2. destruct r as [|c r]; [reflexivity|]. destruct Hr as [->|[->| ->]]; reflexivity.
Qed.
Lemma lit_no_nl s : lit s -> no_nl s.
Proof.
  intros (sg & d & f & -> & Hsg & Nd & Dd & Hf). apply Forall_app. split; [|apply Forall_app; split].
  - destruct Hsg as [->|[->| ->]]; repeat constructor; discriminate.
  - apply digits_no_nl, Dd.
  - destruct Hf as [->|(f' & -> & Df)]; [constructor|]. constructor; [discriminate|]. apply digits_no_nl, Df.
Qed.

(** *** lines *)
Definition unl (ls : list text) : text := concat (map (fun l => l ++ [nl]) ls).
Lemma unl_cons l ls : unl (l :: ls) = l ++ nl :: unl ls.
Proof. unfold unl. cbn. rewrite <- app_assoc. reflexivity. Qed.
Lemma unl_app ls ls' : unl (ls ++ ls') = unl ls ++ unl ls'.
Proof. unfold unl. rewrite map_app, concat_app. reflexivity. Qed.
Lemma line_inj l l' r r' : no_nl l -> no_nl l' -> l ++ nl :: r = l' ++ nl :: r' -> l = l' /\ r = r'.
Proof.
  intros Hl. revert l'. induction Hl as [|c l Hc Hl IH]; intros l' Hl'.
  - destruct Hl' as [|c' l' Hc' Hl']; cbn; intros E.
    + injection E as E. tauto.
    + injection E as E1 E2. exfalso. apply Hc'. symmetry. exact E1.
  - destruct Hl' as [|c' l' Hc' Hl']; cbn; intros E.
    + injection E as E1 E2. exfalso. apply Hc. exact E1.
    + injection E as -> E. destruct (IH _ Hl' E) as [-> ->]. tauto.
Qed.
Lemma unl_line ls l r : Forall no_nl ls -> no_nl l -> unl ls = l ++ nl :: r ->
  exists ls', ls = l :: ls' /\ r = unl ls'.
Proof.
  intros Hls Hl E. destruct ls as [|l0 ls].
  - destruct l; discriminate.
  - rewrite unl_cons in E. apply Forall_cons in Hls as [H0 _]. destruct (line_inj _ _ _ _ H0 Hl E) as [-> E'].
    exists ls. auto.
Qed.
Lemma split_nl_spec s : Forall no_nl (split_nl s) /\ exists l ls, split_nl s = l :: ls /\ s ++ [nl] = unl (l :: ls).
Proof.
  induction s as [|c s [IH1 (l & ls & E & IH2)]]; cbn [split_nl].
  - split; [repeat constructor|]. exists [], []. split; reflexivity.
  - destruct (Ascii.eqb c nl) eqn:Ec.
    + apply Ascii.eqb_eq in Ec as ->. split; [constructor; [constructor|exact IH1]|].
      exists [], (split_nl s). split; [reflexivity|]. rewrite unl_cons, E, <- IH2. reflexivity.
    + rewrite E in *. split.
      * apply Forall_cons in IH1 as [H1 H2]. constructor; [|exact H2]. constructor; [|exact H1].
        intros ->. rewrite Ascii.eqb_refl in Ec. discriminate.
      * exists (c :: l), ls. split; [reflexivity|]. rewrite unl_cons in *. cbn [app]. f_equal. exact IH2.
Qed.
Lemma unl_inj ls ls' : Forall no_nl ls -> Forall no_nl ls' -> unl ls = unl ls' -> ls = ls'.
Proof.
  intros H. revert ls'. induction H as [|l ls Hl Hls IH]; intros ls' H' E.
  - destruct ls' as [|l' ls']; [reflexivity|]. rewrite unl_cons in E. destruct l'; discriminate.
  - rewrite unl_cons in E. symmetry in E. destruct (unl_line _ _ _ H' Hl E) as (ls'' & -> & E').
    f_equal. apply IH; [|exact E']. apply Forall_cons in H' as [_ H']. exact H'.
Qed.
(** the lines of a text that is a list of lines *)
Lemma split_nl_lines l ls : no_nl l -> Forall no_nl ls -> split_nl (l ++ concat (map nlt ls)) = l :: ls.
Proof.
  intros Hl Hls. destruct (split_nl_spec (l ++ concat (map nlt ls))) as [H (l' & ls' & E & Es)]. rewrite E in *.
  symmetry. apply unl_inj; [constructor; assumption|exact H|]. rewrite <- Es. clear. revert l.
  induction ls as [|l' ls IH]; intros l.
  - rewrite unl_cons. cbn. rewrite app_nil_r. reflexivity.
  - rewrite unl_cons, IH. cbn [map concat]. change (nlt l') with (nl :: l').
    rewrite <- !app_assoc. cbn [app]. rewrite <- ?app_assoc. reflexivity.
Qed.
Lemma clean_unl s : clean s = unl (List.filter line_kept (split_nl s)).
Proof. reflexivity. Qed.
