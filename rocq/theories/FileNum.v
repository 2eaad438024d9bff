(** The numbers of the file formats. *)
From Coq Require Import Ascii String.
From Verif Require Export FileReject.

(** *** spec: the literals *)
Definition sign_text (s : text) : Prop := s = [] \/ s = ["-"%char] \/ s = ["+"%char].
(** digits with an optional fraction, or a fraction alone *)
Definition mantissa (m : text) : Prop :=
  (exists d f, m = d ++ f /\ d <> [] /\ digits d /\ (f = [] \/ exists f', f = "."%char :: f' /\ digits f')) \/
  (exists f, m = "."%char :: f /\ f <> [] /\ digits f).
Definition exponent (e : text) : Prop := e = [] \/
  exists c s d, e = c :: s ++ d /\ (c = "e"%char \/ c = "E"%char) /\ sign_text s /\ d <> [] /\ digits d.
(** a number, or one of the words nan and inf in any case *)
Definition number (s : text) : Prop :=
  (exists sg m e, s = sg ++ m ++ e /\ sign_text sg /\ mantissa m /\ exponent e) \/ map lower s = txt "nan" \/ map lower s = txt "inf".

Lemma lit_number s : lit s -> number s.
Proof.
  intros (sg & d & f & -> & Hsg & Nd & Dd & Hf). left. exists sg, (d ++ f), []. rewrite app_nil_r. split; [reflexivity|].
  split; [exact Hsg|]. split; [left; exists d, f; auto|left; reflexivity].
Qed.
Lemma lower_e c : lower c = "e"%char <-> c = "e"%char \/ c = "E"%char.
Proof.
  split; [|intros [-> | ->]; reflexivity].
  destruct c as [[] [] [] [] [] [] [] []]; vm_compute; intros H; first [discriminate H|left; reflexivity|right; reflexivity].
Qed.

(** *** every number is read up to what follows it *)
Definition plain_head (t : text) : Prop := match t with [] => True | c :: _ => is_digit c = false /\ c <> "."%char end.
Lemma opt_sign_app sg t : sign_text sg -> match t with [] => True | c :: _ => is_sign c = false end -> opt_sign (sg ++ t) = (sg, t).
Proof.
  intros [->|[->| ->]] Ht; [|reflexivity|reflexivity]. cbn [app]. destruct t as [|c t]; [reflexivity|]. cbn [opt_sign]. rewrite Ht. reflexivity.
Qed.
Lemma digit_not_sign c : is_digit c = true -> is_sign c = false.
Proof. intros H. destruct (is_sign c) eqn:E; [|reflexivity]. unfold is_sign in E. apply orb_true_iff in E as [E|E]; apply Ascii.eqb_eq in E as ->; discriminate. Qed.
Lemma mant_app m t : mantissa m -> plain_head t -> float_mant (m ++ t) = Some (m, t).
Proof.
  intros Hm Ht. assert (Hd : match t with [] => True | c :: _ => is_digit c = false end) by (destruct t; [exact I|apply Ht]). unfold float_mant.
  destruct Hm as [(d & f & -> & Nd & Dd & [->|(f' & -> & Df)])|(f & -> & Nf & Df)].
  - rewrite app_nil_r, (span_app _ d t Dd Hd). destruct d as [|c d]; [contradiction|]. destruct t as [|c' t]; [reflexivity|].
    destruct (Ascii.eqb c' ".") eqn:E; [|reflexivity]. apply Ascii.eqb_eq in E as ->. now destruct Ht.
  - rewrite <- app_assoc. cbn [app]. rewrite (span_app _ d ("."%char :: f' ++ t) Dd eq_refl). destruct d as [|c d]; [contradiction|].
    change (Ascii.eqb "." ".") with true. cbv iota. rewrite (span_app _ f' t Df Hd). reflexivity.
  - cbn [app]. change (span is_digit ("."%char :: f ++ t)) with (@nil ascii, "."%char :: f ++ t). change (Ascii.eqb "." ".") with true. cbv iota.
    rewrite (span_app _ f t Df Hd). destruct f; [contradiction|]. reflexivity.
Qed.
Lemma mant_head m t : mantissa m -> match m ++ t with [] => True | c :: _ => is_sign c = false end.
Proof.
  intros [(d & f & -> & Nd & Dd & _)|(f & -> & _)]; [|reflexivity]. destruct Dd as [|c d Hc Dd]; [contradiction|]. cbn. now apply digit_not_sign.
Qed.
Lemma strip_nc_app p s r : map lower s = p -> strip_no_case p (s ++ r) = Some r.
Proof. intros <-. induction s as [|c s IH]; [destruct r; reflexivity|]. cbn. rewrite Ascii.eqb_refl. exact IH. Qed.
Lemma word_no_float c t : is_digit c = false -> is_sign c = false -> Ascii.eqb c "." = false -> recognize_float (c :: t) = PErr.
Proof. intros H1 H2 H3. unfold recognize_float, opt_sign. rewrite H2. unfold float_mant. cbn [span]. rewrite H1, H3. reflexivity. Qed.
Lemma letter_facts c x : lower c = x -> x = "n"%char \/ x = "i"%char -> is_digit c = false /\ is_sign c = false /\ Ascii.eqb c "." = false.
Proof.
  intros <- H. destruct (is_digit c) eqn:E1.
  { exfalso. unfold is_digit in E1. assert (Hl : lower c = c). { unfold lower. destruct (65 <=? code c)%N eqn:E; [|reflexivity]. apply andb_true_iff in E1 as [_ E1]. apply N.leb_le in E1, E. lia. }
    rewrite Hl in H. destruct H as [-> | ->]; discriminate. }
  split; [reflexivity|]. split.
  - destruct (is_sign c) eqn:E; [|reflexivity]. unfold is_sign in E. apply orb_true_iff in E as [E|E]; apply Ascii.eqb_eq in E as ->; destruct H; discriminate.
  - destruct (Ascii.eqb c ".") eqn:E; [|reflexivity]. apply Ascii.eqb_eq in E as ->. destruct H; discriminate.
Qed.
Lemma number_float s r : number s -> stop r -> float_text (s ++ r) = POk r s.
Proof.
  intros [(sg & m & e & -> & Hsg & Hm & He)|[Hn|Hi]] Hr.
  - unfold float_text.
    assert (E : recognize_float ((sg ++ m ++ e) ++ r) = POk r (sg ++ m ++ e)).
    { unfold recognize_float. rewrite <- !app_assoc, (opt_sign_app sg (m ++ e ++ r) Hsg (mant_head m (e ++ r) Hm)).
      destruct He as [->|(c & s & d & -> & Hc & Hs & Nd & Dd)].
      - cbn [app]. rewrite mant_app by (first [exact Hm|destruct r as [|c r]; [exact I|]; destruct Hr as [->|[->| ->]]; split; (reflexivity || discriminate)]).
        rewrite app_nil_r. destruct r as [|c r]; [reflexivity|]. destruct Hr as [->|[->| ->]]; reflexivity.
      - rewrite mant_app by (first [exact Hm|cbn; destruct Hc as [-> | ->]; split; (reflexivity || discriminate)]). cbn [app].
        replace (Ascii.eqb (lower c) "e") with true by (destruct Hc as [-> | ->]; reflexivity).
        rewrite <- app_assoc, (opt_sign_app s (d ++ r) Hs) by (destruct Dd as [|x d Hx Dd]; [contradiction|]; cbn; now apply digit_not_sign).
        rewrite (span_app _ d r Dd (stop_not_digit r Hr)). destruct d; [contradiction|]. reflexivity. }
    rewrite E. reflexivity.
  - destruct s as [|c s]; [discriminate|]. assert (Hc : lower c = "n"%char) by (now injection Hn).
    destruct (letter_facts c _ Hc (or_introl eq_refl)) as (L1 & L2 & L3). unfold float_text. cbn [app]. rewrite word_no_float by assumption.
    unfold tag_no_case. change (c :: s ++ r) with ((c :: s) ++ r). rewrite (strip_nc_app _ _ r Hn). f_equal.
    rewrite <- Hn, map_length, take_app. reflexivity.
  - destruct s as [|c s]; [discriminate|]. assert (Hc : lower c = "i"%char) by (now injection Hi).
    destruct (letter_facts c _ Hc (or_intror eq_refl)) as (L1 & L2 & L3). unfold float_text. cbn [app]. rewrite word_no_float by assumption.
    assert (Hw : strip_no_case (txt "nan") (c :: s ++ r) = None) by (cbn; rewrite Hc; reflexivity). unfold tag_no_case. rewrite Hw.
    change (c :: s ++ r) with ((c :: s) ++ r). rewrite (strip_nc_app _ _ r Hi). f_equal. rewrite <- Hi, map_length, take_app. reflexivity.
Qed.

(** *** nothing else is read as a number *)
Lemma opt_sign_inv i sg t : opt_sign i = (sg, t) -> i = sg ++ t /\ sign_text sg.
Proof.
  unfold opt_sign. destruct i as [|c i]; [intros [= <- <-]; split; [reflexivity|left; reflexivity]|].
  destruct (is_sign c) eqn:E; intros [= <- <-]; (split; [reflexivity|]); [|left; reflexivity].
  unfold is_sign in E. apply orb_true_iff in E as [E|E]; apply Ascii.eqb_eq in E as ->; [right; right|right; left]; reflexivity.
Qed.
Lemma mant_inv i m t : float_mant i = Some (m, t) -> i = m ++ t /\ mantissa m.
Proof.
  unfold float_mant. destruct (span is_digit i) as [d r'] eqn:Ed. apply span_inv in Ed as (-> & Dd & Hd). destruct d as [|c d].
  - destruct r' as [|c r']; [discriminate|]. destruct (Ascii.eqb c ".") eqn:Ec; [|discriminate]. apply Ascii.eqb_eq in Ec as ->.
    destruct (span is_digit r') as [f r''] eqn:Ef. apply span_inv in Ef as (-> & Df & _). destruct f as [|c f]; [discriminate|]. intros [= <- <-].
    split; [reflexivity|]. right. exists (c :: f). split; [reflexivity|]. split; [discriminate|exact Df].
  - destruct r' as [|c' r'].
    { intros [= <- <-]. split; [reflexivity|]. left. exists (c :: d), []. rewrite app_nil_r. split; [reflexivity|]. split; [discriminate|]. split; [exact Dd|left; reflexivity]. }
    destruct (Ascii.eqb c' ".") eqn:Ec.
    + apply Ascii.eqb_eq in Ec as ->. destruct (span is_digit r') as [f r''] eqn:Ef. apply span_inv in Ef as (-> & Df & _). intros [= <- <-].
      split; [cbn; rewrite <- app_assoc; reflexivity|]. left. exists (c :: d), ("."%char :: f). split; [reflexivity|]. split; [discriminate|]. split; [exact Dd|]. right. eauto.
    + intros [= <- <-]. split; [reflexivity|]. left. exists (c :: d), []. rewrite app_nil_r. split; [reflexivity|]. split; [discriminate|]. split; [exact Dd|left; reflexivity].
Qed.
Lemma strip_nc_lower p i r : map lower p = p -> strip_no_case p i = Some r -> i = take (length p) i ++ r /\ map lower (take (length p) i) = p.
Proof.
  revert i. induction p as [|c p IH]; intros i Hp; cbn [strip_no_case length take].
  - destruct i; intros [= <-]; split; reflexivity.
  - destruct i as [|b i]; [discriminate|]. destruct (Ascii.eqb c (lower b)) eqn:Eb; [|discriminate]. apply Ascii.eqb_eq in Eb. intros E.
    injection Hp as _ Hp. destruct (IH i Hp E) as [H1 H2]. cbn [take map]. split; [cbn; f_equal; exact H1|]. rewrite H2, <- Eb. reflexivity.
Qed.
Lemma float_number i r s : float_text i = POk r s -> i = s ++ r /\ number s.
Proof.
  unfold float_text. destruct (recognize_float i) as [r' s'| |] eqn:E.
  - intros [= -> ->]. unfold recognize_float in E. destruct (opt_sign i) as [sg i1] eqn:E1. apply opt_sign_inv in E1 as [-> Hsg].
    destruct (float_mant i1) as [[m i2]|] eqn:E2; [|discriminate]. apply mant_inv in E2 as [-> Hm]. destruct i2 as [|c i3].
    + injection E as <- <-. rewrite !app_nil_r. split; [reflexivity|]. left. exists sg, m, []. rewrite app_nil_r. split; [reflexivity|]. split; [exact Hsg|]. split; [exact Hm|left; reflexivity].
    + destruct (Ascii.eqb (lower c) "e") eqn:Ec.
      * apply Ascii.eqb_eq, lower_e in Ec. destruct (opt_sign i3) as [s' i4] eqn:E4. apply opt_sign_inv in E4 as [-> Hs']. destruct (span is_digit i4) as [d i5] eqn:Ed. apply span_inv in Ed as (-> & Dd & _).
        destruct d as [|c' d]; [discriminate|]. injection E as <- <-. split; [rewrite <- !app_assoc; cbn; rewrite <- !app_assoc; reflexivity|].
        left. exists sg, m, (c :: s' ++ c' :: d). split; [reflexivity|]. split; [exact Hsg|]. split; [exact Hm|]. right. exists c, s', (c' :: d). split; [reflexivity|]. split; [exact Ec|]. split; [exact Hs'|]. split; [discriminate|exact Dd].
      * injection E as <- <-. rewrite <- app_assoc. split; [reflexivity|]. left. exists sg, m, []. rewrite app_nil_r. split; [reflexivity|]. split; [exact Hsg|]. split; [exact Hm|left; reflexivity].
  - unfold tag_no_case. destruct (strip_no_case (txt "nan") i) as [r'|] eqn:En.
    + intros [= <- <-]. apply (strip_nc_lower (txt "nan") i r' eq_refl) in En as [H1 H2]. split; [exact H1|]. right. left. exact H2.
    + destruct (strip_no_case (txt "inf") i) as [r'|] eqn:Ei; [|discriminate]. intros [= <- <-]. apply (strip_nc_lower (txt "inf") i r' eq_refl) in Ei as [H1 H2]. split; [exact H1|]. right. right. exact H2.
  - discriminate.
Qed.
