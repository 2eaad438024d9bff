(** Number formats: the decimal notation of Rust's core::fmt and core::num::dec2flt, for the
    executable rationals and for binary64.  [{:.k}] rounds the exact value to [k] decimals,
    ties to even; [{}] takes the fewest decimals that read back (for a binary64 above 2^53 the
    standard library would print a shorter digit string padded with zeros; here all digits). *)
From Coq Require Import Ascii String ZArith QArith Qcanon Floats.
From Verif Require Import InstQc InstF64.
From Verif Require Export FileProofs.
Close Scope Q_scope. Close Scope Qc_scope. Close Scope string_scope.
Open Scope nat_scope. Open Scope list_scope.

(** *** decimal notation *)
Fixpoint low (k : nat) (n : N) : text := match k with 0 => [] | S k => low k (n / 10) ++ [digit (n mod 10)] end.
Definition dec_text (neg : bool) (k : nat) (n : N) : text :=
  (if neg then ["-"%char] else []) ++ show_N (n / 10 ^ N.of_nat k) ++
  match k with 0 => [] | _ => "."%char :: low k (n mod 10 ^ N.of_nat k) end.
(** sign, mantissa and power of ten of a literal *)
Definition frac_of (r : text) : text * text :=
  match r with c :: r' => if Ascii.eqb c "." then span is_digit r' else ([], r) | [] => ([], []) end.
Definition read_dec (s : text) : option (bool * N * Z) :=
  let '(sg, i) := opt_sign s in
  let neg := match sg with c :: _ => Ascii.eqb c "-" | [] => false end in
  let '(d, r) := span is_digit i in
  let '(f, r') := frac_of r in
  match d ++ f, r' with
  | [], _ => None
  | df, [] => Some (neg, dval df, - Z.of_nat (length f))%Z
  | df, c :: r'' =>
    if Ascii.eqb (lower c) "e" then
      let '(sg', x) := opt_sign r'' in
      match span is_digit x with
      | ((_ :: _) as e, []) =>
        let ez := Z.of_N (dval e) in
        let ez := match sg' with c :: _ => if Ascii.eqb c "-" then (- ez)%Z else ez | [] => ez end in
        Some (neg, dval df, ez - Z.of_nat (length f))%Z
      | _ => None
      end
    else None
  end.
(** the nearest integer to [n / d], ties to even *)
Definition nearest (n d : N) : N :=
  let '(q, r) := N.div_eucl n d in
  match N.compare (2 * r) d with Lt => q | Gt => q + 1 | Eq => if N.even q then q else q + 1 end%N.

(** a format: the sign, the rounded multiple of 10^-k, and the value of a decimal; [odd] gives
    the names of the numbers that are not finite *)
Section build.
Context {A : arith} (neg : A -> bool) (mult : nat -> A -> N) (val : bool -> N -> Z -> A)
  (odd : A -> option text) (read_odd : text -> option A).
Definition dec_fix (k : nat) (x : A) : text :=
  match odd x with Some t => t | None => dec_text (neg x) k (mult k x) end.
Fixpoint dec_search (fuel k : nat) (x : A) : text :=
  match fuel with
  | 0 => dec_text (neg x) k (mult k x)
  | S fuel => if seqb (val (neg x) (mult k x) (- Z.of_nat k)) x then dec_text (neg x) k (mult k x) else dec_search fuel (S k) x
  end.
Definition dec_fmt (most : nat) : numfmt A := NumFmt
  (fun s => match read_dec s with Some (b, n, e) => Some (val b n e) | None => read_odd s end)
  dec_fix
  (fun x => match odd x with Some t => t | None => dec_search most 0 x end).
End build.

(** rationals *)
Definition qc_val (b : bool) (n : N) (e : Z) : Qc_arith :=
  let z := if b then (- Z.of_N n)%Z else Z.of_N n in
  match e with
  | Zneg p => qmk (z # (10 ^ p)%positive)
  | _ => qmk (inject_Z (z * 10 ^ e))
  end.
Definition qc_mult (k : nat) (x : Qc_arith) : N := nearest (Z.abs_N (Qnum (this x)) * 10 ^ N.of_nat k) (Npos (Qden (this x))).
Definition qc_neg (x : Qc_arith) : bool := (Qnum (this x) <? 0)%Z.
Definition Qc_fmt : numfmt Qc_arith := dec_fmt qc_neg qc_mult qc_val (fun _ => None) (fun _ => None) 40.

(** binary64: correctly rounded both ways; a quotient of two integers is rounded once *)
Definition f64_val (b : bool) (n : N) (e : Z) : F64_arith :=
  match n with
  | N0 => SF2Prim (S754_zero b)
  | Npos m =>
    let '(p, q) := match e with Zneg k => (m, (10 ^ k)%positive) | Zpos k => ((m * 10 ^ k)%positive, 1%positive) | Z0 => (m, 1%positive) end in
    SF2Prim (SFdiv 53 1024 (S754_finite b p 0) (S754_finite false q 0))
  end.
Definition f64_mult (k : nat) (x : F64_arith) : N :=
  match Prim2SF x with
  | S754_finite _ m e =>
    match e with
    | Zneg p => nearest (Npos m * 10 ^ N.of_nat k) (2 ^ Npos p)
    | _ => Npos m * 2 ^ Z.to_N e * 10 ^ N.of_nat k
    end
  | _ => 0
  end%N.
Definition f64_neg (x : F64_arith) : bool :=
  match Prim2SF x with S754_finite b _ _ => b | S754_zero b => b | _ => false end.
Definition f64_odd (x : F64_arith) : option text :=
  match Prim2SF x with
  | S754_nan => Some (txt "NaN")
  | S754_infinity b => Some (if b then txt "-inf" else txt "inf")
  | _ => None
  end.
Definition f64_read_odd (s : text) : option F64_arith :=
  let '(sg, i) := opt_sign s in
  let l := map lower i in
  let neg := match sg with c :: _ => Ascii.eqb c "-" | [] => false end in
  if bool_decide (l = txt "nan") then Some PrimFloat.nan
  else if bool_decide (l = txt "inf") || bool_decide (l = txt "infinity")
       then Some (if neg then PrimFloat.neg_infinity else PrimFloat.infinity)
  else None.
Definition F64_fmt : numfmt F64_arith := dec_fmt f64_neg f64_mult f64_val f64_odd f64_read_odd 1100.

(** *** both formats are acceptable *)
Lemma low_digits k n : digits (low k n) /\ length (low k n) = k /\ dval (low k n) = (n mod 10 ^ N.of_nat k)%N.
Proof.
  revert n. induction k as [|k IH]; intros n.
  - split; [constructor|]. split; [reflexivity|]. cbn. rewrite N.mod_1_r. reflexivity.
  - destruct (IH (n / 10)%N) as (H1 & H2 & H3). cbn [low]. split; [|split].
    + apply Forall_app. split; [exact H1|]. constructor; [|constructor]. apply digit_is, N.mod_lt. lia.
    + rewrite app_length, H2. cbn. lia.
    + rewrite dval_app, H3. cbn [length]. change (N.of_nat 1) with 1%N. rewrite N.pow_1_r.
      unfold dval. cbn [fold_left]. rewrite digit_code by (apply N.mod_lt; lia).
      rewrite Nat2N.inj_succ, N.pow_succ_r', N.mod_mul_r by (lia || (apply N.pow_nonzero; lia)). lia.
Qed.
Lemma dec_text_lit b k n : lit (dec_text b k n) /\ (0 < k -> 3 <= length (dec_text b k n)) /\
  Forall (fun c => c <> nl /\ c <> cr) (dec_text b k n).
Proof.
  destruct (show_N_spec (n / 10 ^ N.of_nat k)) as (H1 & H2 & _). destruct (low_digits k (n mod 10 ^ N.of_nat k)) as (L1 & L2 & _).
  assert (L : lit (dec_text b k n)).
  { unfold dec_text. eexists _, _, _. split; [reflexivity|]. split; [destruct b; auto|]. split; [exact H1|]. split; [exact H2|].
    destruct k; [left; reflexivity|right]. eexists. split; [reflexivity|exact L1]. }
  split; [exact L|]. split.
  - intros Hk. unfold dec_text. rewrite !app_length. destruct k; [lia|]. cbn [length]. rewrite L2.
    destruct (show_N _); [contradiction|]. cbn. lia.
  - unfold dec_text. assert (D : forall d, digits d -> Forall (fun c => c <> nl /\ c <> cr) d).
    { intros d Hd. eapply Forall_impl; [exact Hd|]. intros c Hc. split; intros ->; discriminate. }
    apply Forall_app. split; [destruct b; repeat constructor; discriminate|]. apply Forall_app. split; [apply D, H2|].
    destruct k; [constructor|]. constructor; [split; discriminate|apply D, L1].
Qed.
Lemma read_lit sg d f : (sg = [] \/ sg = ["-"%char] \/ sg = ["+"%char]) -> d <> [] -> digits d -> digits f ->
  forall dot, dot = true \/ f = [] ->
  read_dec (sg ++ d ++ (if dot then "."%char :: f else [])) =
    Some (match sg with c :: _ => Ascii.eqb c "-" | [] => false end, dval (d ++ f), - Z.of_nat (length f))%Z.
Proof.
  intros Hsg Nd Dd Df dot Hdot. unfold read_dec.
  assert (E1 : opt_sign (sg ++ d ++ (if dot then "."%char :: f else [])) = (sg, d ++ (if dot then "."%char :: f else []))).
  { destruct Hsg as [->|[->| ->]]; [|reflexivity|reflexivity]. destruct Dd as [|c d Hc Dd]; [contradiction|]. cbn [app opt_sign].
    destruct (is_sign c) eqn:Es; [|reflexivity]. exfalso. unfold is_sign in Es. apply orb_true_iff in Es as [Es|Es];
      apply Ascii.eqb_eq in Es as ->; discriminate. }
  rewrite E1, (span_app is_digit d) by (exact Dd || destruct dot; reflexivity || exact I).
  assert (E2 : frac_of (if dot then "."%char :: f else []) = (f, [])).
  { destruct dot; cbn [frac_of]; [|destruct Hdot as [?| ->]; [discriminate|reflexivity]].
    change (Ascii.eqb "." ".") with true. cbv iota. rewrite <- (app_nil_r f) at 1. apply span_app; [exact Df|exact I]. }
  rewrite E2. destruct d as [|c d]; [contradiction|]. reflexivity.
Qed.
Lemma lit_read s : lit s -> exists v, read_dec s = Some v.
Proof.
  intros (sg & d & f & -> & Hsg & Nd & Dd & [->|(f' & -> & Df)]).
  - eexists. apply (read_lit sg d [] Hsg Nd Dd ltac:(constructor) false). right. reflexivity.
  - eexists. apply (read_lit sg d f' Hsg Nd Dd Df true). left. reflexivity.
Qed.
(** reading a printed decimal *)
Lemma read_print b k n : read_dec (dec_text b k n) = Some (b, n, - Z.of_nat k)%Z.
Proof.
  destruct (show_N_spec (n / 10 ^ N.of_nat k)) as (H1 & H2 & H3). destruct (low_digits k (n mod 10 ^ N.of_nat k)) as (L1 & L2 & L3).
  assert (P : (10 ^ N.of_nat k <> 0)%N) by (apply N.pow_nonzero; lia).
  assert (V : dval (show_N (n / 10 ^ N.of_nat k) ++ low k (n mod 10 ^ N.of_nat k)) = n).
  { rewrite dval_app, H3, L2, L3, N.mod_mod by exact P. rewrite (N.div_mod n (10 ^ N.of_nat k)) at 3 by exact P. lia. }
  assert (G : (if b then ["-"%char] else []) = [] \/ (if b then ["-"%char] else []) = ["-"%char] \/ (if b then ["-"%char] else []) = ["+"%char])
    by (destruct b; auto).
  pose proof (read_lit _ (show_N (n / 10 ^ N.of_nat k)) (low k (n mod 10 ^ N.of_nat k)) G H1 H2 L1
    (match k with 0 => false | _ => true end)) as R.
  assert (E : dec_text b k n = (if b then ["-"%char] else []) ++ show_N (n / 10 ^ N.of_nat k) ++
    (if match k with 0 => false | _ => true end then "."%char :: low k (n mod 10 ^ N.of_nat k) else [])).
  { unfold dec_text. destruct k; reflexivity. }
  rewrite E, R, V, L2 by (destruct k; [right|left]; reflexivity). destruct b; reflexivity.
Qed.
Lemma dec_fmt_ok {A : arith} neg mult val odd read_odd most :
  numfmt_ok (@dec_fmt A neg mult val odd read_odd most) (fun x => odd x = None).
Proof.
  constructor.
  - intros k x Hk Hx. cbn. unfold dec_fix. rewrite Hx. destruct (dec_text_lit (neg x) k (mult k x)) as (L & L3 & _).
    split; [exact L|]. split; [apply L3, Hk|]. rewrite read_print. eexists. reflexivity.
  - intros x Hx. cbn. rewrite Hx.
    assert (S : forall fuel k, exists k', dec_search neg mult val fuel k x = dec_text (neg x) k' (mult k' x)).
    { induction fuel as [|fuel IH]; intros k; cbn [dec_search]; [eexists; reflexivity|].
      destruct (seqb _ x); [eexists; reflexivity|apply IH]. }
    destruct (S most 0) as (k & ->). split; [apply dec_text_lit|]. rewrite read_print. eexists. reflexivity.
Qed.
Lemma Qc_fmt_ok : numfmt_ok Qc_fmt (fun _ => True).
Proof.
  destruct (dec_fmt_ok qc_neg qc_mult qc_val (fun _ => None) (fun _ => None) 40) as [H1 H2].
  constructor; intros; [apply H1; [assumption|reflexivity]|apply H2; reflexivity].
Qed.
Lemma F64_fmt_ok : numfmt_ok F64_fmt (fun x => f64_odd x = None).
Proof. apply dec_fmt_ok. Qed.
(** on the rationals a number is read back within half a unit of the last decimal, and exactly if
    it has no more decimals than are written *)
Lemma nearest_close n d : (0 < d)%N -> (2 * (nearest n d * d) <= 2 * n + d /\ 2 * n <= 2 * (nearest n d * d) + d)%N.
Proof.
  intros Hd. unfold nearest. pose proof (N.div_eucl_spec n d) as E. pose proof (N.mod_lt n d ltac:(lia)) as L. unfold N.modulo in L.
  destruct (N.div_eucl n d) as [q r]. cbn [snd] in L. subst n.
  destruct (N.compare_spec (2 * r) d) as [H|H|H]; [destruct (N.even q)|..]; nia.
Qed.
Lemma qc_val_eq b n k : 0 < k ->
  (this (qc_val b n (- Z.of_nat k)) == (if b then - Z.of_N n else Z.of_N n)%Z # (10 ^ Pos.of_nat k)%positive)%Q.
Proof.
  intros Hk. unfold qc_val. destruct k as [|k]; [lia|].
  change (- Z.of_nat (S k))%Z with (Zneg (Pos.of_succ_nat k)). rewrite <- Pos.of_nat_succ.
  cbn -[Z.mul Z.of_N Qred Pos.pow Pos.of_succ_nat]. rewrite Qred_correct. reflexivity.
Qed.
Lemma qc_rnd k x : rnd Qc_fmt k x = qc_val (qc_neg x) (qc_mult k x) (- Z.of_nat k).
Proof. unfold rnd. cbn [Qc_fmt dec_fmt nf_read nf_fix dec_fix]. rewrite read_print. reflexivity. Qed.
Lemma pos_pow k : k <> 0 -> Zpos (10 ^ Pos.of_nat k) = (10 ^ Z.of_nat k)%Z.
Proof. intros Hk. rewrite Pos2Z.inj_pow. f_equal. destruct k; [contradiction|]. rewrite <- Pos.of_nat_succ. reflexivity. Qed.
Lemma qc_rnd_close k x : 0 < k -> (Qabs.Qabs (this (rnd Qc_fmt k x) - this x) <= 1 # 2 * 10 ^ Pos.of_nat k)%Q.
Proof.
  intros Hk. rewrite qc_rnd, qc_val_eq by exact Hk.
  unfold qc_mult, qc_neg. destruct x as [[n d] Hx]. cbn [this Qnum Qden].
  destruct (nearest_close (Z.abs_N n * 10 ^ N.of_nat k) (Npos d) eq_refl) as [H1 H2].
  set (m := nearest _ _) in *. clearbody m.
  apply Qabs.Qabs_Qle_condition. unfold Qle, Qminus, Qplus, Qopp. cbn [Qnum Qden].
  rewrite !Pos2Z.inj_mul, (pos_pow k) by lia.
  apply N2Z.inj_le in H1, H2. rewrite !N2Z.inj_add, !N2Z.inj_mul, N2Z.inj_pow, N2Z.inj_abs_N in H1, H2.
  change (Z.of_N 2) with 2%Z in *. change (Z.of_N 10) with 10%Z in *. rewrite nat_N_Z in *. change (Z.of_N (Npos d)) with (Zpos d) in *.
  assert (P : (0 < 10 ^ Z.of_nat k)%Z) by (apply Z.pow_pos_nonneg; lia).
  set (T := (10 ^ Z.of_nat k)%Z) in *. clearbody T. pose proof (Pos2Z.is_pos d) as Hd. set (D := Zpos d) in *. clearbody D.
  set (M := Z.of_N m) in *. clearbody M. clear m Hx Hk.
  assert (G : (- D <= 2 * ((if (n <? 0)%Z then - M else M) * D - n * T) <= D)%Z).
  { destruct (Z.ltb_spec n 0); [rewrite Z.abs_neq in H1, H2 by lia|rewrite Z.abs_eq in H1, H2 by lia]; nia. }
  set (W := if (n <? 0)%Z then (- M)%Z else M) in *. clearbody W.
  split; nia.
Qed.
Lemma qc_rnd_exact k (x : Qc_arith) z : 0 < k -> (this x == z # 10 ^ Pos.of_nat k)%Q -> rnd Qc_fmt k x = x.
Proof.
  intros Hk Hx. apply Qc_is_canon. pose proof (qc_rnd_close k x Hk) as H. revert H. rewrite qc_rnd, qc_val_eq by exact Hk. rewrite Hx. set (W := if qc_neg x then _ else _). clearbody W.
  intros H. apply Qabs.Qabs_Qle_condition in H. revert H. unfold Qle, Qminus, Qplus, Qopp, Qeq. cbn [Qnum Qden].
  rewrite !Pos2Z.inj_mul. pose proof (Pos2Z.is_pos (10 ^ Pos.of_nat k)) as P. set (T := Zpos (10 ^ Pos.of_nat k)) in *. clearbody T.
  intros [H1 H2]. assert (W = z); [|subst; reflexivity].
  assert (G1 : (- 1 <= 2 * (W - z))%Z) by (apply (Z.mul_le_mono_pos_r _ _ (T * T)); nia).
  assert (G2 : (2 * (W - z) <= 1)%Z) by (apply (Z.mul_le_mono_pos_r _ _ (T * T)); nia). lia.
Qed.

(** what the formats print and read *)
Example F64_prints : nf_fix F64_fmt 6 (fl 0.5) = txt "0.500000" /\ nf_show F64_fmt (fl 0.1) = txt "0.1" /\
  nf_fix F64_fmt 3 (fl (-2.0005)) = txt "-2.001" /\ nf_fix F64_fmt 0 (fl 2.5) = txt "2" /\ nf_show F64_fmt (fl 1e22) = txt "10000000000000000000000" /\
  nf_read F64_fmt (txt "1e-7") = Some (fl 1e-7) /\ nf_read F64_fmt (txt "0.1") = Some (fl 0.1) /\ nf_show F64_fmt (fl 5e-324) <> [].
Proof. repeat split; try vm_compute; try reflexivity. discriminate. Qed.
(** checking literals by computation *)
Lemma digits_check d : forallb is_digit d = true -> digits d.
Proof. intros H. apply Forall_forall. intros c Hc. rewrite forallb_forall in H. apply H, elem_of_list_In, Hc. Qed.
Lemma lit_check (sg : bool) d : d <> [] -> forallb is_digit d = true -> lit ((if sg then txt "-" else []) ++ d).
Proof.
  intros Nd Hd. exists (if sg then txt "-" else []), d, []. rewrite app_nil_r. split; [reflexivity|].
  split; [destruct sg; auto|]. split; [exact Nd|]. split; [apply digits_check, Hd|left; reflexivity].
Qed.
