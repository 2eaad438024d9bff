(** The mesh format: files of well-formed lines with wrong counts or numbers give an error. *)
From Coq Require Import Ascii String.
From Verif Require Export FileCheck.

Definition fails {X} (m : out (pres X)) : Prop := m = Ret PErr \/ m = Ret PFail.
Definition dollar (r : text) : Prop := exists r', r = "$"%char :: r'.
Lemma fails_bind {X Y} (p : parser X) (f : X -> parser Y) i : fails (p i) -> fails (p_bind p f i).
Proof. intros [E|E]; unfold p_bind; rewrite E; [left|right]; reflexivity. Qed.
Lemma fails_soften {X} (p : parser X) i : fails (p i) -> fails (soften p i).
Proof. intros [E|E]; unfold soften; rewrite E; left; reflexivity. Qed.
Lemma ok_bind {X Y} (p : parser X) (f : X -> parser Y) i r x : p i = Ret (POk r x) -> p_bind p f i = f x r.
Proof. intros E. unfold p_bind. rewrite E. reflexivity. Qed.
Lemma ok_soften {X} (p : parser X) i r x : p i = Ret (POk r x) -> soften p i = Ret (POk r x).
Proof. intros E. unfold soften. rewrite E. reflexivity. Qed.

Lemma nl_soft {Y} (f : unit -> parser Y) r : p_bind (soften newline) f (nl :: r) = f tt r.
Proof. reflexivity. Qed.
Lemma nl_hard {Y} (f : unit -> parser Y) r : p_bind newline f (nl :: r) = f tt r.
Proof. reflexivity. Qed.

Lemma uint_either top d r : d <> [] -> digits d -> match r with [] => True | c :: _ => is_digit c = false end ->
  uint_loop top true 0 (d ++ r) = PErr \/ uint_loop top true 0 (d ++ r) = POk r (dval d).
Proof.
  intros Nd Dd Hr.
  assert (L : forall d, digits d -> forall first v, (first = true -> d <> []) -> uint_loop top first v (d ++ r) = PErr \/
     uint_loop top first v (d ++ r) = POk r (fold_left (fun v c => (v * 10 + (code c - 48))%N) d v)).
  { clear d Nd Dd. intros d Dd. induction Dd as [|c d Hc Dd IH]; intros first v Hf; cbn [app].
    - destruct first; [contradiction (Hf eq_refl eq_refl)|]. right. destruct r as [|c r]; [reflexivity|]. cbn [uint_loop]. rewrite Hr. reflexivity.
    - cbn [uint_loop]. rewrite Hc. destruct (_ <? top)%N; [|left; reflexivity]. apply IH. discriminate. }
  apply (L d Dd true 0%N (fun _ => Nd)).
Qed.
Lemma u64_either d r : d <> [] -> digits d -> match r with [] => True | c :: _ => is_digit c = false end ->
  fails (u64 (d ++ r)) \/ exists n, u64 (d ++ r) = Ret (POk r n) /\ numeral d n.
Proof.
  intros Nd Dd Hr. unfold u64, p_map, uint. destruct (uint_either (2 ^ 64) d r Nd Dd Hr) as [E|E]; rewrite E; cbn [mbind out_bind].
  - left. left. reflexivity.
  - right. exists (N.to_nat (dval d)). split; [reflexivity|]. split; [exact Nd|split; [exact Dd|]]. rewrite N2Nat.id. reflexivity.
Qed.
Lemma u64_dollar r : u64 ("$"%char :: r) = Ret PErr.
Proof. reflexivity. Qed.
Lemma count_either d r : no_nl d -> fails (count_line (txt "count " ++ d ++ nl :: r)) \/
  exists n, count_line (txt "count " ++ d ++ nl :: r) = Ret (POk r n) /\ numeral d n.
Proof.
  intros Hd. destruct (count_line (txt "count " ++ d ++ nl :: r)) as [[r' n| |]| | |] eqn:E.
  - right. destruct (count_lines_inv _ _ _ E) as (ls & H & _ & d' & -> & Hn). rewrite unl_cons in H. change (unl []) with (@nil ascii) in H.
    rewrite <- !app_assoc in H. apply app_inv_head in H. cbn [app] in H.
    assert (Nd : no_nl d') by (destruct Hn as (_ & D & _); apply digits_no_nl, D).
    destruct (line_inj d d' r r' Hd Nd H) as [-> ->]. exists n. tauto.
  - left. left. reflexivity.
  - left. right. reflexivity.
  - exfalso. revert E. unfold count_line, delimited, p_bind. rewrite tag_eq, strip_app. cbn [mbind out_bind].
    unfold u64, p_map, uint. cbn [mbind out_bind]. destruct (uint_loop _ _ _ _); cbn [mbind out_bind]; try discriminate.
    unfold newline, tag. destruct (strip _ _); cbn [mbind out_bind]; discriminate.
  - exfalso. revert E. unfold count_line, delimited, p_bind. rewrite tag_eq, strip_app. cbn [mbind out_bind].
    unfold u64, p_map, uint. cbn [mbind out_bind]. destruct (uint_loop _ _ _ _); cbn [mbind out_bind]; try discriminate.
    unfold newline, tag. destruct (strip _ _); cbn [mbind out_bind]; discriminate.
  - exfalso. revert E. unfold count_line, delimited, p_bind. rewrite tag_eq, strip_app. cbn [mbind out_bind].
    unfold u64, p_map, uint. cbn [mbind out_bind]. destruct (uint_loop _ _ _ _); cbn [mbind out_bind]; try discriminate.
    unfold newline, tag. destruct (strip _ _); cbn [mbind out_bind]; discriminate.
Qed.

Section either.
Context {X : Type} (p : parser X).
(** a numbered line: its number, the rest, and the value of the rest *)
Definition nline (z : text * text * X) : text := z.1.1 ++ txt " " ++ z.1.2.
Definition wf_nline (z : text * text * X) : Prop := z.1.1 <> [] /\ digits z.1.1 /\ accepts nl_next p z.1.2 z.2.
Lemma mono_either n : forall (l : list (text * text * X)) i res r, Forall wf_nline l -> dollar r ->
  fails (mono_loop p n i res (unl (map nline l) ++ r)) \/
  exists l1 l2, l = l1 ++ l2 /\ length l1 = n /\ (forall k z, l1 !! k = Some z -> numeral z.1.1 (i + k)) /\
    mono_loop p n i res (unl (map nline l) ++ r) = Ret (POk (unl (map nline l2) ++ r) (res ++ map snd l1)).
Proof.
  induction n as [|n IH]; intros l i res r Hl Hr; cbn [mono_loop].
  - right. exists [], l. split; [reflexivity|]. split; [reflexivity|]. split; [intros k z H; discriminate|].
    cbn [map]. rewrite app_nil_r. reflexivity.
  - destruct Hl as [|[[e t] x] l (Ne & De & Ht) Hl].
    + left. destruct Hr as (r' & ->). left. reflexivity.
    + cbn [map]. rewrite unl_cons. change (nline (e, t, x)) with (e ++ txt " " ++ t). rewrite <- !app_assoc. cbn [app]. cbn [fst snd] in *.
      destruct (u64_either e (txt " " ++ t ++ nl :: unl (map nline l) ++ r) Ne De eq_refl) as [E|(num & E & Hnum)].
      { left. apply fails_bind, E. }
      rewrite (ok_bind _ _ _ _ _ E). destruct (Nat.eqb_spec num i) as [->|]; [|left; left; reflexivity].
      rewrite (ok_bind _ _ _ _ _ (ok_soften _ _ _ _ (acc_tag anyr (txt " ") _ I))).
      rewrite (ok_bind _ _ _ _ _ (ok_soften _ _ _ _ (Ht (nl :: unl (map nline l) ++ r) ltac:(eexists; reflexivity)))).
      rewrite nl_soft.
      destruct (IH l (S i) (res ++ [x]) r Hl Hr) as [F|(l1 & l2 & -> & L1 & H & E')]; [left; exact F|].
      right. exists ((e, t, x) :: l1), l2. split; [reflexivity|]. split; [cbn; lia|]. split.
      * intros [|k] z Hz; [injection Hz as <-; rewrite Nat.add_0_r; exact Hnum|].
        rewrite Nat.add_succ_r. apply (H k z Hz).
      * rewrite E'. cbn [map snd]. rewrite <- app_assoc. reflexivity.
Qed.
(** a plain line *)
Definition wf_line (z : text * X) : Prop := (exists c s, z.1 = c :: s /\ is_digit c = true) /\ accepts nl_next p z.1 z.2.
Lemma free_either n : (forall r, p ("$"%char :: r) = Ret PErr) -> forall (l : list (text * X)) res r, Forall wf_line l -> dollar r ->
  fails (free_loop p n res (unl (map fst l) ++ r)) \/
  exists l1 l2, l = l1 ++ l2 /\ length l1 = n /\
    free_loop p n res (unl (map fst l) ++ r) = Ret (POk (unl (map fst l2) ++ r) (res ++ map snd l1)).
Proof.
  intros Hp. induction n as [|n IH]; intros l res r Hl Hr; cbn [free_loop].
  - right. exists [], l. split; [reflexivity|]. split; [reflexivity|]. cbn [map]. rewrite app_nil_r. reflexivity.
  - destruct Hl as [|[t x] l [_ Ht] Hl].
    + left. destruct Hr as (r' & ->). apply fails_bind, fails_soften. left. apply Hp.
    + cbn [map fst]. rewrite unl_cons, <- !app_assoc. cbn [app]. cbn [fst snd] in *.
      rewrite (ok_bind _ _ _ _ _ (ok_soften _ _ _ _ (Ht (nl :: unl (map fst l) ++ r) ltac:(eexists; reflexivity)))).
      rewrite nl_soft.
      destruct (IH l (res ++ [x]) r Hl Hr) as [F|(l1 & l2 & -> & L1 & E')]; [left; exact F|].
      right. exists ((t, x) :: l1), l2. split; [reflexivity|]. split; [cbn; lia|].
      rewrite E'. cbn [map snd]. rewrite <- app_assoc. reflexivity.
Qed.
End either.

(** a section of which the list is read up to some line: it must be the last one *)
Lemma section_either {X} name (p : parser X) ls ls2 r x : Forall (fun l => exists c s, l = c :: s /\ is_digit c = true) ls2 ->
  p (unl ls ++ txt "$End" ++ name ++ nl :: r) = Ret (POk (unl ls2 ++ txt "$End" ++ name ++ nl :: r) x) ->
  (ls2 <> [] /\ fails (section_parse name p (unl (sect name ls) ++ r))) \/
  (ls2 = [] /\ section_parse name p (unl (sect name ls) ++ r) = Ret (POk r x)).
Proof.
  intros Hd E. unfold section_parse, delimited at 1, sect. rewrite unl_cons, unl_app, unl_cons. change (unl []) with (@nil ascii).
  rewrite <- !app_assoc. cbn [app]. rewrite <- !app_assoc. cbn [app].
  assert (D : forall s r, delimited (tag s) (tag name) newline (s ++ name ++ nl :: r) = Ret (POk r tt)).
  { intros s r0. unfold delimited. rewrite (ok_bind _ _ _ _ _ (acc_tag anyr s _ I)).
    rewrite (ok_bind _ _ _ _ _ (acc_tag anyr name _ I)). rewrite nl_hard. reflexivity. }
  assert (E0 : forall f : unit -> parser X, p_bind (delimited (tag (txt "$")) (tag name) newline) f (txt "$" ++ name ++ nl :: unl ls ++ txt "$End" ++ name ++ nl :: r)
               = f tt (unl ls ++ txt "$End" ++ name ++ nl :: r)) by (intros f; apply ok_bind, D).
  destruct ls2 as [|l ls2].
  - right. split; [reflexivity|]. etransitivity; [apply E0|]. rewrite (ok_bind _ _ _ _ _ E). cbn [app unl map concat].
    rewrite (ok_bind _ _ _ _ _ (D _ _)). reflexivity.
  - left. split; [discriminate|]. apply Forall_cons in Hd as [(c & s & -> & Hc) _].
    unfold fails. rewrite E0. rewrite (ok_bind _ _ _ _ _ E). left. rewrite unl_cons. cbn [app].
    unfold delimited, p_bind. rewrite tag_eq. unfold txt at 1. cbn [list_ascii_of_string strip].
    destruct (Ascii.eqb "$" c) eqn:Ec; [|reflexivity]. apply Ascii.eqb_eq in Ec as <-. discriminate.
Qed.
Lemma unl_start {X} (f : X -> text) l : (forall z, z ∈ l -> exists c s, f z = c :: s /\ is_digit c = true) ->
  Forall (fun t => exists c s, t = c :: s /\ is_digit c = true) (map f l).
Proof. intros H. apply Forall_forall. intros t Ht. apply elem_of_list_fmap in Ht as (z & -> & Hz). apply H, Hz. Qed.
Lemma section_fails {X} name (p : parser X) ls r : fails (p (unl ls ++ txt "$End" ++ name ++ nl :: r)) ->
  fails (section_parse name p (unl (sect name ls) ++ r)).
Proof.
  intros F. unfold section_parse, delimited at 1, sect. rewrite unl_cons, unl_app, unl_cons. change (unl []) with (@nil ascii).
  rewrite <- !app_assoc. cbn [app]. rewrite <- !app_assoc. cbn [app].
  assert (D : delimited (tag (txt "$")) (tag name) newline (txt "$" ++ name ++ nl :: unl ls ++ txt "$End" ++ name ++ nl :: r)
              = Ret (POk (unl ls ++ txt "$End" ++ name ++ nl :: r) tt)).
  { unfold delimited. rewrite (ok_bind _ _ _ _ _ (acc_tag anyr (txt "$") _ I)).
    rewrite (ok_bind _ _ _ _ _ (acc_tag anyr name _ I)). rewrite nl_hard. reflexivity. }
  unfold fails. rewrite (ok_bind _ _ _ _ _ D). destruct F as [F|F]; unfold p_bind; rewrite F; [left|right]; reflexivity.
Qed.

Section sections.
Context {X : Type} (p : parser X) (name : text).
Lemma mono_section d (l : list (text * text * X)) r : no_nl d -> Forall (wf_nline p) l ->
  fails (section_parse name (monotonic_list p) (unl (sect name ((txt "count " ++ d) :: map nline l)) ++ r)) \/
  (right_numbers ((txt "count " ++ d) :: map nline l) /\
   section_parse name (monotonic_list p) (unl (sect name ((txt "count " ++ d) :: map nline l)) ++ r) = Ret (POk r (map snd l))).
Proof.
  intros Hd Hl. set (tail := txt "$End" ++ name ++ nl :: r). assert (Ht : dollar tail) by (eexists; reflexivity).
  destruct (count_either d (unl (map nline l) ++ tail) Hd) as [F|(n & E & Hn)].
  - left. apply section_fails. rewrite unl_cons, <- !app_assoc. cbn [app]. apply fails_bind, F.
  - assert (Em : monotonic_list p (unl ((txt "count " ++ d) :: map nline l) ++ tail) = mono_loop p n 0 [] (unl (map nline l) ++ tail)).
    { rewrite unl_cons, <- !app_assoc. cbn [app]. exact (ok_bind count_line (fun n => mono_loop p n 0 []) _ _ _ E). }
    destruct (mono_either p n l 0 [] tail Hl Ht) as [F|(l1 & l2 & -> & L1 & H & E')].
    + left. apply section_fails. fold tail. rewrite Em. exact F.
    + rewrite <- Em in E'. cbn [app] in E'. apply section_either in E'.
      * destruct E' as [[_ F]|[Hnil E2]]; [left; exact F|]. right. destruct l2 as [|z l2]; [|discriminate]. rewrite app_nil_r in *.
        split; [|exact E2]. exists d, (map nline l1). split; [reflexivity|]. split; [rewrite map_length, L1; exact Hn|].
        intros k l0 Hk. apply list_lookup_fmap_Some in Hk as (z & Hz & ->). exists z.1.1, z.1.2. split; [reflexivity|]. apply (H k z Hz).
      * apply unl_start. intros z Hz. rewrite Forall_forall in Hl. destruct (Hl z) as (Ne & De & _); [apply elem_of_app; auto|].
        unfold nline. destruct De as [|c s Hc De]; [contradiction|]. exists c, (s ++ txt " " ++ z.1.2). split; [reflexivity|exact Hc].
Qed.
Lemma free_section d (l : list (text * X)) r : (forall r, p ("$"%char :: r) = Ret PErr) -> no_nl d -> Forall (wf_line p) l ->
  fails (section_parse name (free_list p) (unl (sect name ((txt "count " ++ d) :: map fst l)) ++ r)) \/
  (right_count ((txt "count " ++ d) :: map fst l) /\
   section_parse name (free_list p) (unl (sect name ((txt "count " ++ d) :: map fst l)) ++ r) = Ret (POk r (map snd l))).
Proof.
  intros Hp Hd Hl. set (tail := txt "$End" ++ name ++ nl :: r). assert (Ht : dollar tail) by (eexists; reflexivity).
  destruct (count_either d (unl (map fst l) ++ tail) Hd) as [F|(n & E & Hn)].
  - left. apply section_fails. rewrite unl_cons, <- !app_assoc. cbn [app]. apply fails_bind, F.
  - assert (Em : free_list p (unl ((txt "count " ++ d) :: map fst l) ++ tail) = free_loop p n [] (unl (map fst l) ++ tail)).
    { rewrite unl_cons, <- !app_assoc. cbn [app]. exact (ok_bind count_line (fun n => free_loop p n []) _ _ _ E). }
    destruct (free_either p n Hp l [] tail Hl Ht) as [F|(l1 & l2 & -> & L1 & E')].
    + left. apply section_fails. fold tail. rewrite Em. exact F.
    + rewrite <- Em in E'. cbn [app] in E'. apply section_either in E'.
      * destruct E' as [[_ F]|[Hnil E2]]; [left; exact F|]. right. destruct l2 as [|z l2]; [|discriminate]. rewrite app_nil_r in *.
        split; [|exact E2]. exists d, (map fst l1). split; [reflexivity|]. rewrite map_length, L1. exact Hn.
      * apply unl_start. intros z Hz. rewrite Forall_forall in Hl. destruct (Hl z) as (H & _); [apply elem_of_app; auto|]. exact H.
Qed.
End sections.

(** *** well-formed files, whatever their counts and numbers *)
Definition slashed (ss : list text) : text :=
  match ss with [] => [] | s :: ss => s ++ concat (map (fun s => txt "/" ++ s) ss) end.
Section wf.
Context {A : arith} (nf : numfmt A).
Definition num_text (s : text) : Prop := lit s /\ exists x, nf_read nf s = Some x.
Definition vec_text (t : text) : Prop := exists ss, 1 <= length ss <= 3 /\ Forall num_text ss /\ t = slashed ss.
Definition index_text (s : text) : Prop := exists n, numeral s n /\ (N.of_nat n < 2 ^ 64)%N.
Definition ids_text (t : text) : Prop := exists ss, ss <> [] /\ Forall index_text ss /\ t = slashed ss.
Definition con_ok (t : text) : Prop := (exists c, constraint_from_str nf t = Some c) /\ Forall (fun c => c <> nl /\ c <> cr) t.
Definition cond_ok (t : text) : Prop := t = txt "axisymmetric" \/
  exists s, num_text s /\ (t = txt "planestrain " ++ s \/ t = txt "planestress " ++ s).
Definition header_ok (h : list text) : Prop := exists m mat ct,
  h = [txt "version 1"; txt "material " ++ m; txt "condition " ++ ct] /\
  @material_from_str A (string_of_list_ascii m) = Some mat /\ cond_ok ct.
(** a line that begins with some number *)
Definition numbered_ok (P : text -> Prop) (l : text) : Prop := exists e t, l = e ++ txt " " ++ t /\ e <> [] /\ digits e /\ P t.
Definition indexed_ok (P : text -> Prop) (l : text) : Prop := exists e t, l = e ++ txt " " ++ t /\ index_text e /\ P t.
Record wf_file (file : text) (dn : text) (ns : list text) (de : text) (es : list text) (dc : text) (cs : list text)
  (df : text) (fs : list text) (dd : text) (ds : list text) : Prop := {
  wf_lines : exists h rest, header_ok h /\ file_lines file =
    sect (txt "Header") h ++ sect (txt "Nodes") ((txt "count " ++ dn) :: ns) ++ sect (txt "Elements") ((txt "count " ++ de) :: es) ++
    sect (txt "Constraints") ((txt "count " ++ dc) :: cs) ++ sect (txt "Forces") ((txt "count " ++ df) :: fs) ++
    sect (txt "DistForces") ((txt "count " ++ dd) :: ds) ++ rest;
  wf_nodes : Forall (numbered_ok vec_text) ns;
  wf_elems : Forall (numbered_ok ids_text) es;
  wf_cons : Forall (indexed_ok con_ok) cs;
  wf_forces : Forall (indexed_ok vec_text) fs;
  wf_dists : Forall (indexed_ok (indexed_ok vec_text)) ds }.

Lemma slashed_joined {X} (ss : list (text * X)) : slashed (map fst ss) = joined (txt "/") ss.
Proof. destruct ss as [|[s x] ss]; [reflexivity|]. cbn [map slashed joined fst]. rewrite map_map. reflexivity. Qed.
Lemma sep_acc {X} (p : parser X) (ss : list (text * X)) : ss <> [] -> (forall z, z ∈ ss -> accepts stop p z.1 z.2) ->
  accepts nl_next (separated_list0 slash p) (slashed (map fst ss)) (map snd ss).
Proof.
  intros Ns H. rewrite slashed_joined. destruct ss as [|z ss]; [contradiction|].
  eapply acc_weak; [apply (slash_ends p)|]. apply (sep0_acc (txt "/") p stop); [discriminate|intros r; right; right; reflexivity|exact H].
Qed.
Lemma choose {X} (P : text -> X -> Prop) ss : Forall (fun s => exists x, P s x) ss ->
  exists l, ss = map fst l /\ Forall (fun z : text * X => P z.1 z.2) l.
Proof.
  intros H. induction H as [|s ss (x & Hx) H (l & -> & Hl)]; [exists []; split; [reflexivity|constructor]|].
  exists ((s, x) :: l). split; [reflexivity|]. constructor; assumption.
Qed.
Lemma vec_acc t : vec_text t -> exists v, accepts nl_next (coords nf) t v.
Proof.
  intros (ss & Hl & Hs & ->).
  assert (H : Forall (fun s => exists x, lit s /\ nf_read nf s = Some x) ss).
  { eapply Forall_impl; [exact Hs|]. intros s (H1 & x & H2). exists x. tauto. }
  apply choose in H as (l & -> & H). rewrite map_length in Hl.
  assert (Hp : exists v, point_of (map snd l) = Ret v).
  { destruct l as [|z1 [|z2 [|z3 [|z4 l]]]]; cbn in Hl; try lia; eexists; reflexivity. }
  destruct Hp as (v & Hv). exists v. unfold coords. eapply acc_map; [|exact Hv]. apply sep_acc.
  - intros ->. cbn in Hl. lia.
  - intros z Hz. rewrite Forall_forall in H. destruct (H z Hz). apply acc_lit; assumption.
Qed.
Lemma ids_acc t : ids_text t -> exists v, accepts nl_next (separated_list0 slash u64) t v.
Proof.
  intros (ss & Ns & Hs & ->). apply choose in Hs as (l & -> & H). exists (map snd l). apply sep_acc.
  - intros ->. contradiction.
  - intros z Hz. rewrite Forall_forall in H. destruct (H z Hz). apply acc_u64; assumption.
Qed.
Lemma mono_wf {X} (p : parser X) (P : text -> Prop) ls : (forall t, P t -> exists v, accepts nl_next p t v) -> Forall (numbered_ok P) ls ->
  exists l, ls = map nline l /\ Forall (wf_nline p) l.
Proof.
  intros HP H. induction H as [|s ls (e & t & -> & Ne & De & Ht) H (l & -> & Hl)]; [exists []; split; [reflexivity|constructor]|].
  destruct (HP t Ht) as (v & Hv). exists ((e, t, v) :: l). split; [reflexivity|]. constructor; [|exact Hl]. split; [exact Ne|]. split; assumption.
Qed.
Lemma free_wf {X} (p : parser X) ls : (forall s, s ∈ ls -> exists v, accepts nl_next p s v /\ exists c s', s = c :: s' /\ is_digit c = true) ->
  exists l, ls = map fst l /\ Forall (wf_line p) l.
Proof.
  induction ls as [|s ls IH]; intros H; [exists []; split; [reflexivity|constructor]|].
  destruct (H s (elem_of_list_here _ _)) as (v & Hv & Hc). destruct IH as (l & -> & Hl); [intros s' Hs; apply H, elem_of_list_further, Hs|].
  exists ((s, v) :: l). split; [reflexivity|]. constructor; [|exact Hl]. split; assumption.
Qed.
Lemma numeral_start e n t : numeral e n -> exists c s', e ++ t = c :: s' /\ is_digit c = true.
Proof. intros (Ne & De & _). destruct De as [|c d Hc De]; [contradiction|]. exists c, (d ++ t). split; [reflexivity|exact Hc]. Qed.
Lemma con_acc s : indexed_ok con_ok s -> exists v, accepts nl_next (constraint_line nf) s v /\ exists c s', s = c :: s' /\ is_digit c = true.
Proof.
  intros (e & t & -> & (n & He & Hn) & (c & Hc) & Ht). exists (n, c). split; [|eapply numeral_start, He]. unfold constraint_line.
  eapply acc_bind; [eapply acc_weak; [|apply acc_u64; [exact He|exact Hn]]|].
  { intros r (r' & -> & _). right. left. reflexivity. }
  eapply acc_bind; [apply acc_tag|]. rewrite <- (app_nil_r t).
  eapply acc_bind; [|apply acc_ret]. eapply acc_map; [|rewrite Hc; reflexivity].
  intros r (r' & -> & Hr). apply acc_rest; [exact Ht|]. right. exact Hr.
Qed.
Lemma force_acc s : indexed_ok vec_text s -> exists v, accepts nl_next (force_line nf) s v /\ exists c s', s = c :: s' /\ is_digit c = true.
Proof.
  intros (e & t & -> & (n & He & Hn) & Ht). destruct (vec_acc t Ht) as (v & Hv). exists (n, v). split; [|eapply numeral_start, He]. unfold force_line.
  eapply acc_bind; [eapply acc_weak; [|apply acc_u64; [exact He|exact Hn]]|].
  { intros r (r' & -> & _). right. left. reflexivity. }
  eapply acc_bind; [apply acc_tag|]. rewrite <- (app_nil_r t).
  eapply acc_bind; [|apply acc_ret]. eapply acc_weak; [|exact Hv]. intros r (r' & -> & Hr). exact Hr.
Qed.
Lemma dist_acc s : indexed_ok (indexed_ok vec_text) s -> exists v, accepts nl_next (dist_line nf) s v /\ exists c s', s = c :: s' /\ is_digit c = true.
Proof.
  intros (e & t' & -> & (n & He & Hn) & (e' & t & -> & (m & He' & Hm) & Ht)). destruct (vec_acc t Ht) as (v & Hv).
  exists (n, m, v). split; [|eapply numeral_start, He]. unfold dist_line.
  assert (T : forall R e n, numeral e n -> (N.of_nat n < 2 ^ 64)%N -> accepts R (terminated u64 space) (e ++ txt " ") n).
  { intros R e0 n' He0 Hn'. unfold terminated. eapply acc_bind; [eapply acc_weak; [|apply acc_u64; [exact He0|exact Hn']]|].
    - intros r (r' & -> & _). right. left. reflexivity.
    - rewrite <- (app_nil_r (txt " ")). eapply acc_bind; [apply acc_tag|apply acc_ret]. }
  rewrite (app_assoc e), (app_assoc e').
  eapply acc_bind; [apply T; [exact He|exact Hn]|]. eapply acc_bind; [apply T; [exact He'|exact Hm]|]. rewrite <- (app_nil_r t).
  eapply acc_bind; [|apply acc_ret]. eapply acc_weak; [|exact Hv]. intros r (r' & -> & Hr). exact Hr.
Qed.
Lemma header_acc h : header_ok h -> exists mat c, accepts anyr (header_parser nf) (unl (sect (txt "Header") h)) (1%N, mat, c).
Proof.
  intros (m & mat & ct & -> & Hm & Hc).
  assert (Hct : exists c, accepts nl_next (condition_parser nf) ct c).
  { unfold condition_parser. destruct Hc as [->|(s & (Hl & x & Hx) & [->| ->])].
    - exists Axisymmetric. apply acc_alt2; [reflexivity|]. apply acc_alt2; [reflexivity|]. eapply acc_map; [|reflexivity]. apply acc_tag.
    - exists (PlaneStrain x). apply acc_alt1. eapply acc_map; [|reflexivity].
      eapply acc_bind; [apply acc_tag|]. eapply acc_weak; [apply nl_stop|apply acc_lit; assumption].
    - exists (PlaneStress x). apply acc_alt2; [reflexivity|]. apply acc_alt1. eapply acc_map; [|reflexivity].
      eapply acc_bind; [apply acc_tag|]. eapply acc_weak; [apply nl_stop|apply acc_lit; assumption]. }
  destruct Hct as (c & Hct). exists mat, c. unfold header_parser. apply section_acc.
  eapply acc_map with (x := (1%N, m, c)).
  2:{ cbn [fst snd]. rewrite Hm. reflexivity. }
  match goal with |- accepts _ _ (unl [?a; ?b; ?c]) _ => replace (unl [a; b; c]) with (unl [a] ++ unl [b] ++ unl [c]) by (rewrite <- !unl_app; reflexivity) end.
  assert (W : forall X (p : parser X) R c x, accepts anyr p c x -> accepts R p c x)
    by (intros X p R c' x H; eapply acc_weak; [|exact H]; easy).
  eapply acc_bind; [apply W, (named_acc u8 (txt "version") (txt "1") 1%N)|].
  { intros r (r' & ->). reflexivity. }
  eapply acc_bind; [apply W, (named_acc alphanumeric1 (txt "material") m m)|].
  { unfold material_from_str in Hm. intros r (r' & ->). rewrite <- (list_ascii_of_string_of_list_ascii m).
    destruct (String.eqb_spec (string_of_list_ascii m) "AL6061") as [E|E]; [rewrite E; reflexivity|].
    destruct (String.eqb_spec (string_of_list_ascii m) "TEST") as [E'|E']; [rewrite E'; reflexivity|discriminate]. }
  rewrite <- (app_nil_r (unl [txt "condition " ++ _])).
  eapply acc_bind; [apply W, (named_acc (condition_parser nf) (txt "condition")), Hct|apply acc_ret].
Qed.
Lemma count_no_nl name d ls : Forall no_nl (sect name ((txt "count " ++ d) :: ls)) -> no_nl d.
Proof.
  intros H. unfold sect in H. apply Forall_cons in H as [_ H]. cbn [app] in H. apply Forall_cons in H as [H _]. apply Forall_app in H as [_ H]. exact H.
Qed.
Lemma wf_rejected file dn ns de es dc cs df fs dd ds : wf_file file dn ns de es dc cs df fs dd ds ->
  ~ (right_numbers ((txt "count " ++ dn) :: ns) /\ right_numbers ((txt "count " ++ de) :: es) /\ right_count ((txt "count " ++ dc) :: cs) /\
     right_count ((txt "count " ++ df) :: fs) /\ right_count ((txt "count " ++ dd) :: ds)) ->
  bmsh_to_elas nf file = Ret (Err tt).
Proof.
  intros [(h & rest & Hh & E) Hns Hes Hcs Hfs Hds] Hbad.
  pose proof (file_lines_nl file) as Hnl. rewrite E in Hnl.
  apply Forall_app in Hnl as [_ Hnl]. apply Forall_app in Hnl as [N1 Hnl]. apply Forall_app in Hnl as [N2 Hnl].
  apply Forall_app in Hnl as [N3 Hnl]. apply Forall_app in Hnl as [N4 Hnl]. apply Forall_app in Hnl as [N5 _].
  apply count_no_nl in N1, N2, N3, N4, N5.
  apply (mono_wf (coords nf) _ _ vec_acc) in Hns as (ln & -> & Hns). apply (mono_wf _ _ _ ids_acc) in Hes as (le & -> & Hes).
  destruct (free_wf (constraint_line nf) cs) as (lc & -> & Hcs').
  { rewrite Forall_forall in Hcs. intros s Hs. apply con_acc, Hcs, Hs. }
  destruct (free_wf (force_line nf) fs) as (lf & -> & Hfs').
  { rewrite Forall_forall in Hfs. intros s Hs. apply force_acc, Hfs, Hs. }
  destruct (free_wf (dist_line nf) ds) as (ld & -> & Hds').
  { rewrite Forall_forall in Hds. intros s Hs. apply dist_acc, Hds, Hs. }
  destruct (header_acc h Hh) as (mat & c & Hhd).
  unfold bmsh_to_elas, parse_bmsh. rewrite clean_unl. fold (file_lines file). rewrite E, !unl_app, (Hhd _ I). cbn [mbind out_bind fst snd].
  change (negb (1 =? 1)%N) with false. cbv iota.
  match goal with |- context [unl (sect (txt "Nodes") _) ++ ?u] => destruct (mono_section (coords nf) (txt "Nodes") dn ln u N1 Hns) as [Hf|[R1 E1]] end.
  { unfold nodes_parser. destruct Hf as [Hf|Hf]; rewrite Hf; reflexivity. }
  unfold nodes_parser. rewrite E1. cbn [mbind out_bind]. clear E1.
  match goal with |- context [unl (sect (txt "Elements") _) ++ ?u] => destruct (mono_section (separated_list0 slash u64) (txt "Elements") de le u N2 Hes) as [Hf|[R2 E1]] end.
  { unfold elements_parser. destruct Hf as [Hf|Hf]; rewrite Hf; reflexivity. }
  unfold elements_parser. rewrite E1. cbn [mbind out_bind]. clear E1.
  match goal with |- context [unl (sect (txt "Constraints") _) ++ ?u] => destruct (free_section (constraint_line nf) (txt "Constraints") dc lc u (fun _ => eq_refl) N3 Hcs') as [Hf|[R3 E1]] end.
  { unfold constraints_parser. destruct Hf as [Hf|Hf]; rewrite Hf; reflexivity. }
  unfold constraints_parser. rewrite E1. cbn [mbind out_bind]. clear E1.
  match goal with |- context [unl (sect (txt "Forces") _) ++ ?u] => destruct (free_section (force_line nf) (txt "Forces") df lf u (fun _ => eq_refl) N4 Hfs') as [Hf|[R4 E1]] end.
  { unfold forces_parser. destruct Hf as [Hf|Hf]; rewrite Hf; reflexivity. }
  unfold forces_parser. rewrite E1. cbn [mbind out_bind]. clear E1.
  match goal with |- context [unl (sect (txt "DistForces") _) ++ ?u] => destruct (free_section (dist_line nf) (txt "DistForces") dd ld u (fun _ => eq_refl) N5 Hds') as [Hf|[R5 E1]] end.
  { unfold dist_parser. destruct Hf as [Hf|Hf]; rewrite Hf; reflexivity. }
  contradiction (Hbad (conj R1 (conj R2 (conj R3 (conj R4 R5))))).
Qed.
End wf.
