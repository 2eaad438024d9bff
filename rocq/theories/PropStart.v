(** C131, C132: when the modal study can be set up, and what its counts count. *)
From Coq Require Import Ascii String Reals Lra Floats.
From Verif Require Import PropSolve PropCli PropHeld PropEnergy PropFactor PropFrame InstQc InstR InstFile StudyProofs CliProofs CliMesh CliStudy CliReal CliEx HeldProofs EnergyProofs.
From Verif Require Import Cli FrameProofs VibProofs PropVib EigIter Inertia StartProofs.
Local Close Scope R_scope.
Local Close Scope float_scope.
Local Close Scope string_scope.
Local Open Scope nat_scope.
Local Open Scope list_scope.
Local Notation held := CliStudy.held.

(** *** C131 — the modal study accepts a mesh exactly if two unknowns are left and the nodes left
    free hang together *)
Theorem C131_starts (A : arith) (OL : ord_laws A) (a : elas A) ho ho' : ea_built a -> oracle_ok ho -> oracle_ok ho' ->
  (forall n, loose a n -> together a n n) ->
  ((exists es, set_up ho ho' a es) <-> 2 <= unknowns (ea_cons a) /\ hangs_together a).
Proof. intros Hb. exact (set_up_iff OL a ho ho' (ea_built_ok a Hb)). Qed.
Print Assumptions C131_starts.
(** so no number of modes is found on any other mesh *)
Theorem C131_needed (A : arith) (OL : ord_laws A) (a : elas A) ho ho' fl fi fs n rnd dfms : ea_built a -> oracle_ok ho -> oracle_ok ho' ->
  (forall n, loose a n -> together a n n) -> calc_modes ho ho' fl fi fs n rnd a = Ret dfms ->
  2 <= unknowns (ea_cons a) /\ hangs_together a.
Proof.
  intros Hb Ho Ho' Hin E. apply (C131_starts A OL a ho ho' Hb Ho Ho' Hin).
  destruct (calc_modes_count ho ho' fl fi fs n rnd a dfms E) as (t & K & Kb & M & Mb & s & es & s' & ps & H).
  exists es, t, K, Kb, M, Mb, s. tauto.
Qed.
Print Assumptions C131_needed.

Lemma one_piece_in {A : arith} (a : elas A) : ea_built a -> one_piece a -> forall n, loose a n -> together a n n.
Proof.
  intros Hb (_ & H & _) n (c & Hc & _). apply lookup_lt_Some in Hc. rewrite (proj1 (ea_built_ok a Hb)) in Hc.
  destruct (H n Hc) as (e & He & Hn). exists e. auto.
Qed.
(** the triangle held at two corners is accepted; the plate with a flap behind its fixed edge is
    held as well and of one piece, but no study of it can be set up *)
Example C131_example : exists a es, bmsh_to_elas Qc_fmt still = Ret (Ok a) /\ ea_built a /\ (forall n, loose a n -> together a n n) /\
  set_up hash_id hash_id a es /\ 2 <= unknowns (ea_cons a) /\ hangs_together a.
Proof.
  destruct C128_example as (a & K & M & Ea & (Hb & H1 & _) & _ & _ & _ & _ & d & Ed). pose proof (one_piece_in a Hb H1) as Hin.
  destruct (calc_modes_count _ _ _ _ _ _ _ _ _ Ed) as (t & K' & Kb & M' & Mb & s & es & s' & ps & H).
  exists a, es. split; [exact Ea|]. split; [exact Hb|]. split; [exact Hin|]. split; [exists t, K', Kb, M', Mb, s; tauto|].
  exact (C131_needed Qc_arith Qc_ord_laws a _ _ _ _ _ _ _ _ Hb hash_id_ok hash_id_ok Hin Ed).
Qed.
Example C131_flap : exists a, bmsh_to_elas Qc_fmt flap_plate = Ret (Ok a) /\ ea_built a /\ one_piece a /\ held a /\ unknowns (ea_cons a) = 6 /\
  ~ hangs_together a /\ forall ho ho' es, oracle_ok ho -> oracle_ok ho' -> ~ set_up ho ho' a es.
Proof.
  destruct (file_facts flap_plate [Free; XYFixed; XYFixed; Free; Free] flap_nodes (qc 1)) as (a & Ea & Hb & H1 & H2 & H3 & Hc & _ & Hn); [vm_refl|].
  exists a. split; [exact Ea|]. split; [exact Hb|]. split; [exact H1|]. split.
  { destruct (Hn 1 _ _ eq_refl) as (p & Hp & Xp & _). destruct (Hn 2 _ _ eq_refl) as (q & Hq & Xq & _).
    apply (C89_two_nodes Qc_arith Qc_ord_laws a 1 2 p q Hb H1 H2 H3 Hp Hq); [|now rewrite Hc..].
    rewrite Xp, Xq. intros [E _]. revert E. apply qc_neq. vm_refl. }
  split; [now rewrite Hc|].
  assert (Hnot : ~ hangs_together a).
  { assert (F : (r ← bmsh_to_elas Qc_fmt flap_plate; match r with Ok a => Ret (map e_id_list (ea_elems a)) | Err _ => Panic end) = Ret [[0; 1; 2]; [1; 0; 3]; [2; 1; 4]]) by vm_refl.
    rewrite Ea in F. cbn [mbind out_bind] in F. injection F as F. intros [_ Hr].
    assert (L : forall n, n = 0 \/ n = 3 \/ n = 4 -> loose a n) by (intros n [->|[->| ->]]; exists Free; (split; [now rewrite Hc|discriminate])).
    assert (G : forall x y, rtc (fun x y => loose a x /\ loose a y /\ together a x y) x y -> x = 4 -> y = 4).
    { intros x y H. induction H as [|x y z (_ & (c & Hy & Hcy) & (e & He & Hx & Hye)) _ IH]; [auto|]. intros ->. apply IH.
      assert (Hi : e_id_list e ∈ map e_id_list (ea_elems a)) by (apply elem_of_list_fmap; eauto). rewrite F in Hi.
      assert (y <> 1 /\ y <> 2) as [N1 N2] by (split; intros ->; rewrite Hc in Hy; cbn in Hy; congruence).
      repeat (apply elem_of_cons in Hi as [Hi|Hi]; [rewrite Hi in Hx, Hye; clear - Hx Hye N1 N2; set_solver|]). now apply elem_of_nil in Hi. }
    pose proof (G 4 0 (Hr 4 0 (L 4 ltac:(auto)) (L 0 ltac:(auto))) eq_refl). discriminate. }
  split; [exact Hnot|]. intros ho ho' es Ho Ho' Hs. apply Hnot.
  exact (proj2 (proj1 (C131_starts Qc_arith Qc_ord_laws a ho ho' Hb Ho Ho' (one_piece_in a Hb H1)) (ex_intro _ es Hs))).
Qed.

(** *** C132 — the number of negative pivots at a shift is the number of vibrations of the
    supported body below it *)
Theorem C132_counts (A : arith) (OL : ord_laws A) (Trig : forall th : A, sadd (smul (scos th) (scos th)) (smul (ssin th) (ssin th)) = s1)
  (a : elas A) ho ho' es K M u lam mu d : ea_built a -> one_piece a -> (forall e, e ∈ ea_elems a -> ccw e /\ solid e) -> lts s0 (m_density (ea_mat a)) ->
  oracle_ok ho -> oracle_ok ho' -> ea_calc_k a = Ret K -> ea_calc_m a = Ret M ->
  set_up ho ho' a es -> swings a K M (unknowns (ea_cons a)) u lam ->
  pivots_at es mu d -> (forall c, S c < unknowns (ea_cons a) -> vel d c <> s0) ->
  eigenvalues_under es mu = Ret (count_below (unknowns (ea_cons a)) lam mu).
Proof.
  intros Hb H1 He Hr Ho Ho' EK EM. pose proof (ea_built_ok a Hb) as Ha.
  exact (set_up_counts OL Trig a ho ho' es K M u lam mu d Ha Ho Ho' (one_piece_in a Hb H1) (fun u => mass_pos OL a M u Ha EM (proj1 (proj2 H1)) He Hr) EK EM).
Qed.
Print Assumptions C132_counts.

Definition pivots_of (file : text) (mu : Qc_arith) : out (list Qc_arith) :=
  r ← bmsh_to_elas Qc_fmt file;
  match r with
  | Ok a => t ← from_constraints (ea_cons a); K ← ea_calc_k a; Kb ← bar_matrix hash_id 0 t K; M ← ea_calc_m a; Mb ← bar_matrix hash_id 6 t M;
            s ← from_km (fun k => d_nzs (hash_id 12 (d_data k))) (fun m => d_nzs (hash_id 13 (d_data m))) Kb Mb; es ← eigen_new hash_id s;
            l ← shifted (es_k es) (es_m es) mu; ld ← cholesky_envelope_no_root l; Ret (dg_data ld.2)
  | Err _ => Panic
  end.
Lemma pivots_of_at file mu d a es : pivots_of file mu = Ret d -> bmsh_to_elas Qc_fmt file = Ret (Ok a) -> set_up hash_id hash_id a es -> pivots_at es mu d.
Proof.
  intros E Ea (t & K & Kb & M & Mb & s & E1 & E2 & E3 & E4 & E5 & E6 & E7). unfold pivots_of in E. rewrite Ea in E. cbn [mbind out_bind] in E.
  rewrite E1 in E. cbn [mbind out_bind] in E. rewrite E2 in E. cbn [mbind out_bind] in E. rewrite E3 in E. cbn [mbind out_bind] in E.
  rewrite E4 in E. cbn [mbind out_bind] in E. rewrite E5 in E. cbn [mbind out_bind] in E. rewrite E6 in E. cbn [mbind out_bind] in E.
  rewrite E7 in E. cbn [mbind out_bind] in E. apply bind_ret_inv in E as (l & El & E). apply bind_ret_inv in E as ([l' [d']] & Ed & E). injection E as <-.
  exists l, l'. auto.
Qed.
Lemma Qc_trig (th : Qc_arith) : sadd (smul (scos th) (scos th)) (smul (ssin th) (ssin th)) = (s1 : Qc_arith).
Proof. vm_refl. Qed.
(** the triangle swings with squared frequencies 3 and 6: none lies below 2, one below 4, two below 7 *)
Definition two_swings (j : nat) : nat -> Qc_arith := match j with 0 => PropVib.corner (qc 1) (qc 0) | _ => PropVib.corner (qc 0) (qc 1) end.
Definition two_speeds (j : nat) : Qc_arith := match j with 0 => qc 3 | _ => qc 6 end.
Lemma piv2 : pivots_of still (qc 2) = Ret [qcd 1 3; qcd 1 12]. Proof. vm_refl. Qed.
Lemma piv4 : pivots_of still (qc 4) = Ret [qcd 1 6; qcd (-1) 12]. Proof. vm_refl. Qed.
Lemma piv7 : pivots_of still (qc 7) = Ret [qcd (-1) 12; qcd (-1) 3]. Proof. vm_refl. Qed.
Lemma below2 : count_below 2 two_speeds (qc 2) = 0. Proof. vm_refl. Qed.
Lemma below4 : count_below 2 two_speeds (qc 4) = 1. Proof. vm_refl. Qed.
Lemma below7 : count_below 2 two_speeds (qc 7) = 2. Proof. vm_refl. Qed.
Example C132_example : exists a K M es, bmsh_to_elas Qc_fmt still = Ret (Ok a) /\
  (ea_built a /\ one_piece a /\ (forall e, e ∈ ea_elems a -> ccw e /\ solid e) /\ lts s0 (m_density (ea_mat a))) /\
  ea_calc_k a = Ret K /\ ea_calc_m a = Ret M /\ set_up hash_id hash_id a es /\ unknowns (ea_cons a) = 2 /\ swings a K M 2 two_swings two_speeds /\
  eigenvalues_under es (qc 2) = Ret 0 /\ eigenvalues_under es (qc 4) = Ret 1 /\ eigenvalues_under es (qc 7) = Ret 2.
Proof.
  destruct C128_example as (a & K & M & Ea & (Hb & H1 & H2 & H3 & _) & EK & EM & V1 & V2 & d & Ed).
  destruct (calc_modes_count _ _ _ _ _ _ _ _ _ Ed) as (t & K' & Kb & M' & Mb & s & es & s' & ps & H).
  assert (Hs : set_up hash_id hash_id a es) by (exists t, K', Kb, M', Mb, s; tauto).
  assert (Hu : unknowns (ea_cons a) = 2).
  { assert (F : (r ← bmsh_to_elas Qc_fmt still; match r with Ok a => Ret (unknowns (ea_cons a)) | Err _ => Panic end) = Ret 2) by vm_refl.
    rewrite Ea in F. cbn [mbind out_bind] in F. now injection F as F. }
  assert (Hw : swings a K M 2 two_swings two_speeds).
  { split.
    - intros [|[|j]] Hj; [exact V1|exact V2|lia].
    - assert (N : qc 3 <> qc 6) by (apply qc_neq; vm_refl).
      intros [|[|i]] [|[|j]] Hi Hj Hne; try lia; [apply (C128_apart Qc_arith Qc_ord_laws a K M (qc 3) (qc 6) _ _ Hb EK EM V1 V2 N)|].
      refine (proj1 (C128_apart Qc_arith Qc_ord_laws a K M (qc 6) (qc 3) _ _ Hb EK EM V2 V1 _)). congruence. }
  exists a, K, M, es. split; [exact Ea|]. split; [tauto|]. split; [exact EK|]. split; [exact EM|]. split; [exact Hs|]. split; [exact Hu|]. split; [exact Hw|].
  assert (G : forall mu p q, pivots_of still mu = Ret [p; q] -> p <> s0 -> eigenvalues_under es mu = Ret (count_below 2 two_speeds mu)).
  { intros mu p q E Hp. rewrite <- Hu. refine (C132_counts Qc_arith Qc_ord_laws Qc_trig a hash_id hash_id es K M two_swings two_speeds mu [p; q] Hb H1 H2 H3 hash_id_ok hash_id_ok EK EM Hs _ (pivots_of_at still mu _ a es E Ea Hs) _).
    - now rewrite Hu.
    - rewrite Hu. intros [|c] Hc; [exact Hp|lia]. }
  split; [|split].
  - rewrite (G _ _ _ piv2); [now rewrite below2|apply qc_neq; vm_refl].
  - rewrite (G _ _ _ piv4); [now rewrite below4|apply qc_neq; vm_refl].
  - rewrite (G _ _ _ piv7); [now rewrite below7|apply qc_neq; vm_refl].
Qed.
