(** C128 - C130: free vibrations. *)
From Coq Require Import Ascii String Reals Lra Floats.
From Verif Require Import PropSolve PropCli PropHeld PropEnergy PropFactor PropFrame InstQc InstR InstFile StudyProofs CliProofs CliMesh CliStudy CliReal CliEx HeldProofs EnergyProofs.
From Verif Require Import Cli FrameProofs VibProofs.
Local Close Scope R_scope.
Local Close Scope float_scope.
Local Close Scope string_scope.
Local Open Scope nat_scope.
Local Open Scope list_scope.
Local Notation held := CliStudy.held.

(** *** C128 — the modal study solves the vibration problem of the supported body *)
Theorem C128_problem (A : arith) (OL : ord_laws A) (Trig : forall th : A, sadd (smul (scos th) (scos th)) (smul (ssin th) (ssin th)) = s1)
  (a : elas A) ho ho' fl fi fs n rnd dfms : ea_built a -> oracle_ok ho -> calc_modes ho ho' fl fi fs n rnd a = Ret dfms ->
  exists K M s es s' ps, ea_calc_k a = Ret K /\ ea_calc_m a = Ret M /\ sys_wf s /\ eigen_new ho' s = Ret es /\
    find_eigens fl fi fs n rnd (searcher_new es) = Ret (s', ps) /\ length ps = n /\ length dfms = n /\
    (forall i p, ps !! i = Some p -> exists d, dfms !! i = Some (d, ssqrt (ep_value p)) /\ respects (ea_cons a) (flat_disp d) /\
       (forall mu, eigen_of (sy_dofs s) (k_at s) (m_at s) mu (vel (ep_vec p)) <->
                   vibrates (node_count a * 2) (el K) (el M) (ea_cons a) mu (flat_disp d)) /\
       work (sy_dofs s) (mv (sy_dofs s) (k_at s) (vel (ep_vec p))) (vel (ep_vec p)) =
         work (node_count a * 2) (mv (node_count a * 2) (el K) (flat_disp d)) (flat_disp d) /\
       work (sy_dofs s) (mv (sy_dofs s) (m_at s) (vel (ep_vec p))) (vel (ep_vec p)) =
         work (node_count a * 2) (mv (node_count a * 2) (el M) (flat_disp d)) (flat_disp d)) /\
    (forall mu, (exists x, eigen_of (sy_dofs s) (k_at s) (m_at s) mu x) <->
                (exists u, vibrates (node_count a * 2) (el K) (el M) (ea_cons a) mu u)).
Proof. intros Hb. exact (modes_problem OL Trig a ho ho' fl fi fs n rnd dfms (ea_built_ok a Hb)). Qed.
Print Assumptions C128_problem.
(** the frequencies of a held body of positive density are positive, and shapes of different
    frequencies do no work on each other *)
Theorem C128_positive (A : arith) (OL : ord_laws A) (a : elas A) K M mu u : ea_built a -> one_piece a ->
  (forall e, e ∈ ea_elems a -> ccw e /\ solid e) -> lts s0 (m_density (ea_mat a)) -> held a ->
  ea_calc_k a = Ret K -> ea_calc_m a = Ret M ->
  vibrates (node_count a * 2) (el K) (el M) (ea_cons a) mu u -> lts s0 mu /\ lts s0 (work (node_count a * 2) (mv (node_count a * 2) (el M) u) u).
Proof.
  intros Hb (_ & Hc & _) He Hr Hh EK EM Hv. pose proof (ea_built_ok a Hb) as Ha.
  pose proof (fun u => mass_pos OL a M u Ha EM Hc He Hr) as HM. split; [|apply HM; apply Hv].
  exact (mode_pos OL _ _ _ _ _ u (Hh K EK) HM Hv).
Qed.
Print Assumptions C128_positive.
Theorem C128_apart (A : arith) (OL : ord_laws A) (a : elas A) K M mu nu u v : ea_built a -> ea_calc_k a = Ret K -> ea_calc_m a = Ret M ->
  vibrates (node_count a * 2) (el K) (el M) (ea_cons a) mu u -> vibrates (node_count a * 2) (el K) (el M) (ea_cons a) nu v -> mu <> nu ->
  work (node_count a * 2) (mv (node_count a * 2) (el M) u) v = s0 /\ work (node_count a * 2) (mv (node_count a * 2) (el K) u) v = s0.
Proof.
  intros Hb EK EM. pose proof (ea_built_ok a Hb) as Ha.
  exact (modes_apart OL _ _ _ _ mu nu u v (stiff_sym OL a K Ha EK) (mass_sym OL a M Ha EM)).
Qed.
Print Assumptions C128_apart.

(** the triangle held at two corners swings along x with squared frequency 3 and along y with 6 *)
Definition still : text := (lying ["count 0"] ["count 0"])%string.
Definition still_leaning : text := (leaning ["count 0"] ["count 0"])%string.
Definition still_big : text := (bmsh_file ["count 3"; "0 0/0"; "1 2/0"; "2 0/2"] ["count 1"; "0 0/1/2"] ["count 2"; "0 xy"; "1 xy"] ["count 0"] ["count 0"])%string.
Definition free_part (d : dict Qc_arith) : list Qc_arith := [el d 4 4; el d 4 5; el d 5 4; el d 5 5].
Definition km_of (file : text) : out (list (constr Qc_arith) * nat * list Qc_arith * list Qc_arith) :=
  r ← bmsh_to_elas Qc_fmt file;
  match r with Ok a => K ← ea_calc_k a; M ← ea_calc_m a; Ret (ea_cons a, node_count a, free_part K, free_part M) | Err _ => Panic end.
Definition corner (x y : Qc_arith) : nat -> Qc_arith := fun i => match i with 4 => x | 5 => y | _ => s0 end.
Lemma corner_mode file k m : km_of file = Ret ([XYFixed; XYFixed; Free], 3, k, m) ->
  exists a K M, bmsh_to_elas Qc_fmt file = Ret (Ok a) /\ ea_built a /\ ea_calc_k a = Ret K /\ ea_calc_m a = Ret M /\
    ea_cons a = [XYFixed; XYFixed; Free] /\ node_count a = 3 /\ free_part K = k /\ free_part M = m.
Proof.
  unfold km_of. intros E. apply bind_ret_inv in E as (r & Er & E). destruct r as [a|]; [|discriminate].
  apply bind_ret_inv in E as (K & EK & E). apply bind_ret_inv in E as (M & EM & E). injection E as E1 E2 E3 E4.
  exists a, K, M. split; [exact Er|]. split; [exact (bmsh_built Qc_fmt _ _ Er)|]. auto 10.
Qed.
Lemma corner_vib mu x y k m (K M : dict Qc_arith) : free_part K = k -> free_part M = m ->
  (x <> s0 \/ y <> s0) -> match k, m with
  | [k0; k1; k2; k3], [m0; m1; m2; m3] => sadd (smul k0 x) (smul k1 y) = smul mu (sadd (smul m0 x) (smul m1 y)) /\
                                          sadd (smul k2 x) (smul k3 y) = smul mu (sadd (smul m2 x) (smul m3 y))
  | _, _ => False end -> vibrates 6 (el K) (el M) [XYFixed; XYFixed; Free] mu (corner x y).
Proof.
  intros <- <- H [E1 E2]. refine (proj2 (corner_vibrates Qc_ord_laws _ _ _ _) _). split; [repeat split; reflexivity|]. split; [exact H|]. split; [exact E1|exact E2].
Qed.
Example C128_example : exists a K M, bmsh_to_elas Qc_fmt still = Ret (Ok a) /\
  (ea_built a /\ one_piece a /\ (forall e, e ∈ ea_elems a -> ccw e /\ solid e) /\ lts s0 (m_density (ea_mat a)) /\ held a) /\
  ea_calc_k a = Ret K /\ ea_calc_m a = Ret M /\
  vibrates (node_count a * 2) (el K) (el M) (ea_cons a) (qc 3) (corner (qc 1) (qc 0)) /\
  vibrates (node_count a * 2) (el K) (el M) (ea_cons a) (qc 6) (corner (qc 0) (qc 1)) /\
  exists d, calc_modes hash_id hash_id 5 10 10 1 [qc 1; qc 0] a = Ret [d].
Proof.
  destruct (corner_mode still [qcd 1 4; qc 0; qc 0; qcd 1 2] [qcd 1 12; qc 0; qc 0; qcd 1 12]) as (a & K & M & Ea & Hb & EK & EM & Hc & Hn & FK & FM); [vm_refl|].
  exists a, K, M. split; [exact Ea|]. split.
  - destruct (file_facts still [XYFixed; XYFixed; Free] [(qc 0, qc 0); (qc 1, qc 0); (qc 0, qc 1)] (qc 1)) as (a' & Ea' & _ & H1 & H2 & H3 & _ & _ & Hnd); [vm_refl|].
    assert (a' = a) as -> by congruence. split; [exact Hb|]. split; [exact H1|]. split; [exact H2|]. split.
    + assert (F : (r ← bmsh_to_elas Qc_fmt still; match r with Ok a => Ret (sltb (s0 : Qc_arith) (m_density (ea_mat a))) | Err _ => Panic end) = Ret true) by vm_refl.
      rewrite Ea in F. cbn [mbind out_bind] in F. injection F as F. exact F.
    + destruct (Hnd 0 _ _ eq_refl) as (p & Hp & Xp & Yp). destruct (Hnd 1 _ _ eq_refl) as (q & Hq & Xq & Yq).
      apply (C89_two_nodes Qc_arith Qc_ord_laws a 0 1 p q Hb H1 H2 H3 Hp Hq); [|now rewrite Hc..].
      rewrite Xp, Xq. intros [E _]. revert E. apply qc_neq. vm_refl.
  - split; [exact EK|]. split; [exact EM|]. rewrite Hc, Hn. split; [|split].
    + apply (corner_vib _ _ _ _ _ K M FK FM); [left; apply qc_neq; vm_refl|split; vm_refl].
    + apply (corner_vib _ _ _ _ _ K M FK FM); [right; apply qc_neq; vm_refl|split; vm_refl].
    + assert (F : (r ← bmsh_to_elas Qc_fmt still; match r with Ok a => d ← calc_modes hash_id hash_id 5 10 10 1 [qc 1; qc 0] a; Ret (length d) | Err _ => Panic end) = Ret 1) by vm_refl.
      rewrite Ea in F. cbn [mbind out_bind] in F. apply bind_ret_inv in F as (l & El & F). injection F as F. destruct l as [|d [|? ?]]; try discriminate F. eauto.
Qed.

(** *** C129 — vibrations do not depend on where the body lies *)
Theorem C129_moved (A : arith) (OL : ord_laws A) (f : frame A) (a b : elas A) K M K' M' mu u :
  is_frame f -> f_lam f = s1 -> ea_built a -> ea_built b -> moved f a b -> suits f (ea_cond a) ->
  ssub s1 (m_poisson (ea_mat a)) <> s0 -> (forall e, e ∈ ea_elems a -> twice_area e <> s0) -> Forall2 (turned_support f) (ea_cons a) (ea_cons b) ->
  ea_calc_k a = Ret K -> ea_calc_m a = Ret M -> ea_calc_k b = Ret K' -> ea_calc_m b = Ret M' ->
  (vibrates (node_count a * 2) (el K) (el M) (ea_cons a) mu u <-> vibrates (node_count b * 2) (el K') (el M') (ea_cons b) mu (turn f u)).
Proof. intros Hf _ Ha Hb Hm Hs. exact (vibrates_moved OL f Hf a b Hm (ea_built_ok a Ha) (ea_built_ok b Hb) Hs K M K' M' mu u). Qed.
Print Assumptions C129_moved.
(** the triangle turned by the angle of the 3-4-5 triangle swings along the turned axes *)
Example C129_example : exists a b K M K' M', is_frame lean /\ f_lam lean = qc 1 /\ ea_built a /\ ea_built b /\ moved lean a b /\ suits lean (ea_cond a) /\
  ssub s1 (m_poisson (ea_mat a)) <> s0 /\ (forall e, e ∈ ea_elems a -> twice_area e <> s0) /\ Forall2 (turned_support lean) (ea_cons a) (ea_cons b) /\
  ea_calc_k a = Ret K /\ ea_calc_m a = Ret M /\ ea_calc_k b = Ret K' /\ ea_calc_m b = Ret M' /\
  vibrates (node_count a * 2) (el K) (el M) (ea_cons a) (qc 3) (corner (qc 1) (qc 0)) /\
  vibrates (node_count b * 2) (el K') (el M') (ea_cons b) (qc 3) (corner (qcd 3 5) (qcd 4 5)).
Proof.
  destruct (corner_mode still [qcd 1 4; qc 0; qc 0; qcd 1 2] [qcd 1 12; qc 0; qc 0; qcd 1 12]) as (a & K & M & Ea & Ha & EK & EM & Hc & Hn & FK & FM); [vm_refl|].
  destruct (corner_mode still_leaning [qcd 41 100; qcd (-12) 100; qcd (-12) 100; qcd 34 100] [qcd 1 12; qc 0; qc 0; qcd 1 12]) as (b & K' & M' & Eb & Hb & EK' & EM' & Hc' & Hn' & FK' & FM'); [vm_refl|].
  exists a, b, K, M, K', M'. destruct (fine_spec lean _ a Ea ltac:(vm_refl)) as (F1 & F2 & F3).
  split; [exact lean_frame|]. split; [reflexivity|]. split; [exact Ha|]. split; [exact Hb|].
  split; [exact (same_spots lean _ _ a b Ea Eb ltac:(vm_refl))|]. split; [exact F3|]. split; [exact F1|]. split; [exact F2|].
  split; [exact (held_corners lean _ _ a b Ea Eb ltac:(vm_refl) ltac:(vm_refl))|]. repeat (split; [assumption|]). rewrite Hc, Hc', Hn, Hn'. split.
  - apply (corner_vib _ _ _ _ _ K M FK FM); [left; apply qc_neq; vm_refl|split; vm_refl].
  - apply (corner_vib _ _ _ _ _ K' M' FK' FM'); [left; apply qc_neq; vm_refl|split; vm_refl].
Qed.

(** *** C130 — a body enlarged [lam] times swings with squared frequency divided by [lam]^2.
    False: the mass matrix lacks the Jacobian determinant (C42), and the frequencies computed
    for bodies of different size are the same *)
Definition twice : frame Qc_arith := Frame (qc 1) (qc 0) (qc 2) (qc 0) (qc 0).
Theorem C130_refuted : exists a b K M K' M', is_frame twice /\ ea_built a /\ ea_built b /\ moved twice a b /\ suits twice (ea_cond a) /\
  ssub s1 (m_poisson (ea_mat a)) <> s0 /\ (forall e, e ∈ ea_elems a -> twice_area e <> s0) /\ Forall2 (turned_support twice) (ea_cons a) (ea_cons b) /\
  ea_calc_k a = Ret K /\ ea_calc_m a = Ret M /\ ea_calc_k b = Ret K' /\ ea_calc_m b = Ret M' /\
  vibrates (node_count a * 2) (el K) (el M) (ea_cons a) (qc 3) (corner (qc 1) (qc 0)) /\
  vibrates (node_count b * 2) (el K') (el M') (ea_cons b) (qc 3) (corner (qc 1) (qc 0)) /\
  ~ exists u, vibrates (node_count b * 2) (el K') (el M') (ea_cons b) (sdiv (qc 3) (qc 4)) u.
Proof.
  destruct (corner_mode still [qcd 1 4; qc 0; qc 0; qcd 1 2] [qcd 1 12; qc 0; qc 0; qcd 1 12]) as (a & K & M & Ea & Ha & EK & EM & Hc & Hn & FK & FM); [vm_refl|].
  destruct (corner_mode still_big [qcd 1 4; qc 0; qc 0; qcd 1 2] [qcd 1 12; qc 0; qc 0; qcd 1 12]) as (b & K' & M' & Eb & Hb & EK' & EM' & Hc' & Hn' & FK' & FM'); [vm_refl|].
  exists a, b, K, M, K', M'. destruct (fine_spec twice _ a Ea ltac:(vm_refl)) as (F1 & F2 & F3).
  split; [split; [vm_refl|apply qc_neq; vm_refl]|]. split; [exact Ha|]. split; [exact Hb|].
  split; [exact (same_spots twice _ _ a b Ea Eb ltac:(vm_refl))|]. split; [exact F3|]. split; [exact F1|]. split; [exact F2|].
  split; [exact (held_corners twice _ _ a b Ea Eb ltac:(vm_refl) ltac:(vm_refl))|]. repeat (split; [assumption|]). rewrite Hc, Hc', Hn, Hn'. split; [|split].
  - apply (corner_vib _ _ _ _ _ K M FK FM); [left; apply qc_neq; vm_refl|split; vm_refl].
  - apply (corner_vib _ _ _ _ _ K' M' FK' FM'); [left; apply qc_neq; vm_refl|split; vm_refl].
  - intros (u & Hu). apply (corner_vibrates Qc_ord_laws) in Hu as (_ & Hne & E1 & E2). unfold free_part in FK', FM'. injection FK' as K0 K1 K2 K3. injection FM' as M0 M1 M2 M3.
    rewrite K0, K1, M0, M1 in E1. rewrite K2, K3, M2, M3 in E2.
    destruct (diagonal_zero Qc_ord_laws _ _ _ _ _ _ _ E1 E2) as [Z1 Z2]; [apply qc_neq; vm_refl|apply qc_neq; vm_refl|]. destruct Hne as [H|H]; apply H; assumption.
Qed.
Print Assumptions C130_refuted.
(** what holds: the shapes are right, and the frequencies are those of the smaller body; so the
    division by [lam]^2 is found only if it changes nothing *)
Theorem C130_same_partial (A : arith) (OL : ord_laws A) (f : frame A) (a b : elas A) K M K' M' mu u :
  is_frame f -> ea_built a -> ea_built b -> moved f a b -> suits f (ea_cond a) ->
  ssub s1 (m_poisson (ea_mat a)) <> s0 -> (forall e, e ∈ ea_elems a -> twice_area e <> s0) -> Forall2 (turned_support f) (ea_cons a) (ea_cons b) ->
  ea_calc_k a = Ret K -> ea_calc_m a = Ret M -> ea_calc_k b = Ret K' -> ea_calc_m b = Ret M' ->
  (vibrates (node_count a * 2) (el K) (el M) (ea_cons a) mu u <-> vibrates (node_count b * 2) (el K') (el M') (ea_cons b) mu (turn f u)).
Proof. intros Hf Ha Hb Hm Hs. exact (vibrates_moved OL f Hf a b Hm (ea_built_ok a Ha) (ea_built_ok b Hb) Hs K M K' M' mu u). Qed.
Print Assumptions C130_same_partial.
Theorem C130_only_partial (A : arith) (OL : ord_laws A) (f : frame A) (a b : elas A) K M K' M' mu u :
  is_frame f -> ea_built a -> ea_built b -> moved f a b -> suits f (ea_cond a) -> one_piece b ->
  (forall e, e ∈ ea_elems b -> ccw e /\ solid e) -> lts s0 (m_density (ea_mat b)) ->
  ssub s1 (m_poisson (ea_mat a)) <> s0 -> (forall e, e ∈ ea_elems a -> twice_area e <> s0) -> Forall2 (turned_support f) (ea_cons a) (ea_cons b) ->
  ea_calc_k a = Ret K -> ea_calc_m a = Ret M -> ea_calc_k b = Ret K' -> ea_calc_m b = Ret M' ->
  vibrates (node_count a * 2) (el K) (el M) (ea_cons a) mu u ->
  vibrates (node_count b * 2) (el K') (el M') (ea_cons b) (sdiv mu (smul (f_lam f) (f_lam f))) (turn f u) -> sdiv mu (smul (f_lam f) (f_lam f)) = mu.
Proof.
  intros Hf Ha Hb Hm Hs (_ & Hcov & _) He Hr H1 H2 H3 EK EM EK' EM' Hu Hv.
  apply (C130_same_partial A OL f a b K M K' M' mu u Hf Ha Hb Hm Hs H1 H2 H3 EK EM EK' EM') in Hu.
  apply (not_slower OL _ _ _ _ _ _ _ Hu); [|exact Hv]. apply (mass_pos OL b M' _ (ea_built_ok b Hb) EM' Hcov He Hr). apply Hu.
Qed.
Print Assumptions C130_only_partial.
