(** C125: the supports balance the load. *)
From Coq Require Import Ascii String.
From Verif Require Import PropEnergy ReactProofs InstQc InstFile Cli CliEx CliMesh.
Local Close Scope string_scope.
Local Open Scope nat_scope.
Local Open Scope list_scope.

(** *** C125 — the force missing to equilibrium acts at supports only, in the directions they
    hold, and balances the load as a whole *)
Theorem C125_directions (A : arith) (OL : ord_laws A) (Trig : forall th : A, sadd (smul (scos th) (scos th)) (smul (ssin th) (ssin th)) = s1)
  (h : hashes A) name (a : elas A) oc ol disp : computed h name a oc ol disp ->
  exists K r, ea_calc_k a = Ret K /\ calc_load a oc ol = Ret r /\
    forall n c, ea_cons a !! n = Some c ->
      acts_along c (reaction (node_count a * 2) (el K) (vel r) (flat_disp disp) (n * 2)) (reaction (node_count a * 2) (el K) (vel r) (flat_disp disp) (n * 2 + 1)).
Proof. intros H. destruct (reactions OL Trig h name a oc ol disp H) as (K & r & H1 & H2 & H3 & _). eauto. Qed.
Print Assumptions C125_directions.
Theorem C125_balance (A : arith) (OL : ord_laws A) (Trig : forall th : A, sadd (smul (scos th) (scos th)) (smul (ssin th) (ssin th)) = s1)
  (h : hashes A) name (a : elas A) oc ol disp : computed h name a oc ol disp ->
  exists K r, ea_calc_k a = Ret K /\ calc_load a oc ol = Ret r /\
    force_y (node_count a) (reaction (node_count a * 2) (el K) (vel r) (flat_disp disp)) = ssub s0 (force_y (node_count a) (vel r)) /\
    (ea_cond a <> Axisymmetric ->
      force_x (node_count a) (reaction (node_count a * 2) (el K) (vel r) (flat_disp disp)) = ssub s0 (force_x (node_count a) (vel r)) /\
      moment (ea_nodes a) (reaction (node_count a * 2) (el K) (vel r) (flat_disp disp)) = ssub s0 (moment (ea_nodes a) (vel r))).
Proof. intros H. destruct (reactions OL Trig h name a oc ol disp H) as (K & r & H1 & H2 & _ & H3). eauto. Qed.
Print Assumptions C125_balance.

(** the pulled triangle of C118: load (3, 4) at the top, reactions at the two held corners *)
Definition react_of (file : text) : out (list Qc_arith) :=
  r ← bmsh_to_elas Qc_fmt file; d ← PropEnergy.disp_of file; l ← load_of file;
  match r with Ok a => K ← ea_calc_k a; Ret (map (reaction 6 (el K) (vel l) (flat_disp d)) (seq 0 6)) | Err _ => Panic end.
Example C125_example : exists (a : elas Qc_arith) disp,
  computed plain_hashes None a (map_to_list (ea_conc a)) (map_to_list (ea_line a)) disp /\
  react_of (pulled "2 3/4"%string) = Ret (map qc [-3; -7; 0; 3; 0; 0]%Z).
Proof.
  assert (Ed : exists d, PropEnergy.disp_of (pulled "2 3/4"%string) = Ret d).
  { assert (F : (d ← PropEnergy.disp_of (pulled "2 3/4"%string); Ret (length d)) = Ret 3) by vm_refl. apply bind_ret_inv in F as (d & -> & _). eauto. }
  destruct Ed as [d Ed].
  assert (F : reduced_of (pulled "2 3/4"%string) = Ret ((2, 2), [qcd 1 4; qc 0; qc 0; qcd 1 2])) by vm_refl.
  assert (L : load_of (pulled "2 3/4"%string) = Ret (map qc [0; 0; 0; 0; 3; 4]%Z)) by vm_refl.
  destruct (pulled_study _ _ _ F Ed L) as (a & _ & Hc & _). exists a, d. split; [exact Hc|]. vm_refl.
Qed.
