(** C138: the mean stress of a body. *)
From Coq Require Import Ascii String Reals Lra Floats.
From Verif Require Import PropCli PropHeld PropEnergy PropFactor PropFrame PropVib PropTensor PropVirtual InstQc InstR InstFile StudyProofs CliProofs CliMesh CliStudy CliReal CliEx HeldProofs EnergyProofs.
From Verif Require Import Cli FrameProofs TensorProofs VirtualProofs BalanceProofs MeanProofs.
Local Close Scope R_scope.
Local Close Scope float_scope.
Local Close Scope string_scope.
Local Open Scope nat_scope.
Local Open Scope list_scope.

(** *** C138 — the stresses summed over the volume are the moments of the forces at the nodes,
    loads and reactions, about the coordinate axes *)
Theorem C138_mean (A : arith) (OL : ord_laws A) (Trig : forall th : A, sadd (smul (scos th) (scos th)) (smul (ssin th) (ssin th)) = s1)
  (h : hashes A) name (a : elas A) oc ol disp : computed h name a oc ol disp -> plane (ea_cond a) ->
  (forall e, e ∈ ea_elems a -> twice_area e <> s0) ->
  exists sg K r, ea_calc_k a = Ret K /\ calc_load a oc ol = Ret r /\
    (forall e, e ∈ ea_elems a -> e_stresses e (idx disp) = Ret (map (fun n => (n, as_stress (sg e))) (e_id_list e))) /\
    let f i := sadd (vel r i) (reaction (node_count a * 2) (el K) (vel r) (flat_disp disp) i) in
    over_body a (fun e => (sg e).1.1) = lever (ea_nodes a) p_x 0 f /\
    over_body a (fun e => (sg e).1.2) = lever (ea_nodes a) p_y 1 f /\
    over_body a (fun e => (sg e).2) = lever (ea_nodes a) p_y 0 f /\
    over_body a (fun e => (sg e).2) = lever (ea_nodes a) p_x 1 f.
Proof. exact (mean_stress OL Trig h name a oc ol disp). Qed.
Print Assumptions C138_mean.

(** the triangle of [C136_example], area 1/2, stresses (0, 8, 6): sums (0, 4, 3) *)
Definition mean_of (file : text) : out _ :=
  r ← bmsh_to_elas Qc_fmt file; d ← PropEnergy.disp_of file; l ← load_of file;
  match r with
  | Ok a => K ← ea_calc_k a;
      let f i := sadd (vel l i) (reaction 6 (el K) (vel l) (flat_disp d) i) in
      Ret (map f (seq 0 6), [lever (ea_nodes a) p_x 0 f; lever (ea_nodes a) p_y 1 f; lever (ea_nodes a) p_y 0 f; lever (ea_nodes a) p_x 1 f],
           map (fun s => over_body a (fun _ => s)) [qc 0; qc 8; qc 6])
  | Err _ => Panic
  end.
Lemma mean_lying : mean_of lying_1 = Ret (map qc [-3; -7; 0; 3; 3; 4]%Z, map qc [0; 4; 3; 3]%Z, map qc [0; 4; 3]%Z).
Proof. vm_refl. Qed.
Example C138_example : (exists a da e,
  computed plain_hashes None a (map_to_list (ea_conc a)) (map_to_list (ea_line a)) da /\ plane (ea_cond a) /\
  (forall e, e ∈ ea_elems a -> twice_area e <> s0) /\ ea_elems a = [e] /\
  e_stresses e (idx da) = Ret (map (fun n => (n, as_stress (qc 0, qc 8, qc 6))) [0; 1; 2])) /\
  mean_of lying_1 = Ret (map qc [-3; -7; 0; 3; 3; 4]%Z, map qc [0; 4; 3; 3]%Z, map qc [0; 4; 3]%Z).
Proof.
  split; [|exact mean_lying]. destruct C136_example as (a & da & e & H1 & H2 & H3 & _ & H4 & H5 & _). exists a, da, e.
  split; [exact H1|]. split; [exact H2|]. split; [exact H3|]. split; [exact H4|exact H5].
Qed.
