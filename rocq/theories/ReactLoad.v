(** Reactions and given forces. *)
From Verif Require Export ReactProofs LoadProofs.
From Verif Require Import Cli CliMesh.
Local Open Scope nat_scope.

Section react.
Context {A : arith} (OL : ord_laws A) (Trig : forall th : A, sadd (smul (scos th) (scos th)) (smul (ssin th) (ssin th)) = s1).
Lemma reaction_total (h : hashes A) name (a : elas A) oc ol disp : ssqrt s1 <> (s0 : A) -> ssqrt (sadd s1 s1) <> (s0 : A) ->
  computed h name a oc ol disp -> oc ≡ₚ map_to_list (ea_conc a) -> ol ≡ₚ map_to_list (ea_line a) ->
  proper a -> alone a -> (forall nm, is_Some (ea_line a !! nm) -> on_element a nm) ->
  exists K r, ea_calc_k a = Ret K /\ calc_load a oc ol = Ret r /\
    force_y (node_count a) (reaction (node_count a * 2) (el K) (vel r) (flat_disp disp)) =
      ssub s0 (sadd (ssum (map (fun nf => p_y nf.2) oc)) (ssum (map (fun ef => smul (p_y ef.2) (edge_length a ef.1)) ol))) /\
    (ea_cond a <> Axisymmetric ->
      force_x (node_count a) (reaction (node_count a * 2) (el K) (vel r) (flat_disp disp)) =
        ssub s0 (sadd (ssum (map (fun nf => p_x nf.2) oc)) (ssum (map (fun ef => smul (p_x ef.2) (edge_length a ef.1)) ol)))).
Proof.
  intros Q1 Q2 Hcomp Hc Hl Hp Hal Hon. destruct (reactions OL Trig h name a oc ol disp Hcomp) as (K & r & EK & Er & _ & Hy & Hx).
  destruct Hcomp as (_ & Hb & _). pose proof (ea_built_ok a Hb) as Hok. exists K, r. split; [exact EK|]. split; [exact Er|].
  destruct (total_load (ol_field A OL) (two_neq OL) Q1 Q2 a oc ol 1 Hok Hp Hal Hon Hc Hl ltac:(lia)) as (r' & Er' & Ty).
  assert (r' = r) as -> by congruence.
  destruct (total_load (ol_field A OL) (two_neq OL) Q1 Q2 a oc ol 0 Hok Hp Hal Hon Hc Hl ltac:(lia)) as (r' & Er'' & Tx).
  assert (r' = r) as -> by congruence. split.
  - rewrite Hy. f_equal. exact Ty.
  - intros Ha. destruct (Hx Ha) as [Hx1 _]. rewrite Hx1. f_equal.
    transitivity (bigsum (node_count a) (fun n => vel r (n * 2 + 0))); [|exact Tx].
    unfold force_x. apply bigsum_ext. intros n _. now rewrite Nat.add_0_r.
Qed.
End react.
