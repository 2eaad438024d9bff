(** C44, continued: what the load vector is, and C125 with it. *)
From Coq Require Import Ascii String Reals.
From Verif Require Import PropElem PropEnergy PropReact ReactLoad InstQc InstR InstFile Cli CliEx CliMesh.
Local Close Scope R_scope.
Local Close Scope string_scope.
Local Open Scope nat_scope.
Local Open Scope list_scope.

(** *** C44 — a node gets the concentrated force on it unless it belongs to an element with a
    loaded edge; then it gets half of the force on that edge if it is one of its ends, and
    nothing otherwise.  Of several such edges the last in the order of the hash map counts. *)
Theorem C44_exactly_partial (A : arith) (FL : field_laws A) (a : elas A) oc ol : sadd s1 s1 <> (s0 : A) -> ssqrt s1 <> (s0 : A) -> ssqrt (sadd s1 s1) <> (s0 : A) ->
  ea_built a -> proper a -> oc ≡ₚ map_to_list (ea_conc a) -> ol ≡ₚ map_to_list (ea_line a) ->
  exists r, calc_load a oc ol = Ret r /\ length r = node_count a * 2 /\
    forall n d, n < node_count a -> d < 2 ->
      ((forall nm, is_Some (ea_line a !! nm) -> ~ touches a nm n) -> vel r (n * 2 + d) = conc_at a n d) /\
      (forall l1 nm f l2, ol = l1 ++ (nm, f) :: l2 -> touches a nm n -> (forall nm' f', (nm', f') ∈ l2 -> ~ touches a nm' n) ->
         vel r (n * 2 + d) = share a (nm, f) n d).
Proof. intros H2 Q1 Q2 Hb. exact (load_exactly FL H2 Q1 Q2 a oc ol (ea_built_ok a Hb)). Qed.
Print Assumptions C44_exactly_partial.
(** so loads add up as long as no node gets two *)
Theorem C44_sum_partial (A : arith) (FL : field_laws A) (a : elas A) oc ol : sadd s1 s1 <> (s0 : A) -> ssqrt s1 <> (s0 : A) -> ssqrt (sadd s1 s1) <> (s0 : A) ->
  ea_built a -> proper a -> alone a -> (forall nm, is_Some (ea_line a !! nm) -> on_element a nm) ->
  oc ≡ₚ map_to_list (ea_conc a) -> ol ≡ₚ map_to_list (ea_line a) ->
  exists r, calc_load a oc ol = Ret r /\ length r = node_count a * 2 /\
    forall n d, n < node_count a -> d < 2 -> vel r (n * 2 + d) = sadd (conc_at a n d) (ssum (map (fun ef => share a ef n d) ol)).
Proof. intros H2 Q1 Q2 Hb. exact (alone_sum FL H2 Q1 Q2 a oc ol (ea_built_ok a Hb)). Qed.
Print Assumptions C44_sum_partial.
Theorem C44_total_partial (A : arith) (FL : field_laws A) (a : elas A) oc ol d : sadd s1 s1 <> (s0 : A) -> ssqrt s1 <> (s0 : A) -> ssqrt (sadd s1 s1) <> (s0 : A) ->
  ea_built a -> proper a -> alone a -> (forall nm, is_Some (ea_line a !! nm) -> on_element a nm) ->
  oc ≡ₚ map_to_list (ea_conc a) -> ol ≡ₚ map_to_list (ea_line a) -> d < 2 ->
  exists r, calc_load a oc ol = Ret r /\ bigsum (node_count a) (fun n => vel r (n * 2 + d)) =
    sadd (ssum (map (fun nf => comp nf.2 d) oc)) (ssum (map (fun ef => smul (comp ef.2 d) (edge_length a ef.1)) ol)).
Proof. intros H2 Q1 Q2 Hb. exact (total_load FL H2 Q1 Q2 a oc ol d (ea_built_ok a Hb)). Qed.
Print Assumptions C44_total_partial.
(** two triangles, a force on the edge of one and another at the far corner of the other *)
Definition carrying : out (elas Qc_arith) :=
  foldM ea_step [ANodes [pt2 (qc 0) (qc 0); pt2 (qc 2) (qc 0); pt2 (qc 0) (qc 2); pt2 (qc 2) (qc 2)]; AElement (0, 1, 2); AElement (1, 3, 2);
                 AConc 3 (pt2 (qc 7) (qc 0)); ALine 0 1 (pt2 (qc 3) (qc 1))] (ea_new soft (PlaneStress (qc 1))).
Example C44_carrying : ssqrt (s1 : Qc_arith) <> s0 /\ ssqrt (sadd s1 s1 : Qc_arith) <> s0 /\
  exists a oc ol r, carrying = Ret a /\ ea_built a /\ proper a /\ alone a /\ (forall nm, is_Some (ea_line a !! nm) -> on_element a nm) /\
    oc ≡ₚ map_to_list (ea_conc a) /\ ol ≡ₚ map_to_list (ea_line a) /\
    calc_load a oc ol = Ret r /\ r = map qc [3; 1; 3; 1; 0; 0; 7; 0]%Z.
Proof.
  split; [apply qc_neq; vm_refl|]. split; [apply qc_neq; vm_refl|].
  set (oc := [(3, pt2 (qc 7) (qc 0))]). set (ol := [((0, 1), pt2 (qc 3) (qc 1))]).
  assert (F : (a ← carrying; r ← calc_load a oc ol; Ret (map_to_list (ea_conc a), map_to_list (ea_line a), (length (ea_nodes a), map e_ids (ea_elems a)), r)) =
    Ret (oc, ol, (4, [(0, 1, 2); (1, 3, 2)]), map qc [3; 1; 3; 1; 0; 0; 7; 0]%Z)) by vm_refl.
  apply bind_ret_inv in F as (a & E & F). apply bind_ret_inv in F as (r & Er & F). injection F as Fc Fl Fn Fe Fr.
  assert (Hc : forall n f, ea_conc a !! n = Some f -> n = 3 /\ f = pt2 (qc 7) (qc 0)).
  { intros n f H. apply elem_of_map_to_list in H. rewrite Fc in H. apply elem_of_list_singleton in H. injection H as -> ->. auto. }
  assert (Hl : forall nm f, ea_line a !! nm = Some f -> nm = (0, 1) /\ f = pt2 (qc 3) (qc 1)).
  { intros n f H. apply elem_of_map_to_list in H. rewrite Fl in H. apply elem_of_list_singleton in H. injection H as -> ->. auto. }
  assert (He : forall e, e ∈ ea_elems a -> e_ids e = (0, 1, 2) \/ e_ids e = (1, 3, 2)).
  { intros e He. assert (H : e_ids e ∈ map e_ids (ea_elems a)) by (apply elem_of_list_fmap; eauto). rewrite Fe in H.
    apply elem_of_cons in H as [H|H]; [auto|]. apply elem_of_list_singleton in H. auto. }
  assert (He0 : exists e, e ∈ ea_elems a /\ e_ids e = (0, 1, 2)).
  { assert (H : (0, 1, 2) ∈ map e_ids (ea_elems a)) by (rewrite Fe; left). apply elem_of_list_fmap in H as (e & H1 & H2). eauto. }
  assert (Ht : forall n, touches a (0, 1) n -> n < 3).
  { intros n (e & H & H0 & H1 & _ & Hn). unfold e_id_list in *. destruct (He e H) as [Hi|Hi]; rewrite Hi in *; cbn [fst snd] in *;
      rewrite !elem_of_cons, elem_of_nil in *; lia. }
  exists a, oc, ol, r. split; [exact E|]. split; [eexists _, _, _; exact E|]. split; [split; [|split]|split; [|split]].
  - intros n f H. apply Hc in H as [-> ->]. unfold node_count. rewrite Fn. split; [lia|reflexivity].
  - intros nm f H. now apply Hl in H as [_ ->].
  - intros e H. unfold e_id_list. destruct (He e H) as [-> | ->]; cbn [fst snd]; repeat constructor; rewrite ?elem_of_cons, ?elem_of_nil; lia.
  - intros n. split.
    + intros [f Hf] nm [f' Hf'] Hto. apply Hc in Hf as [-> _]. apply Hl in Hf' as [-> _]. apply Ht in Hto. lia.
    + intros nm nm' [f Hf] [f' Hf'] _ _. apply Hl in Hf as [-> _]. now apply Hl in Hf' as [-> _].
  - intros nm [f Hf]. apply Hl in Hf as [-> _]. destruct He0 as (e & H & Hi). exists e. split; [exact H|]. unfold e_id_list. rewrite Hi. cbn [fst snd].
    rewrite !elem_of_cons. intuition lia.
  - rewrite Fc, Fl. split; [reflexivity|]. split; [reflexivity|]. split; [exact Er|exact Fr].
Qed.

(** *** C125 — the supports answer to the given forces as a whole *)
Theorem C125_total (A : arith) (OL : ord_laws A) (Trig : forall th : A, sadd (smul (scos th) (scos th)) (smul (ssin th) (ssin th)) = s1)
  (h : hashes A) name (a : elas A) oc ol disp : ssqrt s1 <> (s0 : A) -> ssqrt (sadd s1 s1) <> (s0 : A) ->
  computed h name a oc ol disp -> oc ≡ₚ map_to_list (ea_conc a) -> ol ≡ₚ map_to_list (ea_line a) ->
  proper a -> alone a -> (forall nm, is_Some (ea_line a !! nm) -> on_element a nm) ->
  exists K r, ea_calc_k a = Ret K /\ calc_load a oc ol = Ret r /\
    force_y (node_count a) (reaction (node_count a * 2) (el K) (vel r) (flat_disp disp)) =
      ssub s0 (sadd (ssum (map (fun nf => p_y nf.2) oc)) (ssum (map (fun ef => smul (p_y ef.2) (edge_length a ef.1)) ol))) /\
    (ea_cond a <> Axisymmetric ->
      force_x (node_count a) (reaction (node_count a * 2) (el K) (vel r) (flat_disp disp)) =
        ssub s0 (sadd (ssum (map (fun nf => p_x nf.2) oc)) (ssum (map (fun ef => smul (p_x ef.2) (edge_length a ef.1)) ol)))).
Proof. exact (reaction_total OL Trig h name a oc ol disp). Qed.
Print Assumptions C125_total.
(** the pulled triangle: the force (3, 4) is answered by (-3, -4) *)
Example C125_pulled : exists (a : elas Qc_arith) disp,
  computed plain_hashes None a (map_to_list (ea_conc a)) (map_to_list (ea_line a)) disp /\ proper a /\ alone a /\
  (forall nm, is_Some (ea_line a !! nm) -> on_element a nm) /\ ea_cond a <> Axisymmetric /\
  (x ← react_of (pulled "2 3/4"%string); Ret (force_x 3 (vel x), force_y 3 (vel x))) = Ret (qc (-3), qc (-4)).
Proof.
  assert (Ed : exists d, PropEnergy.disp_of (pulled "2 3/4"%string) = Ret d).
  { assert (F : (d ← PropEnergy.disp_of (pulled "2 3/4"%string); Ret (length d)) = Ret 3) by vm_refl. apply bind_ret_inv in F as (d & -> & _). eauto. }
  destruct Ed as [d Ed].
  assert (F : reduced_of (pulled "2 3/4"%string) = Ret ((2, 2), [qcd 1 4; qc 0; qc 0; qcd 1 2])) by vm_refl.
  assert (L : load_of (pulled "2 3/4"%string) = Ret (map qc [0; 0; 0; 0; 3; 4]%Z)) by vm_refl.
  destruct (pulled_study _ _ _ F Ed L) as (a & Ea & Hc & _). exists a, d. split; [exact Hc|].
  assert (G : (r ← bmsh_to_elas Qc_fmt (pulled "2 3/4"%string);
     match r with Ok a => Ret (map (fun nf => (nf.1, p_n nf.2)) (map_to_list (ea_conc a)), length (map_to_list (ea_line a)), length (ea_nodes a), map e_ids (ea_elems a),
                               match ea_cond a with Axisymmetric => true | _ => false end) | Err _ => Panic end) =
     Ret ([(2, 2)], 0, 3, [(0, 1, 2)], false)) by vm_refl.
  rewrite Ea in G. cbn [mbind out_bind] in G. injection G as Gc Gl Gn Ge Gx.
  assert (Hl : forall nm, ~ is_Some (ea_line a !! nm)).
  { intros nm [f Hf]. apply elem_of_map_to_list in Hf. destruct (map_to_list (ea_line a)); [now apply elem_of_nil in Hf|discriminate]. }
  split; [split; [|split]|]; [..|split; [|split; [|split]]].
  - intros n f Hf. apply elem_of_map_to_list in Hf.
    assert (H : (n, p_n f) ∈ map (fun nf => (nf.1, p_n nf.2)) (map_to_list (ea_conc a))) by (apply elem_of_list_fmap; exists (n, f); auto).
    rewrite Gc in H. apply elem_of_list_singleton in H. injection H as -> ->. unfold node_count. rewrite Gn. lia.
  - intros nm f Hf. exfalso. apply (Hl nm). eauto.
  - intros e He. assert (H : e_ids e ∈ map e_ids (ea_elems a)) by (apply elem_of_list_fmap; eauto). rewrite Ge in H.
    apply elem_of_list_singleton in H. unfold e_id_list. rewrite H. cbn [fst snd]. repeat constructor; rewrite ?elem_of_cons, ?elem_of_nil; lia.
  - intros n. split; intros; exfalso; eapply Hl; eassumption.
  - intros nm H. exfalso. exact (Hl nm H).
  - intros H. rewrite H in Gx. discriminate.
  - vm_refl.
Qed.
