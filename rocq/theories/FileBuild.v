(** The mesh format: reading what was written. *)
From Coq Require Import Ascii String.
From Verif Require Export FileRound.

Section build.
Context {A : arith} (nf : numfmt A) (fin : A -> Prop) (ok : numfmt_ok nf fin).
Definition ids_of (e : element A) : list nat := [(e_ids e).1.1; (e_ids e).1.2; (e_ids e).2].
Definition parsed_of (oc : list (nat * point A)) (ol : list (nat * nat * point A)) (a : elas A) : parsed :=
  Parsed (ea_mat a) (rd_cond nf (ea_cond a)) (map (rd_pt nf 6) (ea_nodes a)) (map ids_of (ea_elems a))
         (map (fun nc => (nc.1, rd_con nf nc.2)) (con_list (ea_cons a))) (map (fun kf => (kf.1, rd_pt nf 3 kf.2)) oc)
         (map (fun kf => (kf.1, rd_pt nf 3 kf.2)) ol).
Lemma con_list_len (cs : list (constr A)) : length (con_list cs) <= length cs.
Proof.
  assert (H : forall X (f : X -> bool) l, length (List.filter f l) <= length l).
  { intros X f l. induction l as [|x l IH]; cbn; [lia|]. destruct (f x); cbn; lia. }
  unfold con_list. etransitivity; [apply H|]. rewrite zip_with_length, seq_length. lia.
Qed.
Lemma el_ids (a : elas A) e : ea_ok a -> e ∈ ea_elems a ->
  (e_ids e).1.1 < length (ea_nodes a) /\ (e_ids e).1.2 < length (ea_nodes a) /\ (e_ids e).2 < length (ea_nodes a).
Proof.
  intros [_ H] He. destruct (H e He) as (_ & _ & _ & E1 & E2 & E3).
  apply lookup_lt_Some in E1, E2, E3. tauto.
Qed.
Lemma parse_written oc ol (a : elas A) : ea_ok a -> writable fin a ->
  oc ≡ₚ map_to_list (ea_conc a) -> ol ≡ₚ map_to_list (ea_line a) ->
  exists t, elas_to_bmsh nf oc ol a = Ret t /\ parse_bmsh nf t = Ret (Some (parsed_of oc ol a)).
Proof.
  intros Hok [Hm Hc Hn Hk Hf Hl (S1 & S2 & S3 & S4)] Poc Pol.
  assert (Loc : length oc = size (ea_conc a)) by (rewrite Poc; reflexivity).
  assert (Lol : length ol = size (ea_line a)) by (rewrite Pol; reflexivity).
  assert (Hoc : forall n q, (n, q) ∈ oc -> n < length (ea_nodes a) /\ fin_pt fin q).
  { intros n q H. rewrite Poc in H. apply elem_of_map_to_list in H. exact (Hf n q H). }
  assert (Hol : forall n m q, (n, m, q) ∈ ol -> n < length (ea_nodes a) /\ m < length (ea_nodes a) /\ fin_pt fin q).
  { intros n m q H. rewrite Pol in H. apply elem_of_map_to_list in H. exact (Hl (n, m) q H). }
  assert (Foc : Forall (fun nf : nat * point A => fin_pt fin nf.2) oc).
  { apply Forall_forall. intros [n q] H. apply (Hoc _ _ H). }
  assert (Fol : Forall (fun nf : nat * nat * point A => fin_pt fin nf.2) ol).
  { apply Forall_forall. intros [[n m] q] H. apply (Hol _ _ _ H). }
  eexists. split; [apply (write_ret nf fin); assumption|].
  unfold parse_bmsh. rewrite (clean_written nf fin ok) by assumption. unfold all_lines. rewrite !unl_app.
  rewrite (acc_header nf fin ok (ea_cond a) (ea_mat a) Hc Hm _ I). cbn [mbind out_bind fst snd].
  change (negb (1 =? 1)%N) with false. cbv iota.
  assert (E1 : accepts anyr (nodes_parser nf) (unl (sect (txt "Nodes") (node_lines nf a))) (map (rd_pt nf 6) (ea_nodes a))).
  { apply section_acc. apply (monotonic_list_acc (coords nf) (fix2 nf 6)); [|exact S1].
    intros z Hz. apply (acc_coords nf fin ok); [lia|]. rewrite Forall_forall in Hn. apply Hn, Hz. }
  rewrite (E1 _ I). cbn [mbind out_bind]. clear E1.
  assert (E1 : accepts anyr elements_parser (unl (sect (txt "Elements") (elem_lines a)))
                 (map (fun d : nat * nat * nat => [d.1.1; d.1.2; d.2]) (map e_ids (ea_elems a)))).
  { apply section_acc. apply (monotonic_list_acc _ id_text); [|rewrite map_length; exact S2].
    intros d Hd. apply elem_of_list_fmap in Hd as (e & -> & He). destruct (el_ids a e Hok He) as (H1 & H2 & H3).
    apply acc_ids; lia. }
  rewrite (E1 _ I). cbn [mbind out_bind]. clear E1. rewrite map_map.
  assert (E1 : accepts anyr (constraints_parser nf) (unl (sect (txt "Constraints") (con_lines nf a)))
                 (map (fun nc => (nc.1, rd_con nf nc.2)) (con_list (ea_cons a)))).
  { apply section_acc. pose proof (con_list_len (ea_cons a)). pose proof (proj1 Hok).
    apply (free_list_acc _ (con_text nf)); [|lia].
    intros [n c] Hz. apply con_list_in in Hz as [Hz Hfr]. apply (acc_con nf fin ok); [|rewrite Forall_forall in Hk|exact Hfr].
    - apply lookup_lt_Some in Hz. cbn [fst]. lia.
    - apply Hk. eapply elem_of_list_lookup_2, Hz. }
  rewrite (E1 _ I). cbn [mbind out_bind]. clear E1.
  assert (E1 : accepts anyr (forces_parser nf) (unl (sect (txt "Forces") (force_lines nf oc)))
                 (map (fun kf => (kf.1, rd_pt nf 3 kf.2)) oc)).
  { apply section_acc. apply (free_list_acc _ (force_text nf)); [|lia].
    intros [n q] Hz. destruct (Hoc _ _ Hz). apply (acc_force nf fin ok); [cbn [fst]; lia|assumption]. }
  rewrite (E1 _ I). cbn [mbind out_bind]. clear E1.
  assert (E1 : accepts anyr (dist_parser nf) (unl (sect (txt "DistForces") (dist_lines nf ol)))
                 (map (fun kf => (kf.1, rd_pt nf 3 kf.2)) ol)).
  { apply section_acc. apply (free_list_acc _ (dist_text nf)); [|lia].
    intros [[n m] q] Hz. destruct (Hol _ _ _ Hz) as (? & ? & ?). apply (acc_dist nf fin ok); [cbn [fst]; lia|cbn [fst snd]; lia|assumption]. }
  pose proof (E1 [] I) as E2. rewrite app_nil_r in E2. rewrite E2. reflexivity.
Qed.

(** *** the assembly *)
Lemma fold_insert {K V W : Type} `{Countable K} (f : V -> W) (l : list (K * V)) (m : gmap K W) :
  NoDup l.*1 -> fold_left (fun m kv => <[kv.1 := f kv.2]> m) l m = (f <$> (list_to_map l : gmap K V)) ∪ m.
Proof.
  revert m. induction l as [|[k v] l IH]; intros m; cbn [fold_left fmap list_fmap].
  - intros _. cbn. rewrite fmap_empty, map_empty_union. reflexivity.
  - intros N. apply NoDup_cons in N as [Nk N]. cbn [fst snd]. rewrite (IH _ N).
    rewrite list_to_map_cons, fmap_insert, <- insert_union_l, insert_union_r; [reflexivity|].
    rewrite lookup_fmap, (not_elem_of_list_to_map_1 l k Nk). reflexivity.
Qed.
Lemma fold_forces (l : list (nat * point A)) n (a : elas A) :
  (forall k q, (k, q) ∈ l -> k < n) ->
  foldM (fun (kf : nat * point A) a => k ← idx (seq 0 n) kf.1; Ret (add_conc_force a k kf.2))
        (map (fun kf => (kf.1, rd_pt nf 3 kf.2)) l) a
  = Ret (Elas (ea_nodes a) (ea_cond a) (ea_mat a) (ea_elems a) (ea_cons a)
              (fold_left (fun m kv => <[kv.1 := rd_pt nf 3 kv.2]> m) l (ea_conc a)) (ea_line a)).
Proof.
  revert a. induction l as [|[k q] l IH]; intros a H; cbn [map foldM fold_left fst snd].
  - destruct a. reflexivity.
  - rewrite (idx_lookup _ _ k) by (apply lookup_seq; split; [reflexivity|apply (H k q), elem_of_list_here]).
    cbn [mbind out_bind]. rewrite IH by (intros k' q' Hk; apply (H k' q'), elem_of_list_further, Hk). reflexivity.
Qed.
Lemma fold_dists (l : list (nat * nat * point A)) n (a : elas A) :
  (forall k k' q, (k, k', q) ∈ l -> k < n /\ k' < n) ->
  foldM (fun (kf : nat * nat * point A) a => k ← idx (seq 0 n) kf.1.1; k' ← idx (seq 0 n) kf.1.2; Ret (add_dist_line_force a k k' kf.2))
        (map (fun kf => (kf.1, rd_pt nf 3 kf.2)) l) a
  = Ret (Elas (ea_nodes a) (ea_cond a) (ea_mat a) (ea_elems a) (ea_cons a) (ea_conc a)
              (fold_left (fun m kv => <[kv.1 := rd_pt nf 3 kv.2]> m) l (ea_line a))).
Proof.
  revert a. induction l as [|[[k k'] q] l IH]; intros a H; cbn [map foldM fold_left fst snd].
  - destruct a. reflexivity.
  - destruct (H k k' q (elem_of_list_here _ _)) as [H1 H2].
    rewrite (idx_lookup _ k k) by (apply lookup_seq; split; [reflexivity|assumption]). cbn [mbind out_bind].
    rewrite (idx_lookup _ k' k') by (apply lookup_seq; split; [reflexivity|assumption]). cbn [mbind out_bind].
    rewrite IH by (intros j j' q' Hk; apply (H j j' q'), elem_of_list_further, Hk). reflexivity.
Qed.
(** the supports: those that are not free come back in their places *)
Lemma fold_cons (cs : list (constr A)) : forall pre n (a : elas A),
  ea_cons a = map (rd_con nf) pre ++ replicate (length cs) Free -> n = length pre + length cs ->
  foldM (fun (nc : nat * constr A) a => k ← idx (seq 0 n) nc.1; add_constraint a k nc.2)
        (map (fun nc => (nc.1, rd_con nf nc.2)) (List.filter not_free (zip (seq (length pre) (length cs)) cs))) a
  = Ret (Elas (ea_nodes a) (ea_cond a) (ea_mat a) (ea_elems a) (map (rd_con nf) (pre ++ cs)) (ea_conc a) (ea_line a)).
Proof.
  induction cs as [|c cs IH]; intros pre n a Ha Hn.
  - cbn [length seq zip zip_with List.filter map foldM replicate] in *. rewrite app_nil_r in *. rewrite <- Ha. destruct a. reflexivity.
  - cbn [length seq zip zip_with List.filter replicate] in *.
    assert (Hlen : length (pre ++ [c]) = S (length pre)) by (rewrite app_length; cbn; lia).
    destruct (not_free (length pre, c)) eqn:Ef.
    + cbn [map foldM fst snd]. rewrite (idx_lookup _ _ (length pre)) by (apply lookup_seq; split; [reflexivity|lia]).
      cbn [mbind out_bind].
      assert (Ec : add_constraint a (length pre) (rd_con nf c)
        = Ret (Elas (ea_nodes a) (ea_cond a) (ea_mat a) (ea_elems a) (map (rd_con nf) pre ++ rd_con nf c :: replicate (length cs) Free)
                    (ea_conc a) (ea_line a))).
      { unfold add_constraint. rewrite Ha.
        rewrite (idx_lookup _ _ Free) by (rewrite lookup_app_r, map_length, Nat.sub_diag by (rewrite map_length; lia); reflexivity).
        cbn [mbind out_bind]. rewrite set_lookup by (rewrite app_length, map_length; cbn [length]; lia).
        rewrite insert_app_r_alt, map_length, Nat.sub_diag by (rewrite map_length; lia). reflexivity. }
      rewrite Ec. cbn [mbind out_bind].
      specialize (IH (pre ++ [c]) n). rewrite Hlen in IH. rewrite IH.
      * cbn [ea_nodes ea_cond ea_mat ea_elems ea_conc ea_line]. rewrite <- app_assoc. reflexivity.
      * cbn [ea_cons]. rewrite map_app, <- app_assoc. reflexivity.
      * lia.
    + assert (c = Free) as -> by (destruct c; [reflexivity|discriminate..]).
      specialize (IH (pre ++ [Free]) n a). rewrite Hlen in IH. rewrite IH.
      * rewrite <- app_assoc. reflexivity.
      * rewrite Ha, map_app, <- app_assoc. reflexivity.
      * lia.
Qed.
Lemma fold_elems (ns : list (point A)) cond mat n (es : list (element A)) : forall (a : elas A),
  ea_nodes a = map (rd_pt nf 6) ns -> ea_mat a = mat -> ea_cond a = rd_cond nf cond -> n = length ns ->
  (forall e, e ∈ es -> sound (rd_elem nf e) /\ e_mat e = mat /\ e_cond e = cond /\
     ns !! (e_ids e).1.1 = Some (e_pts e).1.1 /\ ns !! (e_ids e).1.2 = Some (e_pts e).1.2 /\ ns !! (e_ids e).2 = Some (e_pts e).2) ->
  foldM (fun ids a => nids ← mapM_out (idx (seq 0 n)) ids; d ← code_to_desc nids; add_element a d) (map ids_of es) a
  = Ret (Elas (ea_nodes a) (ea_cond a) (ea_mat a) (ea_elems a ++ map (rd_elem nf) es) (ea_cons a) (ea_conc a) (ea_line a)).
Proof.
  induction es as [|e es IH]; intros a Hn Hm Hc Hl H.
  - cbn. rewrite app_nil_r. destruct a. reflexivity.
  - cbn [map foldM]. destruct (H e (elem_of_list_here _ _)) as ((j & Ej & Hj) & E1 & E2 & E3 & E4 & E5).
    destruct e as [[[i1 i2] i3] [[q1 q2] q3] em ec]. cbn [ids_of e_ids e_pts e_mat e_cond fst snd] in *.
    rewrite (mapM_out_Ret _ (fun i => i)).
    2:{ apply lookup_lt_Some in E3, E4, E5. intros i Hi. unfold ids_of in Hi. cbn [e_ids fst snd] in Hi. rewrite !elem_of_cons, elem_of_nil in Hi.
        apply idx_lookup, lookup_seq. destruct Hi as [->|[->|[->|[]]]]; split; lia. }
    cbn [mbind out_bind map code_to_desc].
    assert (Ea : add_element a (i1, i2, i3) = Ret (Elas (ea_nodes a) (ea_cond a) (ea_mat a)
       (ea_elems a ++ [rd_elem nf (El (i1, i2, i3) (q1, q2, q3) em ec)]) (ea_cons a) (ea_conc a) (ea_line a))).
    { unfold add_element, build_element, ea_node. rewrite Hn. cbn [fst snd].
      assert (L : forall i (q : point A), ns !! i = Some q -> idx (map (rd_pt nf 6) ns) i = Ret (rd_pt nf 6 q)) by (intros i q E; apply idx_lookup; change (map (rd_pt nf 6) ns) with (rd_pt nf 6 <$> ns); rewrite list_lookup_fmap, E; reflexivity).
      rewrite (L _ _ E3). cbn [mbind out_bind]. rewrite (L _ _ E4). cbn [mbind out_bind]. rewrite (L _ _ E5). cbn [mbind out_bind].
      rewrite Hm, Hc, <- E1, <- E2.
      change (El (i1, i2, i3) (rd_pt nf 6 q1, rd_pt nf 6 q2, rd_pt nf 6 q3) em (rd_cond nf ec))
        with (rd_elem nf (El (i1, i2, i3) (q1, q2, q3) em ec)).
      rewrite Ej. cbn [mbind out_bind]. rewrite Hj. reflexivity. }
    change (ids_of (El (i1, i2, i3) (q1, q2, q3) em ec)) with [i1; i2; i3]. cbn [map code_to_desc mbind out_bind].
    rewrite Ea. cbn [mbind out_bind]. rewrite IH; [|exact Hn|exact Hm|exact Hc|exact Hl|].
    + cbn [ea_nodes ea_cond ea_mat ea_elems ea_cons ea_conc ea_line]. rewrite <- app_assoc. reflexivity.
    + intros e' He'. apply H, elem_of_list_further, He'.
Qed.
End build.
