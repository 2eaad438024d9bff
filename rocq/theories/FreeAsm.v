(** Assembly when addition is only known to leave the contributions added to zero unchanged. *)
From Verif Require Export SolverProofs.

Section free.
Context {A : arith}.
Local Open Scope arith_scope.

Definition asm_val (o : asm A) : A := match o with AddK _ _ v | AddM _ _ v => v | AddR _ v => v end.

Lemma od_add_free n o r c (v : A) : s0 + v = v -> od_wf n o -> (r < n)%nat -> (c < n)%nat ->
  exists k, od_add n o (r, c) v = Ret k /\ dict_wf k /\ d_shape k = (n, n) /\
    forall r' c', el k r' c' = if (r' =? r) && (c' =? c) then od_at o r c + v else od_at o r' c'.
Proof.
  intros Hv W Hr Hc. destruct o as [k|]; cbn [od_add od_at].
  - destruct W as [W Hs].
    destruct (index_upd_ret _ _ d_laws k r c (fun x => x + v) W) as (k' & E & W' & Hs' & _ & He).
    { apply in_shape_true. cbn. rewrite Hs. cbn. lia. }
    exists k'. split; [exact E|]. split; [exact W'|]. split; [|exact He]. cbn in Hs'. congruence.
  - destruct (index_set_ret _ _ d_laws (d_zeros (A := A) (n, n)) r c v (d_zeros_wf _)) as (k' & E & W' & Hs' & _ & He).
    { apply in_shape_true. cbn. lia. }
    exists k'. split; [exact E|]. split; [exact W'|]. split; [exact Hs'|].
    intros r' c'. rewrite He. destruct ((r' =? r) && (c' =? c)); [now symmetry|apply d_zeros_el].
Qed.

Lemma ssum_last (l : list A) v : ssum (l ++ [v]) = ssum l + v.
Proof. unfold ssum. now rewrite fold_left_app. Qed.

Definition asm_free (n : nat) (pre : list (asm A)) s : Prop :=
  sys_wf s /\ sy_dofs s = n /\ sy_perm s = None /\
  (forall r c, k_at s r c = ssum (k_vals r c pre)) /\
  (forall r c, m_at s r c = ssum (m_vals r c pre)) /\
  (forall i, r_at s i = ssum (r_vals i pre)).

Lemma asm_step_free n pre (o : asm A) s : s0 + asm_val o = asm_val o -> asm_ok n o -> asm_free n pre s ->
  exists s', asm_step o s = Ret s' /\ asm_free n (pre ++ [o]) s'.
Proof.
  intros Hv Ho (W & Hn & Hp & Hk & Hm & Hr). destruct W as (Wk & Wm & Wr). rewrite Hn in *.
  unfold asm_free, k_vals, m_vals, r_vals in *.
  destruct o as [r c v|r c v|i v]; cbn [asm_step asm_ok asm_val] in *.
  - destruct Ho as [H1 H2]. destruct (od_add_free n (sy_k s) r c v Hv Wk H1 H2) as (k & E & W' & Hs & He).
    exists (Sys n (Some k) (sy_m s) (sy_rhs s) (sy_perm s)). split.
    { unfold add_k. rewrite Hn. destruct (sy_k s); cbn [od_add] in E; rewrite E; reflexivity. }
    split; [|split; [reflexivity|split; [exact Hp|split; [|split]]]].
    + unfold sys_wf; cbn. auto.
    + intros r' c'. rewrite flat_map_snoc. unfold k_at at 1; cbn [sy_k]. rewrite He.
      rewrite (Nat.eqb_sym r' r), (Nat.eqb_sym c' c).
      destruct (Nat.eqb_spec r r') as [->|]; cbn [andb]; [destruct (Nat.eqb_spec c c') as [->|]; cbn [andb]|].
      * rewrite ssum_last. f_equal. apply Hk.
      * rewrite app_nil_r. apply Hk.
      * rewrite app_nil_r. apply Hk.
    + intros r' c'. rewrite flat_map_snoc, app_nil_r. apply Hm.
    + intros i. rewrite flat_map_snoc, app_nil_r. apply Hr.
  - destruct Ho as [H1 H2]. destruct (od_add_free n (sy_m s) r c v Hv Wm H1 H2) as (k & E & W' & Hs & He).
    exists (Sys n (sy_k s) (Some k) (sy_rhs s) (sy_perm s)). split.
    { unfold add_m. rewrite Hn. destruct (sy_m s); cbn [od_add] in E; rewrite E; reflexivity. }
    split; [|split; [reflexivity|split; [exact Hp|split; [|split]]]].
    + unfold sys_wf; cbn. auto.
    + intros r' c'. rewrite flat_map_snoc, app_nil_r. apply Hk.
    + intros r' c'. rewrite flat_map_snoc. unfold m_at at 1; cbn [sy_m]. rewrite He.
      rewrite (Nat.eqb_sym r' r), (Nat.eqb_sym c' c).
      destruct (Nat.eqb_spec r r') as [->|]; cbn [andb]; [destruct (Nat.eqb_spec c c') as [->|]; cbn [andb]|].
      * rewrite ssum_last. f_equal. apply Hm.
      * rewrite app_nil_r. apply Hm.
      * rewrite app_nil_r. apply Hm.
    + intros i. rewrite flat_map_snoc, app_nil_r. apply Hr.
  - assert (G : exists rv, (match sy_rhs s with
        | Some rv => x ← idx rv i; set rv i (x + v) | None => set (replicate n s0) i v end = Ret rv) /\
        length rv = n /\ forall j, vel rv j = if j =? i then r_at s i + v else r_at s j).
    { unfold r_at. destruct (sy_rhs s) as [rv|].
      - rewrite idx_vel by (rewrite Wr; exact Ho). cbn [mbind out_bind].
        rewrite set_lookup by (rewrite Wr; exact Ho). eexists; split; [reflexivity|].
        split; [now rewrite insert_length|]. intros j. rewrite vel_insert by (rewrite Wr; exact Ho). reflexivity.
      - rewrite set_lookup by (rewrite replicate_length; exact Ho). eexists; split; [reflexivity|].
        split; [now rewrite insert_length, replicate_length|]. intros j.
        rewrite vel_insert by (rewrite replicate_length; exact Ho). destruct (j =? i); [now symmetry|].
        apply vel_replicate. }
    destruct G as (rv & E & Hl & He).
    exists (Sys n (sy_k s) (sy_m s) (Some rv) (sy_perm s)). split.
    { unfold add_rhs. rewrite Hn. destruct (sy_rhs s) as [r0|].
      - destruct (idx r0 i); cbn [mbind out_bind] in *; try discriminate. now rewrite E.
      - now rewrite E. }
    split; [|split; [reflexivity|split; [exact Hp|split; [|split]]]].
    + unfold sys_wf; cbn. auto.
    + intros r' c'. rewrite flat_map_snoc, app_nil_r. apply Hk.
    + intros r' c'. rewrite flat_map_snoc, app_nil_r. apply Hm.
    + intros j. rewrite flat_map_snoc. unfold r_at at 1; cbn [sy_rhs]. rewrite He.
      rewrite (Nat.eqb_sym j i). destruct (Nat.eqb_spec i j) as [->|].
      * rewrite ssum_last. f_equal. apply Hr.
      * rewrite app_nil_r. apply Hr.
Qed.

Lemma assemble_free n (ops : list (asm A)) : (forall o, o ∈ ops -> s0 + asm_val o = asm_val o) -> (forall o, o ∈ ops -> asm_ok n o) ->
  exists s, assemble n ops = Ret s /\ asm_free n ops s.
Proof.
  induction ops as [|o ops IH] using rev_ind; intros Hv H.
  - exists (sys_new n). split; [reflexivity|]. split; [apply sys_new_wf|]. repeat split.
  - destruct IH as (s & E & HI); [intros o' Ho'; apply Hv, elem_of_app; auto|intros o' Ho'; apply H, elem_of_app; auto|].
    unfold assemble in *. rewrite foldM_app, E. cbn [mbind out_bind].
    destruct (asm_step_free n ops o s) as (s' & E' & HI').
    + apply Hv, elem_of_app. right. now apply elem_of_list_singleton.
    + apply H, elem_of_app. right. now apply elem_of_list_singleton.
    + exact HI.
    + exists s'. cbn [foldM]. now rewrite E'.
Qed.

End free.
