(** C32 - C36: the eigenvalue search. *)
From Coq Require Import Floats Reals Lra.
From Verif Require Import EigTop PropSparse InstR InstQc InstF64.

(** *** C32 — bookkeeping of the search.  [es] is arbitrary, so its counting function is.  Each pair
    comes from inverse iteration from the middle of its bracket against the last six pairs found. *)
Theorem C32_bookkeeping (A : arith) (OL : ord_laws A) (es : esys A) (rnd : list A) (fl fi fs n : nat) s' l :
  find_eigens fl fi fs n rnd (searcher_new es) = Ret (s', l) ->
  length l = n /\ n <= es_dofs es /\
  exists (ps : list (epair A)) (bs : list (A * A)), length bs = length ps /\ n <= length ps /\
    (forall i, i < n -> exists p q, ps !! i = Some p /\ ep_permute (es_perm es) p = Ret q /\ l !! i = Some q) /\
    (forall i b p, bs !! i = Some b -> ps !! i = Some p ->
       lts b.1 b.2 /\ eigenvalues_under es b.2 = Ret (S i) /\
       (exists c, eigenvalues_under es b.1 = Ret c /\ c <= i) /\
       inverse_iterate fi rnd (es_k es) (es_m es) (sdiv (sadd b.1 b.2) (sz 2)) (if i =? 0 then None else Some (drop (i - 6) (take i ps))) = Ret p) /\
    (forall i j b b', i < j -> bs !! i = Some b -> bs !! j = Some b' -> les b.2 b'.1) /\
    ((forall x y a b, les x y -> eigenvalues_under es x = Ret a -> eigenvalues_under es y = Ret b -> a <= b) ->
       forall i b, bs !! i = Some b -> eigenvalues_under es b.1 = Ret i).
Proof.
  intros E. destruct (find_eigens_spec OL es fi rnd fl fs n _ s' l (search_inv_new es fi rnd) E) as ((_ & bs & Ht & _) & Hn & Hl & Hp & Hq).
  split; [exact Hl|]. split; [exact Hn|]. exists (se_pairs s'), bs. split; [apply Ht|]. split; [exact Hp|]. split; [exact Hq|].
  split.
  { intros i b p Hb Hi. rewrite <- gso_slice_last by (apply lookup_lt_Some in Hi; lia). destruct Ht as (_ & _ & Ht). exact (Ht i b p Hb Hi). }
  split; [apply Ht|]. apply (trace_exact es fi rnd bs (se_pairs s') Ht).
Qed.
Print Assumptions C32_bookkeeping.
(** splitting a bracket at its middle: the halves share the middle, and share out the count *)
Theorem C32_split (A : arith) (lo up : A) (a b n : nat) (l u : erange A) : many_split lo up a b n = Ret (l, u) ->
  let mid := sdiv (sadd lo up) (sz 2) in
  a <= n <= b /\ range_desc l lo mid a n /\ range_desc u mid up n b /\
  range_count l = n - a /\ range_count u = b - n /\ range_count l + range_count u = b - a.
Proof.
  intros E. destruct (many_split_inv lo up a b n (l, u) E) as (H & H1 & H2 & H3 & H4). cbn [fst snd] in *.
  repeat (split; [assumption|]). lia.
Qed.
Print Assumptions C32_split.
Definition two_masses : list (asm F64_arith) := spring 0 1 (fl 1) ++ [AddK 0 0 (fl 1); AddM 0 0 (fl 1); AddM 1 1 (fl 1)].
(** eigenvalues (3 ± √5)/2 *)
Example C32_example : exists s es r l, assemble 2 two_masses = Ret s /\ eigen_new hash_id s = Ret es /\
  find_eigens 10 50 60 2 (map fl [0.5; 0.25]%float) (searcher_new es) = Ret (r, l) /\ length l = 2 /\
  map (fun p => sltb (fl 0.375) (ep_value p) && sltb (ep_value p) (fl 0.390625)) l = [true; false] /\
  map (fun p => sltb (fl 2.609375) (ep_value p) && sltb (ep_value p) (fl 2.625)) l = [false; true] /\
  many_split (fl 0) (fl 4) 0 2 1 = Ret (ROne (fl 0) (fl 2), ROne (fl 2) (fl 4)) /\
  many_split (fl 0) (fl 4) 3 7 5 = Ret (RMany (fl 0) (fl 2) 3 5, RMany (fl 2) (fl 4) 5 7).
Proof.
  vm_run (assemble 2 two_masses) s E. vm_run (eigen_new hash_id s) es Ees.
  vm_run (find_eigens 10 50 60 2 (map fl [0.5; 0.25]%float) (searcher_new es)) rl Er.
  exists s, es, rl.1, rl.2. split; [exact E|]. split; [exact Ees|]. split; [exact Er|]. clear Er. repeat split; vm_refl.
Qed.

(** *** C33 — counting by the signs of the pivots. *)
Theorem C33_inertia (A : arith) (OL : ord_laws A) (ho : hash_oracle A) (s : system A) (n : nat) :
  eigen_ready s n -> oracle_ok ho -> exists es, eigen_new ho s = Ret es /\
  forall v lam, gen_eigs n (k_at s) (m_at s) v lam -> forall mu, exists d, pivots_at es mu d /\ length d = n /\
    eigenvalues_under es mu = Ret (num_neg (DG d)) /\
    ((forall c, S c < n -> vel d c <> s0) -> num_neg (DG d) = count_below n lam mu).
Proof.
  intros Hr Ho. destruct (eigen_ready_es OL ho s n Hr Ho) as (es & E & W & Hok). exists es. split; [exact E|].
  intros v lam HG mu. destruct (pivots_exist OL es n _ _ mu Hok) as (d & Hp & Hl & Eu). exists d. split; [exact Hp|]. split; [exact Hl|].
  split; [exact Eu|]. intros Hnz.
  pose proof (eigenvalues_under_ret OL es n _ _ _ lam mu d Hok (gen_eigs_permute OL n _ _ _ v lam W HG) Hp Hnz) as E'. congruence.
Qed.
Print Assumptions C33_inertia.
(** three equal masses, each held by a spring and joined by springs: values 1, 4 and 4 *)
Example C33_example : exists s, assemble 3 (tri_ops R_arith) = Ret s /\ eigen_ready s 3 /\
  (forall r c, r < 3 -> c < 3 -> k_at s r c = k3 r c /\ m_at s r c = m3 r c) /\ gen_eigs 3 k3 m3 v3 lam3.
Proof. destruct tri_ready as (s & H1 & H2 & H3). exists s. auto using gen3. Qed.
(** 0 + 4 - 4: with a zero pivot the count is off.  K = [1 1; 1 1] has the values 0 and 2. *)
Example C33_zero_pivot : exists s es, assemble (A := F64_arith) 2 [AddK 0 0 (fl 1); AddK 0 1 (fl 1); AddK 1 0 (fl 1); AddK 1 1 (fl 1); AddM 0 0 (fl 1); AddM 1 1 (fl 1)] = Ret s /\
  eigen_new hash_id s = Ret es /\ eigenvalues_under es (fl 1) = Ret 0 /\ eigenvalues_under es (fl 0.5) = Ret 1 /\ eigenvalues_under es (fl 3) = Ret 2.
Proof.
  vm_run (assemble (A := F64_arith) 2 [AddK 0 0 (fl 1); AddK 0 1 (fl 1); AddK 1 0 (fl 1); AddK 1 1 (fl 1); AddM 0 0 (fl 1); AddM 1 1 (fl 1)]) s E.
  vm_run (eigen_new hash_id s) es Ees. exists s, es. split; [exact E|]. split; [exact Ees|]. repeat split; vm_refl.
Qed.

(** *** C34 — unit M-norm, and the value is the Rayleigh quotient, in the caller's numbering. *)
Theorem C34_normalised (ho : hash_oracle R_arith) (s : system R_arith) (n : nat) :
  eigen_ready s n -> posdef n (m_at s) -> oracle_ok ho -> exists es, eigen_new ho s = Ret es /\
  forall (fi : nat) (rnd : list R_arith) (mu : R_arith) (eigs : option (list (epair R_arith))) d,
    pivots_at es mu d -> (forall c, c < n -> vel d c <> s0) -> length rnd = n ->
    (forall e, e ∈ default [] eigs -> length (ep_vec e) = n) -> ~ in_span n (default [] eigs) (vel rnd) ->
    inverse_iterate fi rnd (es_k es) (es_m es) mu eigs = Fuel \/
    exists p q, inverse_iterate fi rnd (es_k es) (es_m es) mu eigs = Ret p /\ ep_permute (es_perm es) p = Ret q /\
      length (ep_vec q) = n /\
      bigsum n (fun i => vel (ep_vec q) i * mv n (m_at s) (vel (ep_vec q)) i)%A = (1%R : R_arith) /\
      ep_value q = bigsum n (fun i => vel (ep_vec q) i * mv n (k_at s) (vel (ep_vec q)) i)%A.
Proof.
  intros Hr HP Ho. destruct (eigen_ready_es R_ord_laws ho s n Hr Ho) as (es & E & W & Hok). exists es. split; [exact E|].
  intros fi rnd mu eigs d Hp Hnz Hl He Hsp.
  destruct (inverse_iterate_ret R_ord_laws R_sqrt_law es n _ _ mu fi rnd eigs d Hok (posdef_pf R_ord_laws n _ _ W HP) Hp Hnz Hl He Hsp)
    as [H|(p & Ep & Hlp & Hm & Hk)]; [now left|right].
  destruct (permute_slice_ret n (es_perm es) (ep_vec p) W Hlp) as (w & Ew & Hlw & Hw).
  exists p, (EPair (ep_value p) w). split; [exact Ep|]. split; [unfold ep_permute; now rewrite Ew|]. cbn [ep_vec ep_value].
  split; [exact Hlw|]. rewrite !(quad_permute R_ord_laws n (es_perm es) _ (ep_vec p) w W Hlp Hw). split; [exact Hm|exact Hk].
Qed.
Print Assumptions C34_normalised.
(** the short iteration that starts the search, and the Rayleigh quotient it is used with *)
Theorem C34_start (ho : hash_oracle R_arith) (s : system R_arith) (n : nat) :
  eigen_ready s n -> posdef n (m_at s) -> oracle_ok ho -> exists es, eigen_new ho s = Ret es /\
  ((forall l d, cholesky_envelope_no_root (es_k es) = Ret (l, d) -> forall c, c < n -> vel (dg_data d) c <> s0) ->
   forall times rnd, 0 < times -> length rnd = n -> (exists i, i < n /\ vel rnd i <> s0) ->
   exists x w, inverse_iterate_times rnd (es_k es) (es_m es) times = Ret x /\ length w = n /\
     (forall i, i < n -> w !! pf (es_perm es) i = x !! i) /\
     bigsum n (fun i => vel w i * mv n (m_at s) (vel w) i)%A = (1%R : R_arith) /\
     rayleigh_quotient x (es_kfull es) (es_m es) = Ret (bigsum n (fun i => vel w i * mv n (k_at s) (vel w) i)%A)).
Proof.
  intros Hr HP Ho. destruct (eigen_ready_es R_ord_laws ho s n Hr Ho) as (es & E & W & Hok). exists es. split; [exact E|].
  intros Hnz times rnd Ht Hl H0.
  destruct (inverse_iterate_times_ret R_ord_laws R_sqrt_law es n _ _ rnd times Hok (posdef_pf R_ord_laws n _ _ W HP) Ht Hnz Hl H0) as (x & Ex & Hlx & Hx).
  destruct (permute_slice_ret n (es_perm es) x W Hlx) as (w & Ew & Hlw & Hw). exists x, w. split; [exact Ex|]. split; [exact Hlw|]. split; [exact Hw|].
  rewrite !(quad_permute R_ord_laws n (es_perm es) _ x w W Hlx Hw). split; [exact Hx|].
  rewrite (rayleigh_ret R_ord_laws es n _ _ x Hok Hlx), Hx. f_equal. cbn. field.
Qed.
Print Assumptions C34_start.
(** the tri system meets the hypotheses, also at the shift 297/200 *)
Example C34_example : exists s es d, assemble 3 (tri_ops R_arith) = Ret s /\ eigen_ready s 3 /\ posdef 3 (m_at s) /\
  eigen_new hash_id s = Ret es /\ pivots_at es (297/200)%R d /\ (forall c, c < 3 -> vel d c <> (0%R : R_arith)) /\
  ~ in_span 3 [] (vel (A := R_arith) [1; 1; 1]%R).
Proof.
  destruct tri_ready as (s & H1 & H2 & H3). destruct (tri_es hash_id s hash_id_ok H2 H3) as (es & E & Hok).
  destruct (pivots_exist R_ord_laws es 3 k3 m3 (297/200)%R Hok) as (d & Hp & _).
  exists s, es, d. split; [exact H1|]. split; [exact H2|].
  split. { apply (posdef_ext 3 m3); [intros r c Hr Hc; now apply H3|exact posdef_m3]. }
  split; [exact E|]. split; [exact Hp|]. split; [now apply (pivots_mid es Hok)|].
  intros (w & Hw). specialize (Hw 0 ltac:(lia)). cbn in Hw. lra.
Qed.

(** *** C35 — Gram-Schmidt. *)
Theorem C35_gram_schmidt (A : arith) (FL : field_laws A) (m : bienv A) (eigs : list (epair A)) (x : list A) (n : nat) :
  be_built m -> (forall i, i < be_n m -> (bnd m i).2 <= be_n m) -> be_n m = n -> length x = n ->
  (forall e, e ∈ eigs -> length (ep_vec e) = n) ->
  exists x', gram_schmidt m eigs x = Ret x' /\ length x' = n /\
    (exists w : nat -> A, forall i, i < n -> vel x' i = ssub (vel x i) (bigsum (length eigs) (fun k => smul (w k) (ev eigs k i)))) /\
    (orthonormal n (el m) eigs -> forall k, k < length eigs -> bigsum n (fun i => smul (ev eigs k i) (mv n (el m) (vel x') i)) = s0).
Proof. intros Hb Hbn. apply (gram_schmidt_ret FL). now apply be_built_wf. Qed.
Print Assumptions C35_gram_schmidt.

(** removing (1,1)/2 from (3,1) with M = 2 I: (3,1) - 2 * (1,1) *)
Definition c35_m : out (bienv Qc_arith) := be_of_dict [((0, 0), qc 2); ((1, 1), qc 2)] [((0, 0), qc 2); ((1, 1), qc 2)]
  (Dict (2, 2) (list_to_map [((0, 0), qc 2); ((1, 1), qc 2)])).
Example C35_example : exists m, c35_m = Ret m /\ be_n m = 2 /\
  gram_schmidt m [EPair (qc 5) [qcd 1 2; qcd 1 2]] [qc 3; qc 1] = Ret [qc 1; qc (-1)].
Proof. vm_run c35_m m E. exists m. split; [exact E|]. split; vm_refl. Qed.

(** *** C36 — with a repeated frequency the search does not end, with distinct ones it does. *)
Theorem C36_termination_refuted : exists (ops : list (asm R_arith)) (s : system R_arith) (v : nat -> nat -> R_arith) (lam : nat -> R_arith),
  assemble 3 ops = Ret s /\ eigen_ready s 3 /\ posdef 3 (k_at s) /\ posdef 3 (m_at s) /\
  gen_eigs 3 (k_at s) (m_at s) v lam /\ lam 1 = lam 2 /\
  forall ho, oracle_ok ho -> exists es rnd, eigen_new ho s = Ret es /\
    forall fl fi fs, find_eigens fl fi fs 2 rnd (searcher_new es) = Fuel.
Proof.
  destruct tri_ready as (s & H1 & H2 & H3). exists (tri_ops R_arith), s, v3, lam3.
  split; [exact H1|]. split; [exact H2|].
  split. { apply (posdef_ext 3 k3); [intros r c Hr Hc; now apply H3|exact posdef_k3]. }
  split. { apply (posdef_ext 3 m3); [intros r c Hr Hc; now apply H3|exact posdef_m3]. }
  split. { apply (gen_eigs_ext 3 k3 m3); [intros r c Hr Hc; now apply H3..|exact gen3]. }
  split; [reflexivity|]. intros ho Ho. destruct (tri_forever ho s Ho H2 H3) as (es & E & Hf). exists es, [1%R; 1%R; 1%R]. auto.
Qed.
Print Assumptions C36_termination_refuted.
(** the same in double precision: from neighbouring floats the recursion reproduces its own argument *)
Theorem C36_f64_refuted : exists s es (lo up : F64_arith), assemble 3 (tri_ops F64_arith) = Ret s /\ eigen_new hash_id s = Ret es /\
  eigenvalues_under es lo = Ret 1 /\ eigenvalues_under es up = Ret 3 /\ sltb lo up = true /\
  forall fi depth rnd mus, process_eigenrange fi depth rnd (Searcher es [EPair (fl 1) (map fl [0.5; 0.5; 0.5]%float)] mus) (RMany lo up 1 3) = Fuel.
Proof.
  vm_run (assemble 3 (tri_ops F64_arith)) s E. vm_run (eigen_new hash_id s) es Ees.
  exists s, es, (fl 4), (fl 0x1.0000000000001p+2). split; [exact E|]. split; [exact Ees|].
  assert (H1 : eigenvalues_under es (mid_val (fl 4) (fl 0x1.0000000000001p+2)) = Ret 1) by vm_refl.
  assert (H2 : many_split (fl 4) (fl 0x1.0000000000001p+2) 1 3 1 = Ret (REmpty, RMany (fl 4) (fl 0x1.0000000000001p+2) 1 3)) by vm_refl.
  split; [vm_refl|]. split; [vm_refl|]. split; [vm_refl|]. intros fi depth rnd mus.
  induction depth as [|depth IH]; [reflexivity|]. cbn [process_eigenrange]. cbn [se_sys]. rewrite H1. cbn [mbind out_bind]. rewrite H2. cbn [mbind out_bind fst snd].
  assert (E0 : forall s, process_eigenrange fi depth rnd s (REmpty (A := F64_arith)) = Ret s) by (destruct depth; reflexivity).
  rewrite E0. exact IH.
Qed.
Print Assumptions C36_f64_refuted.
(** distinct values: below some depth the recursion has separated them, if the counts it is given are right *)
Theorem C36_distinct (es : esys R_arith) (n : nat) (lam : nat -> R_arith) (fi : nat) (rnd : list R_arith) (lo up : R_arith) :
  (forall i j, i < n -> j < n -> i <> j -> lam i <> lam j) -> (lo < up)%R ->
  (forall mu, probe lo up mu -> eigenvalues_under es mu = Ret (count_below n lam mu)) ->
  S (count_below n lam lo) < count_below n lam up ->
  exists depth0, forall depth s, depth0 <= depth -> se_sys s = es ->
    process_eigenrange fi depth rnd s (RMany lo up (count_below n lam lo) (count_below n lam up))
    = process_eigenrange fi depth0 rnd s (RMany lo up (count_below n lam lo) (count_below n lam up)).
Proof. exact (bracket_terminates es n lam fi rnd lo up). Qed.
Print Assumptions C36_distinct.
Example C36_example : exists s es, assemble 2 (pair_ops R_arith) = Ret s /\ eigen_new hash_id s = Ret es /\
  (forall mu, probe (A := R_arith) 0%R 7%R mu -> eigenvalues_under es mu = Ret (count_below 2 lam2 mu)) /\
  count_below (A := R_arith) 2 lam2 0%R = 0 /\ count_below (A := R_arith) 2 lam2 7%R = 2 /\ lam2 0 <> lam2 1.
Proof. destruct pair_example as (s & es & H1 & H2 & H3 & H4 & H5). exists s, es. repeat (split; [assumption|]). cbn. lra. Qed.
