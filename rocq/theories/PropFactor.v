(** Properties of the envelope factorisations: C20, C21. *)
From Coq Require Import Reals Lra.
From Verif Require Import CholProofs Safety InstQc InstR.

(** *** C20 — the Cholesky factor has the same envelope, a positive diagonal and reproduces
    the matrix; substituting with it solves the system. *)
Lemma R_sqrt_law : sqrt_law R_arith.
Proof.
  intros x Hx. apply R_ltb_iff in Hx. cbn in *. split.
  - apply R_ltb_iff. now apply sqrt_lt_R0.
  - apply sqrt_sqrt. lra.
Qed.
Theorem C20_cholesky (a : lenv R_arith) (n : nat) :
  le_built a -> mshape a = (n, n) -> 0 < n -> posdef n (sym_el a) ->
  exists l, cholesky_envelope a = Ret l /\ mshape l = (n, n) /\ le_envelope l = le_envelope a /\
    (forall r c, r < c \/ c < lsc a r -> el l r c = s0) /\
    (forall r, r < n -> (0 < el l r r)%R) /\
    (forall r c, r < n -> c < n -> mm n (el l) (fun t c => el l c t) r c = sym_el a r c) /\
    (forall b x0, length b = n -> length x0 = n -> exists x, solve_ll l b x0 = Ret x /\ length x = n /\
       forall i, i < n -> mv n (sym_el a) (vel x) i = vel b i).
Proof.
  intros Hb Hs Hn HP. apply le_built_wf in Hb. injection Hs as <-.
  destruct (chol_spec R_ord_laws R_sqrt_law a Hb Hn HP) as (l & E & HI).
  pose proof HI as (W & Hnn & Hl & Hpos & _). exists l. split; [exact E|]. split; [cbn; congruence|].
  split; [exact Hnn|]. split; [|split; [|split]].
  - intros r c [Hlt|Hlt]; [now apply el_right|]. apply el_left; [exact W|]. unfold lsc in *. now rewrite Hnn.
  - intros r Hr. apply R_ltb_iff. now apply Hpos.
  - now apply (chol_table R_ord_laws).
  - intros b x0 Hlb Hlx.
    destruct (solve_ll_ret R_ord_laws l b x0 W) as (x & Ex & Hx & Hxe); [congruence..| |].
    + intros i Hi. apply not_eq_sym, (lts_neq R_ord_laws), Hpos. congruence.
    + exists x. split; [exact Ex|]. split; [congruence|]. intros i Hi. rewrite <- (Hxe i) by congruence.
      unfold mv. rewrite Hl. apply bigsum_ext. intros k Hk. f_equal. symmetry.
      now apply (chol_table R_ord_laws a l HI).
Qed.
Print Assumptions C20_cholesky.

(** [[4,2],[2,5]] in envelope storage is positive definite over the reals *)
Definition c20_a (A : arith) : lenv A := LE 2 [sz 4; sz 2; sz 5] [1; 2] [0; 1].
Example C20_example : le_built (c20_a R_arith) /\ mshape (c20_a R_arith) = (2, 2) /\
  posdef 2 (sym_el (c20_a R_arith)) /\
  cholesky_envelope (c20_a Qc_arith) = Ret (LE 2 [qc 2; qc 1; qc 2] [1; 2] [0; 1]).
Proof.
  split; [|split; [reflexivity|split; [|vm_refl]]].
  - apply (reach_other _ _ (LE 2 [sz 4; sz 0; sz 0] [1; 2] [0; 1])).
    + apply (reach_other _ _ (LE 2 [sz 0; sz 0; sz 0] [1; 2] [0; 1])).
      * apply reach_init. left. exists [1; 2]. reflexivity.
      * left. exists 0, [sz 4]. reflexivity.
    + left. exists 1, [sz 2; sz 5]. reflexivity.
  - intros x (i & Hi & Hx). apply R_ltb_iff.
    assert (Hq : forall u v : R, (u <> 0 \/ v <> 0 -> 0 < (2 * u + v) * (2 * u + v) + 4 * (v * v))%R).
    { intros u v Huv. pose proof (Rle_0_sqr (2 * u + v)) as H1. unfold Rsqr in H1.
      destruct (Req_dec v 0) as [->|Hv].
      - assert (Hu : (u <> 0)%R) by tauto. pose proof (Rsqr_pos_lt u Hu) as Hp. unfold Rsqr in Hp. lra.
      - pose proof (Rsqr_pos_lt v Hv) as Hp. unfold Rsqr in Hp. lra. }
    replace (bigsum 2 _) with (((2 * x 0%nat + x 1%nat) * (2 * x 0%nat + x 1%nat) + 4 * (x 1%nat * x 1%nat))%R : R_arith).
    + apply Hq. destruct i as [|[|i]]; [left; exact Hx|right; exact Hx|lia].
    + cbn [bigsum mv].
      change (sym_el (c20_a R_arith) 0 0) with (sz 4 : R_arith). change (sym_el (c20_a R_arith) 0 1) with (sz 2 : R_arith).
      change (sym_el (c20_a R_arith) 1 0) with (sz 2 : R_arith). change (sym_el (c20_a R_arith) 1 1) with (sz 5 : R_arith).
      unfold sz. cbn. ring.
Qed.

(** *** C21 — the root-free factorisation never fails; with non-singular leading blocks
    (equivalently, non-zero pivots) it reproduces the matrix and solves systems. *)
Theorem C21_ldl (A : arith) (FL : field_laws A) (a : lenv A) (n : nat) :
  le_built a -> mshape a = (n, n) ->
  exists l d, cholesky_envelope_no_root a = Ret (l, d) /\ mshape l = (n, n) /\ mshape d = (n, n) /\
    le_envelope l = le_envelope a /\
    (forall r c, r < c \/ c < lsc a r -> el l r c = s0) /\ (forall r, r < n -> el l r r = s1) /\
    ((forall k, 1 <= k <= n -> nonsingular k (sym_el a)) -> forall c, c < n -> vel (dg_data d) c <> s0) /\
    ((forall c, S c < n -> vel (dg_data d) c <> s0) ->
      forall r c, r < n -> c < n ->
        bigsum n (fun t => smul (smul (el l r t) (vel (dg_data d) t)) (el l c t)) = sym_el a r c) /\
    ((forall c, c < n -> vel (dg_data d) c <> s0) ->
      forall b x0, length b = n -> length x0 = n -> exists x, solve_ldl l d b x0 = Ret x /\ length x = n /\
        forall i, i < n -> mv n (sym_el a) (vel x) i = vel b i).
Proof.
  intros Hb Hs. apply le_built_wf in Hb. injection Hs as <-.
  destruct (ldl_inv_all FL a Hb) as ([l d] & E & HI). pose proof HI as (W & Hnn & Hl & Hd & H1 & _ & _).
  cbn [fst snd] in *. exists l, d. split; [exact E|]. split; [cbn; congruence|]. split; [cbn; congruence|].
  split; [exact Hnn|]. split; [|split; [exact H1|split; [|split]]].
  - intros r c [Hlt|Hlt]; [now apply el_right|]. apply el_left; [exact W|]. unfold lsc in *. now rewrite Hnn.
  - apply (ldl_pivots FL a (l, d) HI).
  - intros Hp r c Hr Hc. apply (ldl_block FL a (l, d) (lev_n a) HI); auto.
  - intros Hp b x0 Hlb Hlx.
    destruct (solve_ldl_ret FL l d b x0 W) as (x & Ex & Hx & Hxe); [congruence..| | |].
    + intros i Hi. rewrite H1 by congruence. apply (neq_1_0 FL).
    + intros i Hi. apply Hp. congruence.
    + exists x. split; [exact Ex|]. split; [congruence|]. intros i Hi. rewrite <- (Hxe i) by congruence.
      unfold mv. rewrite Hl. apply bigsum_ext. intros k Hk. f_equal. symmetry.
      apply (ldl_block FL a (l, d) (lev_n a) HI); auto.
Qed.
Print Assumptions C21_ldl.

(** the indefinite matrix [[1,2,0],[2,1,1],[0,1,3]], pivots 1, -3, 10/3 *)
Definition c21_a : lenv Qc_arith := LE 3 (map qc [1; 2; 1; 1; 3]%Z) [1; 2; 2] [0; 1; 3].
Example C21_example : le_built c21_a /\
  cholesky_envelope_no_root c21_a
    = Ret (LE 3 [qc 1; qc 2; qc 1; qcd (-1) 3; qc 1] [1; 2; 2] [0; 1; 3], DG [qc 1; qc (-3); qcd 10 3]) /\
  (ld ← cholesky_envelope_no_root c21_a; solve_ldl ld.1 ld.2 (map qc [3; 4; 4]%Z) (map qc [9; 9; 9]%Z))
    = Ret (map qc [1; 1; 1]%Z).
Proof.
  split; [|split; vm_refl].
  apply reach_init. right. right. left. exists (3, 3), (map qc [1; 0; 0; 2; 1; 0; 0; 1; 3]%Z). vm_refl.
Qed.
