(** The linear study over the reals. *)
From Coq Require Import Ascii String Reals.
From Verif Require Import InstR EigTop StudyProofs CliProofs CliMesh CliStudy.
From Verif Require Import Cli.
Local Close Scope R_scope.
Local Close Scope string_scope.
Local Open Scope nat_scope.
Local Open Scope list_scope.

Lemma R_trig (th : R_arith) : sadd (smul (scos th) (scos th)) (smul (ssin th) (ssin th)) = s1.
Proof. cbn. pose proof (sin2_cos2 th) as H. unfold Rsqr in H. rewrite Rplus_comm. exact H. Qed.

Lemma linear_prints_R (nf : numfmt R_arith) (ra : raster R_arith) w h ar l : hashes_ok h -> Cli.linear nf ra w h ar = (l, Ret (Ok tt)) ->
  exists path file a disp vm size im max_vm max_d,
    ar "INPUT"%string = Some path /\ w_read w path = Some file /\ bmsh_to_elas nf file = Ret (Ok a) /\ ea_built a /\
    ea_von_mises a disp = Ret vm /\ length disp = node_count a /\
    l = [SavedImage (default (txt "out.png") (ar "out"%string)) size im; PrintMax max_vm max_d] /\
    max_vm ∈ vm /\ (forall x : R, x ∈ vm -> (x <= max_vm)%R) /\
    max_d ∈ map pt_norm disp /\ (forall p, p ∈ disp -> (pt_norm p <= max_d)%R) /\
    ((default (txt "densegauss") (ar "solver"%string) = txt "densegauss" /\ reduced_pivots (h_k h) a \/
      default (txt "densegauss") (ar "solver"%string) = txt "cholesky" /\ held a) ->
     the_solution a (h_conc h (ea_conc a)) (h_line h (ea_line a)) disp).
Proof.
  intros Hh E. destruct (linear_prints nf ra R_ord_laws R_trig w h ar l Hh E)
    as (path & file & a & disp & vm & size & im & max_vm & max_d & H1 & H2 & H3 & H4 & H5 & H6 & H7 & H8 & H9 & H10 & H11 & H12).
  exists path, file, a, disp, vm, size, im, max_vm, max_d. repeat (split; [assumption|]).
  split; [intros x Hx; apply les_R; now apply H9|]. split; [exact H10|]. split; [intros p Hp; apply les_R; now apply H11|].
  intros H. apply H12. unfold applies. destruct H as [H|[Hn H]]; [now left|right]. split; [exact Hn|]. split; [apply R_sqrt_law|exact H].
Qed.
