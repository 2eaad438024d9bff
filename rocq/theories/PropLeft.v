(** C126: options left out on the command line. *)
From Coq Require Import Ascii String.
From Verif Require Import CliLeft PropCli InstQc InstVis InstFile CliEx CliMesh MeshEx.
From Verif Require Import Cli.
Local Close Scope string_scope.
Local Open Scope list_scope.

(** *** C126 — leaving an option out is the same as giving its default *)
Theorem C126_linear (A : arith) (nf : numfmt A) (ra : raster A) w h ar : Cli.linear nf ra w h (filled ar) = Cli.linear nf ra w h ar.
Proof. exact (filled_linear nf ra w h ar). Qed.
Print Assumptions C126_linear.
Theorem C126_mesh (A : arith) (nf : numfmt A) (ra : raster A) (g : geo A) w h fuel ar : Cli.mesh nf ra g w h fuel (filled ar) = Cli.mesh nf ra g w h fuel ar.
Proof. exact (filled_mesh nf ra g w h fuel ar). Qed.
Print Assumptions C126_mesh.
Theorem C126_modal (A : arith) (nf : numfmt A) (ra : raster A) w h fl fi fs rnd ar :
  Cli.modal nf ra w h fl fi fs rnd (filled ar) = Cli.modal nf ra w h fl fi fs rnd ar.
Proof. exact (filled_modal nf ra w h fl fi fs rnd ar). Qed.
Print Assumptions C126_modal.
(** a study of which only the size of the picture is given *)
Example C126_example :
  one_study.2 = Ret (Ok tt) /\ match one_study.1 with SavedImage p s _ :: _ => Some (p, s) | _ => None end = Some (txt "out.png", 40%Z) /\
  filled (given []) "imsize"%string = Some (txt "1024") /\ filled (study_args []) "imsize"%string = Some (txt "40") /\
  filled (study_args []) "solver"%string = Some (txt "densegauss").
Proof. repeat (split; [vm_refl|]). vm_refl. Qed.
