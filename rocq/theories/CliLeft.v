(** Options left out on the command line. *)
From Coq Require Import Ascii String.
From Verif Require Export CliProofs.
From Verif Require Import Cli.
Local Open Scope list_scope.
Local Close Scope string_scope.

(** *** spec: the documented defaults of the three commands *)
Definition left_out : list (string * string) :=
  [("solver", "densegauss"); ("scale", "50.0"); ("nodevalue", "displacement"); ("out", "out.png"); ("imsize", "1024"); ("showmesh", "true");
   ("mesher", "chew"); ("imageout", "out.png"); ("meshout", "out.bmsh")]%string.
Definition filled (ar : args) : args := fun k =>
  match ar k with
  | Some v => Some v
  | None => match List.find (fun kv => String.eqb kv.1 k) left_out with Some kv => Some (txt kv.2) | None => None end
  end.

Section left.
Context {A : arith} (nf : numfmt A) (ra : raster A) (g : geo A).
Lemma filled_none ar k : ar k <> None -> filled ar k = ar k.
Proof. unfold filled. destruct (ar k); [reflexivity|congruence]. Qed.
Lemma filled_colormap ar : filled ar "colormap"%string = ar "colormap"%string.
Proof. unfold filled. destruct (ar _); reflexivity. Qed.
Lemma filled_input ar : filled ar "INPUT"%string = ar "INPUT"%string.
Proof. unfold filled. destruct (ar _); reflexivity. Qed.
Lemma filled_num ar : filled ar "NUM"%string = ar "NUM"%string.
Proof. unfold filled. destruct (ar _); reflexivity. Qed.
Lemma filled_elementsize ar : filled ar "elementsize"%string = ar "elementsize"%string.
Proof. unfold filled. destruct (ar _); reflexivity. Qed.
Lemma filled_solver h ar : @solver_of A h (filled ar "solver"%string) = solver_of h (ar "solver"%string).
Proof. unfold filled. destruct (ar _); reflexivity. Qed.
Lemma filled_scale ar : scale_of nf (filled ar "scale"%string) = scale_of nf (ar "scale"%string).
Proof. unfold filled. destruct (ar _); reflexivity. Qed.
Lemma filled_value (a : elas A) disp ar : node_value a disp (filled ar "nodevalue"%string) = node_value a disp (ar "nodevalue"%string).
Proof. unfold filled. destruct (ar _); reflexivity. Qed.
Lemma filled_size ar : im_size (filled ar "imsize"%string) = im_size (ar "imsize"%string).
Proof. unfold filled. destruct (ar _); reflexivity. Qed.
Lemma filled_show ar : show_mesh (filled ar "showmesh"%string) = show_mesh (ar "showmesh"%string).
Proof. unfold filled. destruct (ar _); reflexivity. Qed.
Lemma filled_out ar : default (txt "out.png") (filled ar "out"%string) = default (txt "out.png") (ar "out"%string).
Proof. unfold filled. destruct (ar _); reflexivity. Qed.
Lemma filled_imageout ar : default (txt "out.png") (filled ar "imageout"%string) = default (txt "out.png") (ar "imageout"%string).
Proof. unfold filled. destruct (ar _); reflexivity. Qed.
Lemma filled_meshout ar : default (txt "out.bmsh") (filled ar "meshout"%string) = default (txt "out.bmsh") (ar "meshout"%string).
Proof. unfold filled. destruct (ar _); reflexivity. Qed.
Lemma filled_mesher h fuel size st ar : mesher g h fuel size (filled ar "mesher"%string) st = mesher g h fuel size (ar "mesher"%string) st.
Proof. unfold filled. destruct (ar _); reflexivity. Qed.

Lemma c_bind_ext {X Y} (m : cmd (A := A) X) (f f' : X -> cmd Y) : (forall x, f x = f' x) -> c_bind m f = c_bind m f'.
Proof. intros H. unfold c_bind. destruct m.2 as [[x|]| | |]; try reflexivity. now rewrite H. Qed.

Lemma filled_linear w h ar : Cli.linear nf ra w h (filled ar) = Cli.linear nf ra w h ar.
Proof.
  unfold Cli.linear. rewrite filled_input, filled_solver, filled_scale, filled_colormap, filled_size, filled_show, filled_out.
  repeat (apply c_bind_ext; intros ?). now rewrite filled_value.
Qed.
Lemma filled_mesh w h fuel ar : Cli.mesh nf ra g w h fuel (filled ar) = Cli.mesh nf ra g w h fuel ar.
Proof.
  unfold Cli.mesh. rewrite filled_input, filled_elementsize, filled_size, filled_imageout, filled_meshout.
  repeat (apply c_bind_ext; intros ?). now rewrite filled_mesher.
Qed.
Lemma filled_modal w h fl fi fs rnd ar : Cli.modal nf ra w h fl fi fs rnd (filled ar) = Cli.modal nf ra w h fl fi fs rnd ar.
Proof.
  unfold Cli.modal. rewrite filled_input, filled_num, filled_scale. repeat (apply c_bind_ext; intros ?).
  match goal with |- modal_loop _ _ _ _ _ ?i ?l = _ => generalize i; induction l as [|d l IH]; intros i'; cbn [modal_loop]; [reflexivity|] end.
  unfold modal_one. rewrite filled_colormap, filled_size, filled_show. apply c_bind_ext. intros _. apply IH.
Qed.
End left.
