(** Small file systems, arguments and hash orders for examples of whole runs. *)
From Coq Require Import Ascii String.
From Verif Require Import PropSolve PropPlane CliMesh FileBnd GaussProofs InstQc.
From Verif Require Import Cli.
Local Close Scope string_scope.
Local Open Scope nat_scope.
Local Open Scope list_scope.

(** traversals in key order *)
Definition plain_hashes {A : arith} : hashes A := {|
  h_k := hash_id; h_sys := hash_id; h_conc := map_to_list; h_line := map_to_list; h_pick := first_pick; h_order := plain_order;
  h_segs := elements; h_full m := (map_to_list m).*1; h_dcons m := (map_to_list m).*1; h_cons m := (map_to_list m).*1;
  h_forces m := (map_to_list m).*1; h_keys m := (map_to_list m).*1; h_drain := elements |}.
(** the loads backwards, the matrices in another order *)
Definition other_hashes {A : arith} : hashes A := {|
  h_k := hash_rev; h_sys := hash_rev; h_conc m := rev (map_to_list m); h_line m := rev (map_to_list m); h_pick := first_pick; h_order := plain_order;
  h_segs := elements; h_full m := (map_to_list m).*1; h_dcons m := (map_to_list m).*1; h_cons m := (map_to_list m).*1;
  h_forces m := (map_to_list m).*1; h_keys m := (map_to_list m).*1; h_drain := elements |}.
Lemma plain_hashes_ok {A : arith} : hashes_ok (A := A) plain_hashes.
Proof. constructor; cbn; try reflexivity; [apply hash_id_ok|apply hash_id_ok|apply first_pick_ok|apply plain_order_ok]. Qed.
Lemma other_hashes_ok {A : arith} : hashes_ok (A := A) other_hashes.
Proof.
  constructor; cbn; try reflexivity; [apply hash_rev_ok|apply hash_rev_ok|intros m; symmetry; apply Permutation_rev|intros m; symmetry; apply Permutation_rev|
    apply first_pick_ok|apply plain_order_ok].
Qed.

(** a file system with some files, where everything can be written *)
Definition disk (fs : list (string * text)) : world :=
  World (fun p => snd <$> find (fun f => bool_decide (txt f.1 = p)) fs) (fun _ _ => true) (fun _ => true).
(** arguments given by name *)
Definition given (l : list (string * string)) : args := fun k => txt ∘ snd <$> find (fun kv => String.eqb kv.1 k) l.

Definition bmsh_file (nodes elements constraints forces dist : list string) : text := unl (map list_ascii_of_string
  (["$Header"; "version 1"; "material TEST"; "condition planestress 1"; "$EndHeader"; "$Nodes"] ++ nodes ++
   ["$EndNodes"; "$Elements"] ++ elements ++ ["$EndElements"; "$Constraints"] ++ constraints ++
   ["$EndConstraints"; "$Forces"] ++ forces ++ ["$EndForces"; "$DistForces"] ++ dist ++ ["$EndDistForces"]))%string.

(** diag(1/4, 1/2) has no zero pivot *)
Lemma pivots_example (f : nat -> nat -> Qc_arith) : f 0 0 = qcd 1 4 -> f 0 1 = qc 0 -> f 1 0 = qc 0 -> f 1 1 = qcd 1 2 -> pivots_nonzero 2 f.
Proof.
  intros H00 H01 H10 H11. set (g := fun r c => match r, c with 0, 0 => qcd 1 4 | 0, _ => qc 0 | _, 0 => qc 0 | _, _ => qcd 1 2 end : Qc_arith).
  set (M1 := elim_step 0 0 g). exists (fun k => match k with 0 => g | 1 => M1 | _ => elim_step 1 1 M1 end).
  split. { intros [|[|r]] [|[|c]] Hr Hc; try lia; cbn; congruence. }
  intros [|[|k]] Hk; [exists 0|exists 1|lia].
  - split; [|split; [|reflexivity]].
    + split; [lia|]. split; [intros; lia|]. intros r Hr. assert (r = 1) as -> by lia. unfold lts. vm_refl.
    + apply qc_neq. vm_refl.
  - split; [|split; [|reflexivity]].
    + split; [lia|]. split; intros; lia.
    + apply qc_neq. vm_refl.
Qed.
