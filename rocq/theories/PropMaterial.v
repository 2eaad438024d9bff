(** C127: the materials known by name. *)
From Coq Require Import Ascii String Floats.
From Verif Require Import MatProofs InstQc InstF64 InstFile File.
Local Close Scope string_scope.
Local Open Scope list_scope.

(** *** C127 — aluminium with 68.9 GPa, 0.33 and 2700 kg/m³, and the unit material of the tests *)
Theorem C127_numbers (A : arith) (OL : ord_laws A) s (m : material A) : material_from_str s = Some m <->
  m_name m = s /\ ((s = "AL6061"%string /\ m_youngs m = sz 68900000000 /\ smul (sz 100) (m_poisson m) = sz 33 /\ m_density m = sz 2700) \/
                   (s = "TEST"%string /\ m_youngs m = s1 /\ m_poisson m = s0 /\ m_density m = s1)).
Proof. exact (named_numbers OL s m). Qed.
Print Assumptions C127_numbers.
(** both are possible materials under every strain condition *)
Theorem C127_admissible (A : arith) (OL : ord_laws A) s (m : material A) c : material_from_str s = Some m ->
  admissible c m /\ lts s0 (m_density m).
Proof. exact (named_admissible OL s m c). Qed.
Print Assumptions C127_admissible.
(** in binary64 the constants are the numbers read from these decimals *)
Theorem C127_binary64 : material_from_str "AL6061" = Some (AL6061 (A := F64_arith)) /\
  nf_read F64_fmt (txt "68900000000") = Some (m_youngs AL6061) /\ nf_read F64_fmt (txt "0.33") = Some (m_poisson AL6061) /\
  nf_read F64_fmt (txt "2700.0") = Some (m_density AL6061).
Proof. split; [reflexivity|]. repeat (split; [vm_refl|]). vm_refl. Qed.
Print Assumptions C127_binary64.
Example C127_example : material_from_str "AL6061" = Some (AL6061 (A := Qc_arith)) /\ m_poisson (A := Qc_arith) AL6061 = qcd 33 100 /\
  material_from_str (A := Qc_arith) "al6061" = None.
Proof. split; [reflexivity|]. split; vm_refl. Qed.
