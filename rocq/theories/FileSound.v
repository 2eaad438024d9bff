(** When the reader accepts the rounded elements. *)
From Coq Require Import Ascii String ZArith Floats Lia.
From Verif Require Import ElemMore InstF64.
From Verif Require Export FileTop.

Section sound.
Context {A : arith}.
Lemma sound_self (e : element A) : planar e -> scmp (e_det e) (e_det e) <> None -> sltb (sdiv (e_det e) (e_det e)) s0 = false -> sound e.
Proof.
  intros Hp Hc Hd. destruct (scmp (e_det e) (e_det e)) as [c|] eqn:Ec; [|contradiction].
  eexists. split; [apply (jacobian_ret e c Hp Ec)|exact Hd].
Qed.
Lemma rd_planar nf (e : element A) : planar (rd_elem nf e).
Proof. unfold planar, rd_elem. destruct (e_pts e) as [[p q] r]. cbn. auto. Qed.
End sound.
Section sound_ord.
Context {A : arith} (OL : ord_laws A).
Let FL : field_laws A := ol_field A OL.
Add Field Afield50 : (fl_field A FL).
Lemma zero_div : sdiv s0 s0 = (s0 : A).
Proof. rewrite (Fdiv_def (fl_field A FL)). ring. Qed.
Lemma sound_ord (e : element A) : planar e -> sound e.
Proof.
  intros Hp. apply sound_self; [exact Hp| |].
  - destruct (scmp_refl OL (e_det e)) as (c & ->). discriminate.
  - destruct (seqb (e_det e) s0) eqn:E.
    + apply (fl_eqb A FL) in E. rewrite E, zero_div. apply (ol_irr A OL).
    + rewrite (div_self FL). { apply (lts_les OL), (one_pos OL). }
      intros E'. apply (fl_eqb A FL) in E'. congruence.
Qed.
End sound_ord.
(** a binary64 divided by itself is never negative *)
Lemma f64_self_div (x : float) : PrimFloat.ltb (PrimFloat.div x x) PrimFloat.zero = false.
Proof.
  rewrite ltb_spec, div_spec. change (Prim2SF PrimFloat.zero) with (S754_zero false).
  destruct (Prim2SF x) as [s|s| |s m e]; [destruct s; reflexivity|destruct s; reflexivity|reflexivity|].
  unfold SF64div, SFdiv. replace (xorb s s) with false by (destruct s; reflexivity).
  destruct (SFdiv_core_binary _ _ _ _ _ _) as [[mz ez] lz]. unfold binary_round_aux.
  destruct (shr_fexp _ _ _ _ _) as [m1 e1]. destruct (shr_fexp _ _ _ _ _) as [m2 e2]. destruct (shr_m m2); try reflexivity.
  destruct (Zle_bool _ _); reflexivity.
Qed.
Lemma sound_f64 (e : element F64_arith) : planar e -> PrimFloat.eqb (e_det e) (e_det e) = true -> sound e.
Proof.
  intros Hp He. apply sound_self; [exact Hp| |apply f64_self_div]. unfold scmp.
  destruct (sltb _ _); [discriminate|]. change (seqb (e_det e) (e_det e)) with (PrimFloat.eqb (e_det e) (e_det e)). rewrite He. discriminate.
Qed.

(** *** numbers that are written in full *)
Section keep.
Context {A : arith} (nf : numfmt A).
Definition kept_pt (k : nat) (p : point A) : Prop :=
  p = pt2 (p_x p) (p_y p) /\ rnd nf k (p_x p) = p_x p /\ rnd nf k (p_y p) = p_y p.
Record keeps (a : elas A) : Prop := {
  kp_cond : match ea_cond a with PlaneStrain t | PlaneStress t => rnd nf 5 t = t | Axisymmetric => True end;
  kp_nodes : Forall (kept_pt 6) (ea_nodes a);
  kp_cons : Forall (fun c => match c with AngleFixed t => shw nf t = t | _ => True end) (ea_cons a);
  kp_conc : map_Forall (fun _ => kept_pt 3) (ea_conc a);
  kp_line : map_Forall (fun _ => kept_pt 3) (ea_line a) }.
Lemma kept_rd k p : kept_pt k p -> rd_pt nf k p = p.
Proof. intros (E & H1 & H2). unfold rd_pt. rewrite H1, H2. symmetry. exact E. Qed.
Lemma fmap_kept {K} `{Countable K} k (m : gmap K (point A)) : map_Forall (fun _ => kept_pt k) m -> rd_pt nf k <$> m = m.
Proof.
  intros Hm. rewrite <- (map_fmap_id m) at 2. apply map_fmap_ext. intros i p Hp. apply kept_rd, (Hm i p Hp).
Qed.
Lemma kept_back (a : elas A) : ea_ok a -> keeps a -> read_back nf a = a.
Proof.
  intros [_ He] [K1 K2 K3 K4 K5].
  assert (Ec : rd_cond nf (ea_cond a) = ea_cond a) by (destruct (ea_cond a) as [t|t|]; cbn; congruence).
  assert (En : map (rd_pt nf 6) (ea_nodes a) = ea_nodes a).
  { rewrite <- (map_id (ea_nodes a)) at 2. apply map_ext_in. intros p Hp. apply kept_rd. rewrite Forall_forall in K2.
    apply K2, elem_of_list_In, Hp. }
  assert (Ee : map (rd_elem nf) (ea_elems a) = ea_elems a).
  { rewrite <- (map_id (ea_elems a)) at 2. apply map_ext_in. intros e Hin. apply elem_of_list_In in Hin.
    destruct (He e Hin) as (_ & _ & E2 & H1 & H2 & H3). rewrite Forall_forall in K2.
    destruct e as [ids [[p q] r] mt c]. cbn [e_pts e_ids e_cond e_mat fst snd] in *. subst c. unfold rd_elem. cbn [e_pts e_ids e_cond e_mat].
    rewrite Ec, !kept_rd; [reflexivity| | |]; apply K2; eapply elem_of_list_lookup_2; eassumption. }
  assert (Ek : map (rd_con nf) (ea_cons a) = ea_cons a).
  { rewrite <- (map_id (ea_cons a)) at 2. apply map_ext_in. intros c Hc. rewrite Forall_forall in K3.
    specialize (K3 c ltac:(apply elem_of_list_In, Hc)). destruct c; cbn; congruence. }
  unfold read_back. rewrite Ec, En, Ee, Ek, !fmap_kept by assumption. destruct a. reflexivity.
Qed.
End keep.
