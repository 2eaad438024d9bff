(** The materials known by name. *)
From Coq Require Import String.
From Verif Require Export ElemPsd.
Local Open Scope string_scope.

Section mat.
Context {A : arith} (OL : ord_laws A).
Let FL : field_laws A := ol_field A OL.
Add Field Afield78 : (fl_field A FL).
Local Open Scope arith_scope.

Lemma sz100 : (sz 100 : A) = sz 33 + sz 33 + sz 34 /\ (sz 100 : A) = sz 33 + sz 67.
Proof. split; cbn; ring. Qed.
Lemma named_numbers s (m : material A) : material_from_str s = Some m <->
  m_name m = s /\ ((s = "AL6061" /\ m_youngs m = sz 68900000000 /\ sz 100 * m_poisson m = sz 33 /\ m_density m = sz 2700) \/
                   (s = "TEST" /\ m_youngs m = 1 /\ m_poisson m = 0 /\ m_density m = 1)).
Proof.
  assert (H100 : (sz 100 : A) <> 0) by (intros H0; pose proof (sz_pos OL 100) as Hp; rewrite H0 in Hp; exact (lts_irr OL _ Hp)).
  unfold material_from_str. split.
  - destruct (String.eqb_spec s "AL6061") as [->|H1].
    + injection 1 as <-. split; [reflexivity|]. left. split; [reflexivity|]. split; [reflexivity|]. split; [|reflexivity]. cbn [m_poisson AL6061]. unfold slit.
      generalize dependent (sz 100 : A). intros c Hc. field. exact Hc.
    + destruct (String.eqb_spec s "TEST") as [->|H2]; [|discriminate]. injection 1 as <-. split; [reflexivity|]. right. repeat split; reflexivity.
  - intros [Hn [(-> & H1 & H2 & H3)|(-> & H1 & H2 & H3)]].
    + change (Some AL6061 = Some m). destruct m as [nm y p d]. cbn [m_name m_youngs m_poisson m_density] in *. subst. unfold AL6061. do 2 f_equal. unfold slit.
      rewrite <- H2. generalize dependent (sz 100 : A). intros c Hc _. field. exact Hc.
    + change (Some TEST = Some m). destruct m as [nm y p d]. cbn [m_name m_youngs m_poisson m_density] in *. subst. reflexivity.
Qed.
Lemma rest1 (a b c : A) : c <> 0 -> c = a + b -> b / c = 1 - a / c.
Proof. intros Hc E. transitivity ((a + b - a) / c); [field; exact Hc|]. rewrite <- E. field. exact Hc. Qed.
Lemma rest2 (a b c : A) : c <> 0 -> c = a + a + b -> b / c = 1 - (1 + 1) * (a / c).
Proof. intros Hc E. transitivity ((a + a + b - a - a) / c); [field; exact Hc|]. rewrite <- E. field. exact Hc. Qed.
Lemma named_admissible s (m : material A) c : material_from_str s = Some m -> admissible c m /\ lts 0 (m_density m).
Proof.
  intros H. assert (H100 : (sz 100 : A) <> 0) by (intros H0; pose proof (sz_pos OL 100) as Hp; rewrite H0 in Hp; exact (lts_irr OL _ Hp)).
  unfold material_from_str in H. destruct (String.eqb s "AL6061").
  - injection H as <-. split; [|apply (sz_pos OL)]. unfold admissible. cbn [m_youngs m_poisson AL6061]. split; [apply (sz_pos OL)|].
    assert (P1 : lts 0 (1 + slit 33 100 : A)).
    { replace (0 : A) with (0 + 0 : A) by ring. apply (lts_les_add OL); [apply (one_pos OL)|apply (lts_les OL), (slit_pos OL)]. }
    split; [exact P1|]. destruct sz100 as [E1 E2].
    assert (P2 : lts 0 (1 - slit 33 100 : A)).
    { replace (1 - slit 33 100 : A) with (slit 67 100 : A) by (apply rest1; assumption). apply (slit_pos OL). }
    assert (P3 : lts 0 (1 - (1 + 1) * slit 33 100 : A)).
    { replace (1 - (1 + 1) * slit 33 100 : A) with (slit 34 100 : A) by (apply rest2; assumption). apply (slit_pos OL). }
    destruct c; assumption.
  - destruct (String.eqb s "TEST"); [|discriminate]. injection H as <-. cbn. pose proof (one_pos OL) as H1.
    split; [|exact H1]. unfold admissible. cbn. replace (1 + 0) with (1 : A) by ring. replace (1 - 0) with (1 : A) by ring. replace (1 - (1 + 1) * 0) with (1 : A) by ring.
    destruct c; auto.
Qed.
End mat.
