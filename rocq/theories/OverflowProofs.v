(** Lemmas on the machine-word dense constructor. *)
From Coq Require Import NArith.
From Verif Require Export Overflow.

Open Scope N_scope.
Lemma wd_zeros_debug r c m : wd_zeros Debug r c = Ret m ->
  wd_r m = r /\ wd_c m = c /\ wd_len m = r * c.
Proof.
  unfold wd_zeros, wmul. destruct (r * c <? word); cbn; [|discriminate].
  destruct (_ <? _); [|discriminate]. intros E. injection E as <-. auto.
Qed.

Lemma wd_zeros_fits p r c : r * c * 8 < 2 ^ 63 -> exists m, wd_zeros p r c = Ret m /\
  wd_r m = r /\ wd_c m = c /\ wd_len m = r * c /\
  forall i j, exists o, wd_get p m (i, j) = Ret o /\ (i < r -> j < c -> o = Some (c * i + j)).
Proof.
  intros H. assert (Hw : r * c < word) by (unfold word; lia).
  unfold wd_zeros, wmul. rewrite (proj2 (N.ltb_lt _ _) Hw). cbn [mbind out_bind].
  rewrite (proj2 (N.ltb_lt _ _) H). eexists; split; [reflexivity|]. cbn [wd_r wd_c wd_len].
  split; [reflexivity|]. split; [reflexivity|]. split; [reflexivity|].
  intros i j. unfold wd_get. cbn [wd_r wd_c wd_len wd_rm fst snd].
  destruct (N.leb_spec c j); cbn [orb]; [eexists; split; [reflexivity|]; lia|].
  destruct (N.leb_spec r i); [eexists; split; [reflexivity|]; lia|].
  assert (Hi : c * i + j < r * c) by nia.
  unfold wmul. rewrite (proj2 (N.ltb_lt (c * i) word)) by lia. cbn [mbind out_bind].
  unfold wadd. rewrite (proj2 (N.ltb_lt (c * i + j) word)) by lia. cbn [mbind out_bind].
  rewrite (proj2 (N.ltb_lt _ _) Hi). eexists; split; [reflexivity|auto].
Qed.
Close Scope N_scope.
