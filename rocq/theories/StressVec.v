(** Reading stress vectors, equivalent stress at the nodes. *)
From Verif Require Export StressProofs.

Definition stress_kind (k : nat) : option stress_type :=
  match k with 1 => Some Bar | 3 => Some Plane | 4 => Some AxiSym | 6 => Some ThreeD | _ => None end.

Section vec.
Context {A : arith}.
Lemma st_from_vector_ret (v : lm A) r c s : lm_wf v -> mshape v = (r, c) ->
  st_from_vector v = Ret s <->
  (r = 1 \/ c = 1) /\ stress_kind (r `max` c) = Some (st_type s) /\ st_data s = take 6 (rm_list r c (el v) ++ replicate 6 s0).
Proof.
  intros W Hs. unfold st_from_vector. rewrite (flat_ret _ _ lm_laws v W), Hs. cbn [fst snd mbind out_bind].
  destruct (negb ((r =? 1) || (c =? 1))) eqn:Hb.
  - split; [discriminate|]. intros [[->| ->] _]; cbn in Hb; rewrite ?orb_true_r in Hb; discriminate.
  - assert (H1 : r = 1 \/ c = 1).
    { destruct (Nat.eqb_spec r 1); [auto|]. destruct (Nat.eqb_spec c 1); [auto|]. discriminate. }
    assert (Hl : length (rm_list r c (el v)) <= r `max` c) by (rewrite rm_list_length; destruct H1 as [->| ->]; lia).
    set (l := rm_list r c (el v)) in *. clearbody l.
    destruct (decide (r `max` c <= 6)) as [H6|H6].
    + assert (E : foldM (fun ix data => if 6 <=? ix.1 then Panic else set data ix.1 ix.2) (imap pair l) (replicate 6 s0) =
                  Ret (take 6 (l ++ replicate 6 s0))).
      { assert (length l <= 6) as Hl6 by lia. clear Hl. do 7 (destruct l as [|? l]; [reflexivity|]). cbn in Hl6. lia. }
      rewrite E. cbn [mbind out_bind]. set (d := take 6 (l ++ replicate 6 s0)). clearbody d.
      destruct s as [t d']. cbn [st_type st_data].
      destruct (r `max` c) as [|[|[|[|[|[|[|k]]]]]]]; cbn [stress_kind];
        (split; [intros X; try discriminate; injection X as -> ->; auto|intros (_ & X & ->); try discriminate; now injection X as ->]).
    + split.
      * intros X. apply bind_ret_inv in X as (d & _ & X). exfalso. clear -X H6. destruct (r `max` c) as [|[|[|[|[|[|[|k]]]]]]]; try lia. discriminate.
      * intros (_ & X & _). exfalso. destruct (r `max` c) as [|[|[|[|[|[|[|k]]]]]]]; try lia. discriminate.
Qed.
End vec.
