(** Algebra of the element matrices: symmetry, rigid motions, energy, patch test, material law. *)
From Verif Require Export AssemProofs Ord.

Ltac divs := cbn [bigsum Nat.even];
  repeat match goal with |- context[Nat.div ?a ?b] => let v := eval compute in (Nat.div a b) in change (Nat.div a b) with v end.

Section alg.
Context {A : arith} (FL : field_laws A).
Add Field Afield34 : (fl_field A FL).
Local Open Scope arith_scope.
Implicit Types e : element A.
Implicit Types p q w : A * A.

Definition rcp (y : A) : A := 1 / y.
Lemma div_def (x y : A) : x / y = x * rcp y.
Proof. unfold rcp. rewrite (Fdiv_def (fl_field A FL) x y), (Fdiv_def (fl_field A FL) 1 y). ring. Qed.

Lemma c_sym c (m : material A) k l : c_c c m k l = c_c c m l k.
Proof. unfold c_c. rewrite (Nat.eqb_sym l k). destruct (Nat.eqb_spec k l) as [->|]; [reflexivity|]. now rewrite orb_comm. Qed.

Lemma k_int_sym n (B C : nat -> nat -> A) d t i j : (forall k l, C k l = C l k) ->
  k_int n B C d t i j = k_int n B C d t j i.
Proof.
  intros Hc. unfold k_int.
  assert (G : forall i j, bigsum n (fun k => bigsum n (fun l => B l i * C l k) * d * t * B k j)
      = bigsum n (fun k => bigsum n (fun l => B l i * C l k * d * t * B k j))).
  { intros i' j'. apply bigsum_ext. intros k _. rewrite <- !(bigsum_scale_r FL). reflexivity. }
  rewrite !G, (bigsum_swap FL). apply bigsum_ext. intros l _. apply bigsum_ext. intros k _.
  rewrite (Hc l k). ring.
Qed.

Lemma K_sym e i j : K_c e i j = K_c e j i.
Proof.
  unfold K_c, at_samples. rewrite !(k_int_sym _ _ _ _ _ i j) by apply c_sym. reflexivity.
Qed.

Lemma contrib_sym (g : element A -> nat -> nat -> A) els i j :
  (forall e i j, g e i j = g e j i) ->
  contrib (concat (map (el_list g) els)) i j = contrib (concat (map (el_list g) els)) j i.
Proof.
  intros Hg. induction els as [|e els IH]; [reflexivity|]. cbn [map concat]. rewrite !(contrib_app FL), IH. f_equal.
  unfold contrib, el_list. rewrite !map_rm, !(ssum_rm FL), (bigsum_swap FL). cbn [fst snd].
  apply bigsum_ext. intros a _. apply bigsum_ext. intros b _. rewrite andb_comm, Hg. reflexivity.
Qed.

(** ** strains *)
Definition strain (B : nat -> nat -> A) (u : nat -> A) (k : nat) : A := bigsum 6 (fun j => B k j * u j).

Lemma k_int_row n B C d t i u : bigsum 6 (fun j => k_int n B C d t i j * u j) =
  bigsum n (fun k => bigsum n (fun l => B l i * C l k) * d * t * strain B u k).
Proof.
  unfold k_int, strain.
  transitivity (bigsum 6 (fun j => bigsum n (fun k => bigsum n (fun l => B l i * C l k) * d * t * B k j * u j))).
  - apply bigsum_ext. intros j _. now rewrite <- (bigsum_scale_r FL).
  - rewrite (bigsum_swap FL). apply bigsum_ext. intros k _. rewrite <- (bigsum_scale_l FL).
    apply bigsum_ext. intros j _. ring.
Qed.

Definition energy (n : nat) (C : nat -> nat -> A) (x y : nat -> A) : A :=
  bigsum n (fun k => bigsum n (fun l => x l * C l k * y k)).

Lemma k_int_form n B C d t u (w : nat -> A) : el_form (k_int n B C d t) u w =
  d * t * energy n C (strain B u) (strain B w).
Proof.
  unfold el_form.
  transitivity (bigsum 6 (fun i => u i * bigsum n (fun k => bigsum n (fun l => B l i * C l k) * d * t * strain B w k))).
  { apply bigsum_ext. intros i _. rewrite <- k_int_row, <- (bigsum_scale_l FL). apply bigsum_ext. intros j _. ring. }
  transitivity (bigsum 6 (fun i => bigsum n (fun k => bigsum n (fun l => u i * B l i * C l k * (d * t * strain B w k))))).
  { apply bigsum_ext. intros i _. rewrite <- (bigsum_scale_l FL). apply bigsum_ext. intros k _.
    replace (u i * (bigsum n (fun l => B l i * C l k) * d * t * strain B w k))
      with (u i * bigsum n (fun l => B l i * C l k) * (d * t * strain B w k)) by ring.
    rewrite <- (bigsum_scale_l FL), <- (bigsum_scale_r FL). apply bigsum_ext. intros l _. ring. }
  rewrite (bigsum_swap FL). unfold energy. rewrite <- (bigsum_scale_l FL). apply bigsum_ext. intros k _.
  rewrite (bigsum_swap FL), <- (bigsum_scale_l FL). apply bigsum_ext. intros l _.
  unfold strain at 2. transitivity (bigsum 6 (fun j => B l j * u j) * (C l k * (d * t * strain B w k))).
  - rewrite <- (bigsum_scale_r FL). apply bigsum_ext. intros j _. ring.
  - ring.
Qed.

Lemma at_samples_sum (g : A -> A -> nat -> A) n (u : nat -> A) :
  bigsum n (fun j => at_samples (fun r s => g r s j) * u j) = at_samples (fun r s => bigsum n (fun j => g r s j * u j)).
Proof.
  unfold at_samples. rewrite <- !(bigsum_add FL), <- (bigsum_scale_r FL). apply bigsum_ext. intros j _. ring.
Qed.
Lemma at_samples_ext (g h : A -> A -> A) : (forall r s, g r s = h r s) -> at_samples g = at_samples h.
Proof. intros H. unfold at_samples. now rewrite !H. Qed.

Lemma K_row_0 e u i : (forall r s k, (k < vec_len (e_cond e))%nat ->
    strain (b_c (xy (e_pts e).1.1) (xy (e_pts e).1.2) (xy (e_pts e).2) r s) u k = 0) ->
  bigsum 6 (fun j => K_c e i j * u j) = 0.
Proof.
  intros H. unfold K_c. rewrite (at_samples_sum (fun r s j => k_int _ _ _ _ _ i j) 6 u).
  transitivity (at_samples (A := A) (fun _ _ => 0)).
  - apply at_samples_ext. intros r s. rewrite k_int_row. apply (bigsum_0 FL). intros k Hk. rewrite H by exact Hk. ring.
  - unfold at_samples. ring.
Qed.

Lemma K_form e u (w : nat -> A) : el_form (K_c e) u w =
  at_samples (fun r s => em_det (mats_c e r s) * em_th (mats_c e r s) *
    energy (vec_len (e_cond e)) (c_c (e_cond e) (e_mat e))
      (strain (b_c (xy (e_pts e).1.1) (xy (e_pts e).1.2) (xy (e_pts e).2) r s) u)
      (strain (b_c (xy (e_pts e).1.1) (xy (e_pts e).1.2) (xy (e_pts e).2) r s) w)).
Proof.
  unfold K_c, el_form.
  transitivity (at_samples (fun r s => el_form (k_int (vec_len (e_cond e))
    (b_c (xy (e_pts e).1.1) (xy (e_pts e).1.2) (xy (e_pts e).2) r s) (c_c (e_cond e) (e_mat e))
    (em_det (mats_c e r s)) (em_th (mats_c e r s))) u w)).
  - unfold at_samples, el_form. rewrite <- !(bigsum_add FL), <- (bigsum_scale_r FL). apply bigsum_ext. intros i _.
    rewrite <- !(bigsum_add FL), <- (bigsum_scale_r FL). apply bigsum_ext. intros j _. ring.
  - apply at_samples_ext. intros r s. apply k_int_form.
Qed.

(** the strain components of a displacement vector *)
Lemma strain_0 p q w r s u : strain (b_c p q w r s) u 0 = hg_c 0 p q w 0 * u 0%nat + hg_c 0 p q w 1 * u 2%nat + hg_c 0 p q w 2 * u 4%nat.
Proof. unfold strain, b_c. divs. ring. Qed.
Lemma strain_1 p q w r s u : strain (b_c p q w r s) u 1 = hg_c 1 p q w 0 * u 1%nat + hg_c 1 p q w 1 * u 3%nat + hg_c 1 p q w 2 * u 5%nat.
Proof. unfold strain, b_c. divs. ring. Qed.
Lemma strain_2 p q w r s u : strain (b_c p q w r s) u 2 =
  hg_c 1 p q w 0 * u 0%nat + hg_c 0 p q w 0 * u 1%nat + hg_c 1 p q w 1 * u 2%nat + hg_c 0 p q w 1 * u 3%nat +
  hg_c 1 p q w 2 * u 4%nat + hg_c 0 p q w 2 * u 5%nat.
Proof. unfold strain, b_c. divs. ring. Qed.
Lemma strain_3 p q w r s u : strain (b_c p q w r s) u 3 =
  ((1 - r - s) * u 0%nat + r * u 2%nat + s * u 4%nat) / coord_c r s p.1 q.1 w.1.
Proof.
  unfold strain, b_c, h_c. divs.
  rewrite !(div_def _ (coord_c _ _ _ _ _)). ring.
Qed.

(** nodal values of the affine field (a0 + a1 x + a2 y, b0 + b1 x + b2 y) *)
Definition affine (a b : A * A * A) (x y : A) : A * A :=
  (a.1.1 + a.1.2 * x + a.2 * y, b.1.1 + b.1.2 * x + b.2 * y).
Definition nodal (f : A -> A -> A * A) p q w (i : nat) : A :=
  match i with
  | 0%nat => (f p.1 p.2).1 | 1%nat => (f p.1 p.2).2
  | 2%nat => (f q.1 q.2).1 | 3%nat => (f q.1 q.2).2
  | 4%nat => (f w.1 w.2).1 | 5%nat => (f w.1 w.2).2
  | _ => 0
  end.

Lemma det_area p q w : det_c p q w = (q.1 - p.1) * (w.2 - p.2) - (w.1 - p.1) * (q.2 - p.2).
Proof. unfold det_c, j_in. ring. Qed.
Lemma coord_lin r s u0 u1 u2 : coord_c r s u0 u1 u2 = (1 - r - s) * u0 + r * u1 + s * u2 :> A.
Proof. unfold coord_c. ring. Qed.

(** gradients of the interpolation weights *)
Lemma grad_sum k p q w : hg_c k p q w 0 + hg_c k p q w 1 + hg_c k p q w 2 = 0.
Proof. unfold hg_c. destruct k; rewrite !(div_def _ (det_c p q w)); ring. Qed.
Lemma grad_cross0 p q w : hg_c 0 p q w 0 * p.2 + hg_c 0 p q w 1 * q.2 + hg_c 0 p q w 2 * w.2 = 0.
Proof. unfold hg_c, j_in. rewrite !(div_def _ (det_c p q w)). ring. Qed.
Lemma grad_cross1 p q w : hg_c 1 p q w 0 * p.1 + hg_c 1 p q w 1 * q.1 + hg_c 1 p q w 2 * w.1 = 0.
Proof. unfold hg_c, j_in. rewrite !(div_def _ (det_c p q w)). ring. Qed.
Lemma grad_same0 p q w : hg_c 0 p q w 0 * p.1 + hg_c 0 p q w 1 * q.1 + hg_c 0 p q w 2 * w.1 = det_c p q w / det_c p q w.
Proof. rewrite (div_def _ (det_c p q w)). unfold hg_c. rewrite !(div_def _ (det_c p q w)). generalize (rcp (det_c p q w)). intros z. unfold det_c, j_in. ring. Qed.
Lemma grad_same1 p q w : hg_c 1 p q w 0 * p.2 + hg_c 1 p q w 1 * q.2 + hg_c 1 p q w 2 * w.2 = det_c p q w / det_c p q w.
Proof. rewrite (div_def _ (det_c p q w)). unfold hg_c. rewrite !(div_def _ (det_c p q w)). generalize (rcp (det_c p q w)). intros z. unfold det_c, j_in. ring. Qed.

Lemma div_self (x : A) : x <> 0 -> x / x = 1.
Proof. intros H. field. exact H. Qed.

(** the patch test *)
Lemma strain_affine a b p q w r s : det_c p q w <> 0 ->
  strain (b_c p q w r s) (nodal (affine a b) p q w) 0 = a.1.2 /\
  strain (b_c p q w r s) (nodal (affine a b) p q w) 1 = b.2 /\
  strain (b_c p q w r s) (nodal (affine a b) p q w) 2 = a.2 + b.1.2 /\
  strain (b_c p q w r s) (nodal (affine a b) p q w) 3 =
    (affine a b (coord_c r s p.1 q.1 w.1) (coord_c r s p.2 q.2 w.2)).1 / coord_c r s p.1 q.1 w.1.
Proof.
  intros Hd. pose proof (div_self _ Hd) as H1. rewrite strain_0, strain_1, strain_2, strain_3.
  unfold nodal, affine. cbn [fst snd].
  pose proof (grad_sum 0 p q w) as S0. pose proof (grad_sum 1 p q w) as S1.
  pose proof (grad_cross0 p q w) as X0. pose proof (grad_cross1 p q w) as X1.
  pose proof (grad_same0 p q w) as Y0. pose proof (grad_same1 p q w) as Y1. rewrite H1 in Y0, Y1.
  set (g00 := hg_c 0 p q w 0) in *. set (g01 := hg_c 0 p q w 1) in *. set (g02 := hg_c 0 p q w 2) in *.
  set (g10 := hg_c 1 p q w 0) in *. set (g11 := hg_c 1 p q w 1) in *. set (g12 := hg_c 1 p q w 2) in *.
  split; [|split; [|split]].
  - transitivity (a.1.1 * (g00 + g01 + g02) + a.1.2 * (g00 * p.1 + g01 * q.1 + g02 * w.1) + a.2 * (g00 * p.2 + g01 * q.2 + g02 * w.2));
      [ring|]. rewrite S0, X0, Y0. ring.
  - transitivity (b.1.1 * (g10 + g11 + g12) + b.1.2 * (g10 * p.1 + g11 * q.1 + g12 * w.1) + b.2 * (g10 * p.2 + g11 * q.2 + g12 * w.2));
      [ring|]. rewrite S1, X1, Y1. ring.
  - transitivity (a.1.1 * (g10 + g11 + g12) + a.1.2 * (g10 * p.1 + g11 * q.1 + g12 * w.1) + a.2 * (g10 * p.2 + g11 * q.2 + g12 * w.2)
      + b.1.1 * (g00 + g01 + g02) + b.1.2 * (g00 * p.1 + g01 * q.1 + g02 * w.1) + b.2 * (g00 * p.2 + g01 * q.2 + g02 * w.2));
      [ring|]. rewrite S0, S1, X0, X1, Y0, Y1. ring.
  - f_equal. rewrite !coord_lin. ring.
Qed.

(** rigid motion: translation (a, b) and infinitesimal rotation o; no division is left *)
Lemma strain_rigid a b o p q w r s k : (k < 3)%nat ->
  strain (b_c p q w r s) (nodal (fun x y => (a - o * y, b + o * x)) p q w) k = 0.
Proof.
  intros Hk.
  pose proof (grad_sum 0 p q w) as S0. pose proof (grad_sum 1 p q w) as S1.
  pose proof (grad_cross0 p q w) as X0. pose proof (grad_cross1 p q w) as X1.
  pose proof (grad_same0 p q w) as Y0. pose proof (grad_same1 p q w) as Y1.
  destruct k as [|[|[|k]]]; [| | |lia]; rewrite ?strain_0, ?strain_1, ?strain_2; unfold nodal; cbn [fst snd].
  all: set (g00 := hg_c 0 p q w 0) in *; set (g01 := hg_c 0 p q w 1) in *; set (g02 := hg_c 0 p q w 2) in *.
  all: set (g10 := hg_c 1 p q w 0) in *; set (g11 := hg_c 1 p q w 1) in *; set (g12 := hg_c 1 p q w 2) in *.
  - transitivity (a * (g00 + g01 + g02) - o * (g00 * p.2 + g01 * q.2 + g02 * w.2)); [ring|]. rewrite S0, X0. ring.
  - transitivity (b * (g10 + g11 + g12) + o * (g10 * p.1 + g11 * q.1 + g12 * w.1)); [ring|]. rewrite S1, X1. ring.
  - transitivity (a * (g10 + g11 + g12) - o * (g10 * p.2 + g11 * q.2 + g12 * w.2) +
                  b * (g00 + g01 + g02) + o * (g00 * p.1 + g01 * q.1 + g02 * w.1)); [ring|].
    rewrite S0, S1, Y0, Y1. ring.
Qed.

Lemma strain_axial b p q w r s k : (k < 4)%nat ->
  strain (b_c p q w r s) (nodal (fun x y => (0, b)) p q w) k = 0.
Proof.
  intros Hk. pose proof (grad_sum 0 p q w) as S0. pose proof (grad_sum 1 p q w) as S1.
  destruct k as [|[|[|[|k]]]]; [| | | |lia]; rewrite ?strain_0, ?strain_1, ?strain_2, ?strain_3; unfold nodal; cbn [fst snd].
  all: set (g00 := hg_c 0 p q w 0) in *; set (g01 := hg_c 0 p q w 1) in *; set (g02 := hg_c 0 p q w 2) in *.
  all: set (g10 := hg_c 1 p q w 0) in *; set (g11 := hg_c 1 p q w 1) in *; set (g12 := hg_c 1 p q w 2) in *.
  - ring.
  - transitivity (b * (g10 + g11 + g12)); [ring|]. rewrite S1. ring.
  - transitivity (b * (g00 + g01 + g02)); [ring|]. rewrite S0. ring.
  - rewrite div_def. ring.
Qed.

(** displacement vector of a motion of all nodes *)
Definition motion (nodes : list (point A)) (f : A -> A -> A * A) (i : nat) : A :=
  match nodes !! (i / 2)%nat with
  | Some p => if Nat.even i then (f (p_x p) (p_y p)).1 else (f (p_x p) (p_y p)).2
  | None => 0
  end.

Lemma loc_motion a e f i : el_of a e -> (i < 6)%nat ->
  loc e (motion (ea_nodes a) f) i = nodal f (xy (e_pts e).1.1) (xy (e_pts e).1.2) (xy (e_pts e).2) i.
Proof.
  intros (_ & _ & _ & H0 & H1 & H2) Hi. 
  assert (D0 : forall n, ((n * 2 + 0) / 2 = n)%nat) by (intros n; rewrite Nat.add_0_r; apply Nat.div_mul; lia).
  assert (D1 : forall n, ((n * 2 + 1) / 2 = n)%nat) by (intros n; rewrite Nat.div_add_l by lia; cbn; lia).
  assert (E0 : forall n, Nat.even (n * 2 + 0) = true)
    by (intros n; rewrite Nat.add_0_r, Nat.mul_comm; apply Nat.even_spec; now exists n).
  assert (E1 : forall n, Nat.even (n * 2 + 1) = false).
  { intros n. rewrite <- Nat.negb_odd. replace (n * 2 + 1)%nat with (2 * n + 1)%nat by lia.
    rewrite (proj2 (Nat.odd_spec _)); [reflexivity|]. now exists n. }
  destruct i as [|[|[|[|[|[|i]]]]]]; [..|lia].
  - change (motion (ea_nodes a) f ((e_ids e).1.1 * 2 + 0) = (f (p_x (e_pts e).1.1) (p_y (e_pts e).1.1)).1).
    unfold motion. now rewrite D0, E0, H0.
  - change (motion (ea_nodes a) f ((e_ids e).1.1 * 2 + 1) = (f (p_x (e_pts e).1.1) (p_y (e_pts e).1.1)).2).
    unfold motion. now rewrite D1, E1, H0.
  - change (motion (ea_nodes a) f ((e_ids e).1.2 * 2 + 0) = (f (p_x (e_pts e).1.2) (p_y (e_pts e).1.2)).1).
    unfold motion. now rewrite D0, E0, H1.
  - change (motion (ea_nodes a) f ((e_ids e).1.2 * 2 + 1) = (f (p_x (e_pts e).1.2) (p_y (e_pts e).1.2)).2).
    unfold motion. now rewrite D1, E1, H1.
  - change (motion (ea_nodes a) f ((e_ids e).2 * 2 + 0) = (f (p_x (e_pts e).2) (p_y (e_pts e).2)).1).
    unfold motion. now rewrite D0, E0, H2.
  - change (motion (ea_nodes a) f ((e_ids e).2 * 2 + 1) = (f (p_x (e_pts e).2) (p_y (e_pts e).2)).2).
    unfold motion. now rewrite D1, E1, H2.
Qed.

Lemma ssum_0 {B} (g : B -> A) l : (forall x, x ∈ l -> g x = 0) -> ssum (map g l) = 0.
Proof.
  induction l as [|x l IH]; intros H; [reflexivity|]. cbn [map]. rewrite (ssum_cons FL), H by left.
  rewrite IH by (intros y Hy; apply H; now right). ring.
Qed.

Lemma motion_force a f i : ea_ok a ->
  (forall e r s k, e ∈ ea_elems a -> (k < vec_len (e_cond e))%nat ->
     strain (b_c (xy (e_pts e).1.1) (xy (e_pts e).1.2) (xy (e_pts e).2) r s)
       (nodal f (xy (e_pts e).1.1) (xy (e_pts e).1.2) (xy (e_pts e).2)) k = 0) ->
  exists d, ea_calc_k a = Ret d /\ d_shape d = (node_count a * 2, node_count a * 2)%nat /\
    bigsum (node_count a * 2) (fun j => el d i j * motion (ea_nodes a) f j) = 0.
Proof.
  intros Hok Hf. destruct (assembled_k FL a Hok) as (d & E & W & Hs & V). exists d.
  split; [exact E|]. split; [exact Hs|].
  rewrite (bigsum_ext _ (fun j => contrib (concat (map (el_list K_c) (ea_elems a))) i j * motion (ea_nodes a) f j))
    by (intros j _; now rewrite V).
  rewrite (assembled_row FL a K_c i _ Hok).
  apply ssum_0. intros e Hin. apply (bigsum_0 FL). intros k _.
  destruct (Nat.eqb_spec (to_dof (e_dof e k)) i) as [_|_]; [|reflexivity].
  pose proof (proj2 Hok e Hin) as He.
  rewrite (bigsum_ext _ (fun j => K_c e k j * nodal f (xy (e_pts e).1.1) (xy (e_pts e).1.2) (xy (e_pts e).2) j))
    by (intros j Hj; now rewrite (loc_motion a e f j He Hj)).
  apply K_row_0. intros r s k' Hk'. now apply Hf.
Qed.
End alg.
