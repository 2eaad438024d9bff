(** Pictures over the real numbers. *)
From Coq Require Import Reals Lra.
From Verif Require Export BresProofs InstVis DivideR PredProofs.
Local Close Scope R_scope.

Lemma foldM_concat {X Y} (f : X -> list Y -> out (list Y)) (g : X -> list Y) l :
  (forall x s, x ∈ l -> f x s = Ret (s ++ g x)) -> forall s, foldM f l s = Ret (s ++ concat (map g l)).
Proof.
  induction l as [|x l IH]; intros H s; cbn [foldM map concat]; [now rewrite app_nil_r|].
  rewrite H by left. cbn [mbind out_bind]. rewrite IH by (intros y t Hy; apply H; now right). now rewrite app_assoc.
Qed.
Lemma zrange_in a b x : x ∈ zrange a b <-> (a <= x <= b)%Z.
Proof.
  unfold zrange. split.
  - intros H. apply elem_of_list_fmap in H as (i & -> & Hi). apply elem_of_seq in Hi. lia.
  - intros H. apply elem_of_list_fmap. exists (Z.to_nat (x - a)). split; [lia|]. apply elem_of_seq. lia.
Qed.

(** *** fills *)
Section fill.
Context {A : arith}.
Definition tri_box (p q r : pix) : list pix :=
  concat (map (fun x => map (fun y => (x, y)) (zrange (Z.min (Z.min p.2 q.2) r.2) (Z.max (Z.max p.2 q.2) r.2)))
              (zrange (Z.min (Z.min p.1 q.1) r.1) (Z.max (Z.max p.1 q.1) r.1))).
Lemma tri_box_in p q r z : z ∈ tri_box p q r <->
  (Z.min (Z.min p.1 q.1) r.1 <= z.1 <= Z.max (Z.max p.1 q.1) r.1 /\ Z.min (Z.min p.2 q.2) r.2 <= z.2 <= Z.max (Z.max p.2 q.2) r.2)%Z.
Proof.
  unfold tri_box. rewrite elem_of_list_In, in_concat. split.
  - intros (l & Hl & Hz). apply in_map_iff in Hl as (x & <- & Hx). apply in_map_iff in Hz as (y & <- & Hy).
    apply elem_of_list_In, zrange_in in Hx. apply elem_of_list_In, zrange_in in Hy. cbn. lia.
  - intros H. exists (map (fun y => (z.1, y)) (zrange (Z.min (Z.min p.2 q.2) r.2) (Z.max (Z.max p.2 q.2) r.2))). split.
    + apply in_map_iff. exists z.1. split; [reflexivity|]. apply elem_of_list_In, zrange_in. lia.
    + apply in_map_iff. exists z.2. split; [now destruct z|]. apply elem_of_list_In, zrange_in. lia.
Qed.
(** the three weights of a pixel *)
Definition weights (p q r z : pix) : A * A * A :=
  match bary_coor (A := A) (pix_pt z) (pix_pt p) (pix_pt q) (pix_pt r) with Ret w => w | _ => (s0, s0, s0) end.
Definition covered (p q r z : pix) : bool :=
  let w := weights p q r z in in_unit w.1.1 && in_unit w.1.2 && in_unit w.2.
Definition blend (w v : A * A * A) : A := sadd (sadd (smul w.1.1 v.1.1) (smul w.1.2 v.1.2)) (smul w.2 v.2).
Lemma bary_weights p q r z : bary_coor (A := A) (pix_pt z) (pix_pt p) (pix_pt q) (pix_pt r) = Ret (weights p q r z).
Proof. reflexivity. Qed.
Lemma fill_spec p q r v : triangle_interp (p, q, r) v =
  Ret (map (fun z => (z, blend (weights p q r z) v)) (List.filter (covered p q r) (tri_box p q r))).
Proof.
  unfold triangle_interp, tri_box.
  set (xs := zrange (Z.min (Z.min p.1 q.1) r.1) _). set (ys := zrange (Z.min (Z.min p.2 q.2) r.2) _).
  rewrite (foldM_concat _ (fun x => concat (map (fun y => if covered p q r (x, y) then [((x, y), blend (weights p q r (x, y)) v)] else []) ys))).
  - cbn [app]. f_equal. induction xs as [|x xs IH]; [reflexivity|]. cbn [map concat]. rewrite IH. clear IH.
    rewrite List.filter_app, map_app. f_equal. induction ys as [|y ys IH]; [reflexivity|]. cbn [map concat List.filter]. rewrite IH.
    destruct (covered p q r (x, y)); reflexivity.
  - intros x s _. apply foldM_concat. intros y t _. unfold in_triangle. rewrite bary_weights. cbn [mbind out_bind].
    change (in_unit _ && in_unit _ && in_unit _) with (covered p q r (x, y)). destruct (covered p q r (x, y)); cbn [mbind out_bind]; [reflexivity|now rewrite app_nil_r].
Qed.
Lemma dots_spec cx cy : (1 <= cx)%Z -> (cx + 1 < 2 ^ 32)%Z -> (1 <= cy)%Z -> (cy + 1 < 2 ^ 32)%Z ->
  exists l, dot_points cx cy = Ret l /\ forall z, z ∈ l <-> (Z.abs (z.1 - cx) <= 1 /\ Z.abs (z.2 - cy) <= 1)%Z.
Proof.
  intros H1 H2 H3 H4. unfold dot_points. rewrite (proj2 (Z.leb_le 1 cx) H1), (proj2 (Z.ltb_lt (cx + 1) (2 ^ 32)) H2), (proj2 (Z.leb_le 1 cy) H3), (proj2 (Z.ltb_lt (cy + 1) (2 ^ 32)) H4).
  cbn [andb assert_ mbind out_bind]. eexists. split; [reflexivity|]. intros z.
  rewrite elem_of_list_In, in_concat. split.
  - intros (l & Hl & Hz). apply in_map_iff in Hl as (x & <- & Hx). apply in_map_iff in Hz as (y & <- & Hy).
    apply elem_of_list_In, zrange_in in Hx. apply elem_of_list_In, zrange_in in Hy. cbn [fst snd]. lia.
  - intros H. exists (map (fun y => (z.1, y)) (zrange (cy - 1) (cy + 1))). split.
    + apply in_map_iff. exists z.1. split; [reflexivity|]. apply elem_of_list_In, zrange_in. lia.
    + apply in_map_iff. exists z.2. split; [now destruct z|]. apply elem_of_list_In, zrange_in. lia.
Qed.
End fill.
Definition inside (size : Z) (p : pix) : Prop := (0 <= p.1 < size /\ 0 <= p.2 < size)%Z.
Lemma put_pixel_in size im p c : inside size p -> put_pixel size im p c = Ret (im ++ [(p, c)]).
Proof. intros [H1 H2]. unfold put_pixel. destruct (Z.leb_spec 0 p.1), (Z.ltb_spec p.1 size), (Z.leb_spec 0 p.2), (Z.ltb_spec p.2 size); cbn [andb]; reflexivity || lia. Qed.
Lemma put_all_in size im l : Forall (fun pc => inside size pc.1) l -> put_pixels size im l = Ret (im ++ l).
Proof.
  intros H. unfold put_pixels. rewrite (foldM_concat _ (fun pc => [pc])).
  - do 2 f_equal. induction l as [|x l IH]; [reflexivity|]. cbn. rewrite IH; [reflexivity|]. now apply Forall_cons in H.
  - intros [p c] s Hx. apply put_pixel_in. exact (proj1 (Forall_forall _ _) H _ Hx).
Qed.

(** *** the whole picture, once the points are placed with a margin *)
Section picture.
Context {A : arith}.
Implicit Types v : visual A.
Definition margin (size : Z) (p : pix) : Prop := (2 <= p.1 <= size - 2 /\ 2 <= p.2 <= size - 2)%Z.
Definition dot_at (p : pix) : list pix := match dot_points p.1 p.2 with Ret l => l | _ => [] end.
(** pixels of the fills, of the edges and of the node markers *)
Definition fill_px (col : A -> rgb) (px : list pix) (vals : list A) (ts : list (nat * nat * nat)) : list (pix * rgb) :=
  concat (map (fun t : nat * nat * nat =>
    match px !! t.1.1, px !! t.1.2, px !! t.2, vals !! t.1.1, vals !! t.1.2, vals !! t.2 with
    | Some p, Some q, Some r, Some a, Some b, Some c =>
        map (fun z => (z, col (blend (weights p q r z) (a, b, c)))) (List.filter (covered (A := A) p q r) (tri_box p q r))
    | _, _, _, _, _, _ => []
    end) ts).
Definition edge_px (px : list pix) (es : list (nat * nat)) : list (pix * rgb) :=
  concat (map (fun e : nat * nat => match px !! e.1, px !! e.2 with
    | Some o, Some e => map (fun p => (p, (0, 255, 0)%Z)) (bres_line o e) | _, _ => [] end) es).
Definition dots_px (px : list pix) (cs : list nat) : list (pix * rgb) :=
  concat (map (fun pc : pix * nat => map (fun p => (p, nth pc.2 stdcol (0, 0, 0)%Z)) (dot_at pc.1)) (zip px cs)).
Definition all_px (col : A -> rgb) show v px : list (pix * rgb) :=
  (match vz_tris v, vz_vals v with Some ts, Some vals => fill_px col px vals ts | _, _ => [] end) ++
  (if show : bool then (match vz_edges v with Some es => edge_px px es | None => [] end) ++ dots_px px (vz_colors v) else []).

Definition tri_ok (n : nat) (t : nat * nat * nat) : Prop := t.1.1 < n /\ t.1.2 < n /\ t.2 < n.
Record drawable v : Prop := {
  dw_colors : Forall (fun c => c < 4) (vz_colors v);
  dw_tris : forall ts, vz_tris v = Some ts -> Forall (tri_ok (length (vz_points v))) ts;
  dw_vals : forall vals, vz_vals v = Some vals -> length vals = length (vz_points v) }.
Lemma concat_Forall {X} (P : X -> Prop) (ls : list (list X)) : Forall (Forall P) ls -> Forall P (concat ls).
Proof. induction 1; cbn; [constructor|]. apply Forall_app; auto. Qed.
Lemma fill_px_in col size px vals ts : Forall (margin size) px -> Forall (fun pc => inside size pc.1) (fill_px col px vals ts).
Proof.
  intros HM. apply concat_Forall, Forall_forall. intros l Hl. apply elem_of_list_fmap in Hl as (t & -> & Ht).
  destruct (px !! t.1.1) as [p|] eqn:Ep; [|constructor]. destruct (px !! t.1.2) as [q|] eqn:Eq; [|constructor]. destruct (px !! t.2) as [r|] eqn:Er; [|constructor].
  destruct (vals !! t.1.1); [|constructor]. destruct (vals !! t.1.2); [|constructor]. destruct (vals !! t.2); [|constructor].
  apply Forall_forall. intros pc Hpc. apply elem_of_list_fmap in Hpc as (z & -> & Hz). cbn.
  apply elem_of_list_In, filter_In in Hz as [Hz _]. apply elem_of_list_In, tri_box_in in Hz.
  pose proof (proj1 (Forall_forall _ _) HM _ (elem_of_list_lookup_2 _ _ _ Ep)) as [? ?].
  pose proof (proj1 (Forall_forall _ _) HM _ (elem_of_list_lookup_2 _ _ _ Eq)) as [? ?].
  pose proof (proj1 (Forall_forall _ _) HM _ (elem_of_list_lookup_2 _ _ _ Er)) as [? ?]. unfold inside. lia.
Qed.
Lemma edge_px_in size px es : Forall (margin size) px -> Forall (fun pc => inside size pc.1) (edge_px px es).
Proof.
  intros HM. apply concat_Forall, Forall_forall. intros l Hl. apply elem_of_list_fmap in Hl as (t & -> & Ht).
  destruct (px !! t.1) as [p|] eqn:Ep; [|constructor]. destruct (px !! t.2) as [q|] eqn:Eq; [|constructor].
  apply Forall_forall. intros pc Hpc. apply elem_of_list_fmap in Hpc as (z & -> & Hz). cbn.
  apply (ra_box _ _ _ (line_rastered p q)) in Hz.
  pose proof (proj1 (Forall_forall _ _) HM _ (elem_of_list_lookup_2 _ _ _ Ep)) as [? ?].
  pose proof (proj1 (Forall_forall _ _) HM _ (elem_of_list_lookup_2 _ _ _ Eq)) as [? ?]. unfold inside. lia.
Qed.
Lemma dot_at_spec size p : (size <= 2 ^ 32)%Z -> margin size p -> dot_points p.1 p.2 = Ret (dot_at p) /\
  forall z, z ∈ dot_at p <-> (Z.abs (z.1 - p.1) <= 1 /\ Z.abs (z.2 - p.2) <= 1)%Z.
Proof.
  intros Hs [H1 H2]. destruct (dots_spec p.1 p.2) as (l & E & Hl); [lia..|]. unfold dot_at. rewrite E. auto.
Qed.
Lemma dots_px_in size px cs : (size <= 2 ^ 32)%Z -> Forall (margin size) px -> Forall (fun pc => inside size pc.1) (dots_px px cs).
Proof.
  intros Hs HM. apply concat_Forall, Forall_forall. intros l Hl. apply elem_of_list_fmap in Hl as ([p c] & -> & Ht).
  apply elem_of_zip_l in Ht. pose proof (proj1 (Forall_forall _ _) HM _ Ht) as M. destruct (dot_at_spec size p Hs M) as (_ & D).
  apply Forall_forall. intros pc Hpc. apply elem_of_list_fmap in Hpc as (z & -> & Hz). cbn. apply D in Hz. destruct M. unfold inside. lia.
Qed.
Lemma draw_spec (ra : raster A) size cm show v coors px :
  (size <= 2 ^ 32)%Z -> drawable v -> vis_project v = Ret coors -> enpixel ra size coors = Ret px ->
  length px = length (vz_points v) -> Forall (margin size) px ->
  draw ra size cm show v = Ret (all_px (default (hot_map ra) cm) show v px) /\
  Forall (fun pc => inside size pc.1) (all_px (default (hot_map ra) cm) show v px).
Proof.
  intros Hs [D1 D2 D3] Ec Ep Hl HM. split.
  2:{ unfold all_px. apply Forall_app. split.
      - destruct (vz_tris v); [|constructor]. destruct (vz_vals v); [|constructor]. now apply fill_px_in.
      - destruct show; [|constructor]. apply Forall_app. split; [|now apply dots_px_in]. destruct (vz_edges v); [now apply edge_px_in|constructor]. }
  unfold draw, all_px. rewrite Ec. cbn [mbind out_bind]. rewrite Ep. cbn [mbind out_bind].
  set (col := default (hot_map ra) cm).
  assert (F : (match vz_tris v, vz_vals v with
        | Some ts, Some vals =>
            foldM (fun (t : nat * nat * nat) im =>
              p ← idx px t.1.1; q ← idx px t.1.2; r ← idx px t.2;
              a ← idx vals t.1.1; b ← idx vals t.1.2; c ← idx vals t.2;
              l ← triangle_interp (p, q, r) (a, b, c);
              put_pixels size im (map (fun pv : pix * A => (pv.1, col pv.2)) l)) ts []
        | _, _ => Ret []
        end) = Ret (match vz_tris v, vz_vals v with Some ts, Some vals => fill_px col px vals ts | _, _ => [] end)).
  { destruct (vz_tris v) as [ts|]; [|reflexivity]. destruct (vz_vals v) as [vals|]; [|reflexivity].
    pose proof (fill_px_in col size px vals ts HM) as FI. unfold fill_px in *.
    specialize (D2 ts eq_refl). specialize (D3 vals eq_refl).
    rewrite (foldM_concat _ (fun t : nat * nat * nat =>
      match px !! t.1.1, px !! t.1.2, px !! t.2, vals !! t.1.1, vals !! t.1.2, vals !! t.2 with
      | Some p, Some q, Some r, Some a, Some b, Some c =>
        map (fun z => (z, col (blend (weights p q r z) (a, b, c)))) (List.filter (covered (A := A) p q r) (tri_box p q r))
      | _, _, _, _, _, _ => []
      end)); [reflexivity|].
    intros t im Ht. pose proof (proj1 (Forall_forall _ _) D2 _ Ht) as (T1 & T2 & T3).
    assert (FI' : Forall (fun pc : pix * rgb => inside size pc.1) (match px !! t.1.1, px !! t.1.2, px !! t.2, vals !! t.1.1, vals !! t.1.2, vals !! t.2 with
      | Some p, Some q, Some r, Some a, Some b, Some c =>
        map (fun z => (z, col (blend (weights p q r z) (a, b, c)))) (List.filter (covered (A := A) p q r) (tri_box p q r))
      | _, _, _, _, _, _ => []
      end)).
    { apply Forall_forall. intros pc Hpc. apply (proj1 (Forall_forall _ _) FI). apply elem_of_list_In, in_concat. eexists. split; [|apply elem_of_list_In; exact Hpc].
      apply in_map_iff. exists t. split; [reflexivity|now apply elem_of_list_In]. }
    revert FI'. unfold idx, unwrap.
    destruct (lookup_lt_is_Some_2 px t.1.1) as (p & ->); [lia|]. destruct (lookup_lt_is_Some_2 px t.1.2) as (q & ->); [lia|]. destruct (lookup_lt_is_Some_2 px t.2) as (r & ->); [lia|].
    destruct (lookup_lt_is_Some_2 vals t.1.1) as (a & ->); [lia|]. destruct (lookup_lt_is_Some_2 vals t.1.2) as (b & ->); [lia|]. destruct (lookup_lt_is_Some_2 vals t.2) as (c & ->); [lia|].
    intros FI'. cbn [mbind out_bind]. rewrite fill_spec. cbn [mbind out_bind]. rewrite map_map. cbn [fst snd]. now apply put_all_in. }
  rewrite F. cbn [mbind out_bind]. clear F. set (fills := match vz_tris v with Some _ => _ | None => _ end). destruct show; [|now rewrite app_nil_r].
  assert (G : (match vz_edges v with
          | None => Ret fills
          | Some es =>
              foldM (fun (e : nat * nat) im =>
                match px !! e.1, px !! e.2 with
                | Some o, Some e => put_pixels size im (map (fun p => (p, (0, 255, 0)%Z)) (line_unsigned o e))
                | _, _ => Ret im
                end) es fills
          end) = Ret (fills ++ match vz_edges v with Some es => edge_px px es | None => [] end)).
  { destruct (vz_edges v) as [es|]; [|now rewrite app_nil_r]. apply foldM_concat. intros e im He.
    destruct (px !! e.1) as [o|] eqn:E1; [|now rewrite app_nil_r]. destruct (px !! e.2) as [e'|] eqn:E2; [|now rewrite app_nil_r].
    pose proof (proj1 (Forall_forall _ _) HM _ (elem_of_list_lookup_2 _ _ _ E1)) as [? ?].
    pose proof (proj1 (Forall_forall _ _) HM _ (elem_of_list_lookup_2 _ _ _ E2)) as [? ?].
    rewrite line_all by lia. apply put_all_in. apply Forall_forall. intros pc Hpc. apply elem_of_list_fmap in Hpc as (z & -> & Hz). cbn.
    apply (ra_box _ _ _ (line_rastered o e')) in Hz. unfold inside. lia. }
  rewrite G. cbn [mbind out_bind]. clear G. unfold dots_px. rewrite app_assoc. apply foldM_concat. intros [p c] im Hpc.
  pose proof (proj1 (Forall_forall _ _) HM _ (elem_of_zip_l _ _ _ _ Hpc)) as M. destruct (dot_at_spec size p Hs M) as (E & D). cbn [fst snd]. rewrite E. cbn [mbind out_bind fst snd].
  assert (Hc : c < 4). { apply elem_of_zip_r in Hpc. exact (proj1 (Forall_forall _ _) D1 _ Hpc). }
  rewrite (foldM_concat _ (fun d => [(d, nth c stdcol (0, 0, 0)%Z)])).
  - do 2 f_equal. generalize (dot_at p). intros l. clear. induction l as [|x l IH]; [reflexivity|]. cbn [map concat app]. now rewrite IH.
  - intros d s Hd. unfold idx, unwrap. destruct (lookup_lt_is_Some_2 stdcol c) as (k & Ek); [exact Hc|]. rewrite Ek. cbn [mbind out_bind].
    rewrite (nth_lookup_Some _ _ _ _ Ek). apply put_pixel_in. apply D in Hd. destruct M. unfold inside. lia.
Qed.
End picture.

(** *** placement over the reals *)
Local Open Scope R_scope.
Lemma abs_inv x y : Rabs x <= y -> - y <= x <= y.
Proof. unfold Rabs. destruct (Rcase_abs x); lra. Qed.
Lemma ltb_R x y : @sltb R_arith x y = true <-> x < y.
Proof. exact (R_ltb_iff x y). Qed.
Lemma ltb_R_false x y : @sltb R_arith x y = false <-> y <= x.
Proof. rewrite <- not_true_iff_false, ltb_R. lra. Qed.
Lemma scmp_R (x y : R) : exists c, scmp (A := R_arith) x y = Some c /\
  match c with Lt => x < y | Eq => x = y | Gt => y < x end.
Proof.
  unfold scmp. destruct (@sltb R_arith x y) eqn:E1; [exists Lt; split; [reflexivity|now apply ltb_R]|].
  destruct (@seqb R_arith x y) eqn:E2; [exists Eq; split; [reflexivity|now apply R_eqb_iff]|].
  destruct (@sltb R_arith y x) eqn:E3; [exists Gt; split; [reflexivity|now apply ltb_R]|].
  exfalso. apply ltb_R_false in E1, E3. apply not_true_iff_false in E2. apply E2, R_eqb_iff. lra.
Qed.
Lemma min_by_R (l : list R) : l <> [] -> exists m, Visual.min_by (A := R_arith) l = Ret m /\ m ∈ l /\ forall x, x ∈ l -> m <= x.
Proof.
  destruct l as [|x l]; [congruence|]. intros _. cbn [Visual.min_by].
  enough (K : forall l x, exists m, foldM (fun y m => c ← unwrap (scmp (A := R_arith) m y); Ret (match c with Gt => y | _ => m end)) l x = Ret m /\ m ∈ x :: l /\ forall y, y ∈ x :: l -> m <= y) by apply K.
  clear. induction l as [|y l IH]; intros x.
  - exists x. split; [reflexivity|]. split; [left|]. intros y Hy. apply elem_of_list_singleton in Hy. subst. lra.
  - cbn [foldM]. destruct (scmp_R x y) as (c & Ec & Hc). rewrite Ec. cbn [unwrap mbind out_bind].
    set (z := match c with Gt => y | _ => x end). assert (Hz : (z = x \/ z = y) /\ z <= x /\ z <= y) by (unfold z; destruct c; split; auto; lra).
    destruct (IH z) as (m & E & Hm & Hle). exists m. split; [exact E|]. destruct Hz as (Hz & Z1 & Z2). pose proof (Hle z (elem_of_list_here _ _)). split.
    + apply elem_of_cons in Hm as [-> |Hm]; [destruct Hz as [-> | ->]; [left|right; left]|right; right; exact Hm].
    + intros w Hw. apply elem_of_cons in Hw as [-> |Hw]; [lra|]. apply elem_of_cons in Hw as [-> |Hw]; [lra|]. apply Hle. now right.
Qed.
Lemma max_by_R (l : list R) : l <> [] -> exists m, Visual.max_by (A := R_arith) l = Ret m /\ m ∈ l /\ forall x, x ∈ l -> x <= m.
Proof.
  destruct l as [|x l]; [congruence|]. intros _. cbn [Visual.max_by].
  enough (K : forall l x, exists m, foldM (fun y m => c ← unwrap (scmp (A := R_arith) m y); Ret (match c with Gt => m | _ => y end)) l x = Ret m /\ m ∈ x :: l /\ forall y, y ∈ x :: l -> y <= m) by apply K.
  clear. induction l as [|y l IH]; intros x.
  - exists x. split; [reflexivity|]. split; [left|]. intros y Hy. apply elem_of_list_singleton in Hy. subst. lra.
  - cbn [foldM]. destruct (scmp_R x y) as (c & Ec & Hc). rewrite Ec. cbn [unwrap mbind out_bind].
    set (z := match c with Gt => x | _ => y end). assert (Hz : (z = x \/ z = y) /\ x <= z /\ y <= z) by (unfold z; destruct c; split; auto; lra).
    destruct (IH z) as (m & E & Hm & Hle). exists m. split; [exact E|]. destruct Hz as (Hz & Z1 & Z2). pose proof (Hle z (elem_of_list_here _ _)). split.
    + apply elem_of_cons in Hm as [-> |Hm]; [destruct Hz as [-> | ->]; [left|right; left]|right; right; exact Hm].
    + intros w Hw. apply elem_of_cons in Hw as [-> |Hw]; [lra|]. apply elem_of_cons in Hw as [-> |Hw]; [lra|]. apply Hle. now right.
Qed.
Lemma round_near x : 0 <= x -> Rabs (IZR (R_round x) - x) <= / 2 /\ (0 <= R_round x)%Z.
Proof.
  intros H. unfold R_round. destruct (Rle_dec 0 x); [|lra]. destruct (base_Int_part (x + / 2)) as [B1 B2]. split.
  - apply Rabs_le. lra.
  - apply (IZR_lt_le 0 _). lra.
Qed.
Lemma u32_near x : 0 <= x <= IZR (2 ^ 31) -> Rabs (IZR (ra_u32 R_raster x) - x) <= / 2.
Proof.
  intros [H1 H2]. destruct (round_near x H1) as [R1 R2]. cbn [ra_u32 R_raster]. unfold sat.
  assert ((R_round x <= 2 ^ 31 + 1)%Z).
  { apply IZR_lt_le. rewrite plus_IZR. apply abs_inv in R1. lra. }
  unfold u32_max. rewrite Z.min_r, Z.max_r by lia. exact R1.
Qed.

Record placed (size : Z) (coors : list (R * R)) (px : list pix) (s mx my : R) : Prop := {
  pl_scale : 0 < s;
  pl_len : length px = length coors;
  pl_at : forall i (p : R * R) z, coors !! i = Some p -> px !! i = Some z ->
    Rabs (IZR z.1 - (IZR size / 2 + s * (p.1 - mx))) <= / 2 /\ Rabs (IZR z.2 - (IZR size / 2 - s * (p.2 - my))) <= / 2;
  pl_margin : forall i z, px !! i = Some z ->
    IZR size / 10 - / 2 <= IZR z.1 <= 9 * IZR size / 10 + / 2 /\ IZR size / 10 - / 2 <= IZR z.2 <= 9 * IZR size / 10 + / 2;
  pl_full : exists i j (p q : R * R), coors !! i = Some p /\ coors !! j = Some q /\
    (s * (q.1 - p.1) = 8 * IZR size / 10 \/ s * (q.2 - p.2) = 8 * IZR size / 10) }.
Lemma enpixel_R (size : Z) (coors : list (R * R)) p q : (1 <= size <= 2 ^ 31)%Z -> p ∈ coors -> q ∈ coors -> p <> q ->
  exists px s mx my, enpixel (A := R_arith) R_raster size coors = Ret px /\ placed size coors px s mx my.
Proof.
  intros Hsz Hp Hq Hpq. unfold enpixel.
  assert (Hx : forall p : R * R, p ∈ coors -> fst p ∈ map fst coors) by (intros r Hr; apply elem_of_list_fmap; eauto).
  assert (Hy : forall p : R * R, p ∈ coors -> snd p ∈ map snd coors) by (intros r Hr; apply elem_of_list_fmap; eauto).
  assert (Nx : map fst coors <> []) by (intros E; specialize (Hx p Hp); rewrite E in Hx; now apply elem_of_nil in Hx).
  assert (Ny : map snd coors <> []) by (intros E; specialize (Hy p Hp); rewrite E in Hy; now apply elem_of_nil in Hy).
  destruct (max_by_R _ Nx) as (xM & ExM & IxM & HxM). destruct (min_by_R _ Nx) as (xm & Exm & Ixm & Hxm).
  destruct (max_by_R _ Ny) as (yM & EyM & IyM & HyM). destruct (min_by_R _ Ny) as (ym & Eym & Iym & Hym).
  change (carrier R_arith) with R in *.
  rewrite ExM. cbn [mbind out_bind]. rewrite Exm. cbn [mbind out_bind]. rewrite EyM. cbn [mbind out_bind]. rewrite Eym. cbn [mbind out_bind].
  set (mr := if @sltb R_arith _ _ then _ else _).
  assert (Hmr : mr = Rmax (xM - xm) (yM - ym)).
  { unfold mr. destruct (sltb _ _) eqn:E; [apply ltb_R in E|apply ltb_R_false in E]; cbn [ssub R_arith] in *; [rewrite Rmax_left by lra|rewrite Rmax_right by lra]; reflexivity. }
  assert (Mpos : 0 < mr).
  { rewrite Hmr. destruct p as [p1 p2], q as [q1 q2].
    pose proof (HxM _ (Hx _ Hp)). pose proof (HxM _ (Hx _ Hq)). pose proof (Hxm _ (Hx _ Hp)). pose proof (Hxm _ (Hx _ Hq)).
    pose proof (HyM _ (Hy _ Hp)). pose proof (HyM _ (Hy _ Hq)). pose proof (Hym _ (Hy _ Hp)). pose proof (Hym _ (Hy _ Hq)). cbn [fst snd] in *.
    pose proof (Rmax_l (xM - xm) (yM - ym)). pose proof (Rmax_r (xM - xm) (yM - ym)).
    destruct (Req_dec p1 q1) as [E|E]; [destruct (Req_dec p2 q2) as [E'|E']; [congruence|]|]; lra. }
  assert (Mx : xM - xm <= mr) by (rewrite Hmr; apply Rmax_l). assert (My : yM - ym <= mr) by (rewrite Hmr; apply Rmax_r).
  set (scaling := @sdiv R_arith _ _). set (mx := @sdiv R_arith _ _). set (my := @sdiv R_arith _ _).
  assert (Es : scaling = 8 * IZR size / 10 / mr).
  { unfold scaling, slit. rewrite !sz_R. req. field. lra. }
  assert (Emx : mx = (xM + xm) / 2) by (unfold mx; rewrite sz_R; reflexivity).
  assert (Emy : my = (yM + ym) / 2) by (unfold my; rewrite sz_R; reflexivity).
  assert (Z1 : 1 <= IZR size) by (apply IZR_le; lia). assert (Z2 : IZR size <= IZR (2 ^ 31)) by (apply IZR_le; lia).
  assert (Spos : 0 < scaling) by (rewrite Es; apply Rdiv_lt_0_compat; lra).
  assert (Smr : scaling * mr = 8 * IZR size / 10) by (rewrite Es; field; lra).
  assert (Near : forall r : R * R, r ∈ coors -> - (4 * IZR size / 10) <= scaling * (fst r - mx) <= 4 * IZR size / 10 /\ - (4 * IZR size / 10) <= scaling * (snd r - my) <= 4 * IZR size / 10).
  { intros r Hr. pose proof (HxM _ (Hx _ Hr)). pose proof (Hxm _ (Hx _ Hr)). pose proof (HyM _ (Hy _ Hr)). pose proof (Hym _ (Hy _ Hr)).
    assert (B : forall d, - mr / 2 <= d <= mr / 2 -> - (4 * IZR size / 10) <= scaling * d <= 4 * IZR size / 10).
    { intros d [D1 D2]. apply (Rmult_le_compat_l scaling) in D1; [|lra]. apply (Rmult_le_compat_l scaling) in D2; [|lra]. lra. }
    split; apply B; lra. }
  assert (Pl : forall r : R * R, r ∈ coors -> place (A := R_arith) size scaling mx my r =
     (IZR size / 2 + scaling * (fst r - mx), IZR size / 2 - scaling * (snd r - my))).
  { intros [r1 r2] Hr. clear Near. unfold place. rewrite !sz_R. cbn [fst snd sadd ssub smul sdiv sneg s1 R_arith]. f_equal; req; unfold Rdiv; ring. }
  eexists _, scaling, mx, my. split; [reflexivity|]. split.
  - exact Spos.
  - apply map_length.
  - intros i r z Hr Hz. change (map ?f coors) with (f <$> coors) in Hz. rewrite list_lookup_fmap, Hr in Hz. apply (inj Some) in Hz. subst z. cbn [fst snd].
    apply elem_of_list_lookup_2 in Hr. destruct (Near r Hr) as [N1 N2]. rewrite (Pl r Hr). cbn [fst snd].
    split; apply u32_near; lra.
  - intros i z Hz. change (map ?f coors) with (f <$> coors) in Hz. rewrite list_lookup_fmap in Hz. destruct (coors !! i) as [r|] eqn:Hr; [|discriminate]. apply (inj Some) in Hz. subst z. cbn [fst snd].
    apply elem_of_list_lookup_2 in Hr. destruct (Near r Hr) as [N1 N2]. rewrite (Pl r Hr). cbn [fst snd].
    pose proof (u32_near (IZR size / 2 + scaling * (fst r - mx)) ltac:(lra)) as U1. pose proof (u32_near (IZR size / 2 - scaling * (snd r - my)) ltac:(lra)) as U2.
    apply abs_inv in U1, U2. lra.
  - apply elem_of_list_fmap in IxM as (a & Ea & Ia), Ixm as (b & Eb & Ib), IyM as (c & Ec & Ic), Iym as (d & Ed & Id).
    apply elem_of_list_lookup in Ia as (i & Ia), Ib as (j & Ib), Ic as (k & Ic), Id as (l & Id).
    destruct (Rle_dec (xM - xm) (yM - ym)) as [C|C].
    + exists l, k, d, c. split; [exact Id|]. split; [exact Ic|]. right. rewrite <- Ec, <- Ed. rewrite Rmax_right in Hmr by lra. rewrite <- Hmr. exact Smr.
    + exists j, i, b, a. split; [exact Ib|]. split; [exact Ia|]. left. rewrite <- Ea, <- Eb. rewrite Rmax_left in Hmr by lra. rewrite <- Hmr. exact Smr.
Qed.
Lemma placed_margin size coors px s mx my : (25 <= size)%Z -> placed size coors px s mx my -> Forall (margin size) px.
Proof.
  intros Hs P. apply Forall_forall. intros z Hz. apply elem_of_list_lookup in Hz as (i & Hi). destruct (pl_margin _ _ _ _ _ _ P i z Hi) as [M1 M2].
  assert (IZR 25 <= IZR size) by (apply IZR_le; exact Hs). unfold margin.
  assert (B : forall w, IZR size / 10 - / 2 <= IZR w <= 9 * IZR size / 10 + / 2 -> (2 <= w <= size - 2)%Z).
  { intros w [W1 W2]. split; apply le_IZR; [|rewrite minus_IZR]; lra. }
  split; apply B; assumption.
Qed.
Lemma placed_aspect size coors px s mx my : placed size coors px s mx my ->
  forall i j (p q : R * R) z w, coors !! i = Some p -> coors !! j = Some q -> px !! i = Some z -> px !! j = Some w ->
    Rabs (IZR (w.1 - z.1) - s * (fst q - fst p)) <= 1 /\ Rabs (IZR (w.2 - z.2) + s * (snd q - snd p)) <= 1.
Proof.
  intros P i j p q z w Hp Hq Hz Hw. destruct (pl_at _ _ _ _ _ _ P i p z Hp Hz) as [A1 A2]. destruct (pl_at _ _ _ _ _ _ P j q w Hq Hw) as [B1 B2].
  rewrite !minus_IZR. apply abs_inv in A1, A2, B1, B2. split; apply Rabs_le; lra.
Qed.

(** *** colours *)
Lemma clamp_R lo hi x : lo <= hi -> clamp (A := R_arith) lo hi x = Rmax lo (Rmin hi x).
Proof.
  intros H. unfold clamp. destruct (@sltb R_arith x lo) eqn:E1; [apply ltb_R in E1; rewrite Rmin_right, Rmax_left by lra; reflexivity|]. apply ltb_R_false in E1.
  destruct (@sltb R_arith hi x) eqn:E2; [apply ltb_R in E2; rewrite Rmin_left, Rmax_right by lra; reflexivity|]. apply ltb_R_false in E2.
  rewrite Rmin_right, Rmax_right by lra. reflexivity.
Qed.
Lemma clamp_le lo hi x y : lo <= hi -> x <= y -> clamp (A := R_arith) lo hi x <= clamp (A := R_arith) lo hi y.
Proof.
  intros H Hxy. rewrite !clamp_R by exact H. apply Rle_max_compat_l. now apply Rle_min_compat_l.
Qed.
Lemma clamp_in lo hi x : lo <= hi -> lo <= clamp (A := R_arith) lo hi x <= hi.
Proof.
  intros H. rewrite clamp_R by exact H. split; [apply Rmax_l|]. apply Rmax_lub; [exact H|apply Rmin_l].
Qed.
Lemma clamp_mid lo hi x : lo <= x <= hi -> clamp (A := R_arith) lo hi x = x.
Proof. intros [H1 H2]. rewrite clamp_R by lra. rewrite Rmin_right, Rmax_right by lra. reflexivity. Qed.
Lemma fmin_R x y : fmin (A := R_arith) x y = Rmin x y.
Proof.
  unfold fmin. replace (@seqb R_arith x x) with true by (symmetry; now apply R_eqb_iff). cbn [negb]. rewrite orb_false_r.
  destruct (@sltb R_arith y x) eqn:E; [apply ltb_R in E; rewrite Rmin_right by lra|apply ltb_R_false in E; rewrite Rmin_left by lra]; reflexivity.
Qed.
Lemma fmax_R x y : fmax (A := R_arith) x y = Rmax x y.
Proof.
  unfold fmax. replace (@seqb R_arith x x) with true by (symmetry; now apply R_eqb_iff). cbn [negb]. rewrite orb_false_r.
  destruct (@sltb R_arith x y) eqn:E; [apply ltb_R in E; rewrite Rmax_right by lra|apply ltb_R_false in E; rewrite Rmax_left by lra]; reflexivity.
Qed.
Lemma round_mono x y : 0 <= x <= y -> (R_round x <= R_round y)%Z.
Proof.
  intros [H1 H2]. unfold R_round. destruct (Rle_dec 0 x); [|lra]. destruct (Rle_dec 0 y); [|lra].
  destruct (base_Int_part (x + / 2)), (base_Int_part (y + / 2)). apply IZR_lt_le. lra.
Qed.
Lemma round_int z : (0 <= z)%Z -> R_round (IZR z) = z.
Proof.
  intros H. assert (0 <= IZR z) by (apply IZR_le; exact H). unfold R_round. destruct (Rle_dec 0 (IZR z)); [|lra].
  destruct (base_Int_part (IZR z + / 2)). apply Z.le_antisymm; apply IZR_lt_le; lra.
Qed.
Lemma u8_mono x y : 0 <= x <= y -> (ra_u8 R_raster x <= ra_u8 R_raster y)%Z.
Proof. intros H. cbn [ra_u8 R_raster]. unfold sat. pose proof (round_mono x y H). lia. Qed.
Lemma u8_range x : (0 <= ra_u8 R_raster x <= 255)%Z.
Proof. cbn [ra_u8 R_raster]. unfold sat. lia. Qed.
Definition hot_r (v : R) : R := Rmax (Rmin v 1) 0.
Lemma hot_R v : hot_map (A := R_arith) R_raster v =
  (ra_u8 R_raster (clamp (A := R_arith) 0 255 (hot_r v * 3 * 255)), ra_u8 R_raster (clamp (A := R_arith) 0 255 ((hot_r v * 3 - 1) * 255)),
   ra_u8 R_raster (clamp (A := R_arith) 0 255 ((hot_r v * 3 - 2) * 255))).
Proof. unfold hot_map. rewrite fmin_R, fmax_R, !sz_R. reflexivity. Qed.
Lemma hot_range v : let c := hot_map (A := R_arith) R_raster v in (0 <= c.1.1 <= 255 /\ 0 <= c.1.2 <= 255 /\ 0 <= c.2 <= 255)%Z.
Proof. cbv zeta. rewrite hot_R. cbn [fst snd]. repeat split; apply u8_range. Qed.
Lemma hot_mono v w : v <= w -> let c := hot_map (A := R_arith) R_raster v in let d := hot_map (A := R_arith) R_raster w in
  (c.1.1 <= d.1.1 /\ c.1.2 <= d.1.2 /\ c.2 <= d.2)%Z.
Proof.
  intros H. cbv zeta. rewrite !hot_R. cbn [fst snd].
  assert (Hr : hot_r v <= hot_r w) by (unfold hot_r; apply Rle_max_compat_r; now apply Rle_min_compat_r).
  repeat split; apply u8_mono; (split; [apply clamp_in; lra|apply clamp_le; lra]).
Qed.
Lemma u8_int z : (0 <= z <= 255)%Z -> ra_u8 R_raster (IZR z) = z.
Proof. intros H. cbn [ra_u8 R_raster]. rewrite round_int by lia. unfold sat. lia. Qed.
Lemma clamp_low lo hi x : lo <= hi -> x <= lo -> clamp (A := R_arith) lo hi x = lo.
Proof. intros H1 H2. rewrite clamp_R by exact H1. rewrite Rmin_right by lra. apply Rmax_left. exact H2. Qed.
Lemma clamp_high lo hi x : lo <= hi -> hi <= x -> clamp (A := R_arith) lo hi x = hi.
Proof. intros H1 H2. rewrite clamp_R by exact H1. rewrite Rmin_left by lra. apply Rmax_right. exact H1. Qed.
Lemma hot_black v : v <= 0 -> hot_map (A := R_arith) R_raster v = (0, 0, 0)%Z.
Proof.
  intros H. rewrite hot_R. assert (E : hot_r v = 0) by (unfold hot_r; rewrite Rmin_left, Rmax_right by lra; reflexivity).
  rewrite E. rewrite !clamp_low by lra. now rewrite (u8_int 0) by lia.
Qed.
Lemma hot_white v : 1 <= v -> hot_map (A := R_arith) R_raster v = (255, 255, 255)%Z.
Proof.
  intros H. rewrite hot_R. assert (E : hot_r v = 1) by (unfold hot_r; rewrite Rmin_right, Rmax_left by lra; reflexivity).
  rewrite E. rewrite !clamp_high by lra. now rewrite (u8_int 255) by lia.
Qed.
Lemma set_vals_R (v : visual R_arith) (vals : list R) x y : length vals = length (vz_points v) -> x ∈ vals -> y ∈ vals -> x <> y ->
  exists lo hi v', set_vals v vals = Ret v' /\ lo ∈ vals /\ hi ∈ vals /\ (forall z, z ∈ vals -> lo <= z <= hi) /\ lo < hi /\
    vz_range v' = Some (lo, hi) /\ vz_points v' = vz_points v /\
    vz_vals v' = Some (map (fun z => (z - lo) / (hi - lo)) vals).
Proof.
  intros Hl Hx Hy Hxy. assert (N : vals <> []) by (intros ->; now apply elem_of_nil in Hx).
  destruct (min_by_R vals N) as (lo & El & Il & Hlo). destruct (max_by_R vals N) as (hi & Eh & Ih & Hhi).
  pose proof (Hlo x Hx). pose proof (Hlo y Hy). pose proof (Hhi x Hx). pose proof (Hhi y Hy). assert (lo < hi) by lra.
  exists lo, hi. eexists. split.
  - unfold set_vals. change (carrier R_arith) with R in *. rewrite (proj2 (Nat.eqb_eq _ _) Hl). cbn [negb]. change (carrier R_arith) with R in *. rewrite El. cbn [mbind out_bind]. rewrite Eh. cbn [mbind out_bind]. reflexivity.
  - cbn [vz_range vz_vals vz_points]. split; [exact Il|]. split; [exact Ih|]. split; [auto|]. split; [assumption|]. split; [reflexivity|]. split; [reflexivity|].
    f_equal. apply map_ext_in. intros z Hz. apply elem_of_list_In in Hz. pose proof (Hlo z Hz). pose proof (Hhi z Hz). unfold scaled. apply clamp_mid.
    cbn [ssub sdiv R_arith s0 s1]. assert (0 < hi - lo) by lra. split.
    + apply Rmult_le_pos; [lra|]. left. now apply Rinv_0_lt_compat.
    + apply (Rmult_le_reg_r (hi - lo)); [lra|]. unfold Rdiv. rewrite Rmult_assoc, Rinv_l by lra. lra.
Qed.
