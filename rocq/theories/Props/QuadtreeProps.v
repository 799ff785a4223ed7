(** C24: the quadtree never loses a match. *)
From Verif.Model Require Export Quadtree.
From Verif.Spec Require Export Plane.
From Verif.Props Require Export AabbProps.
From Verif.Proofs Require Export PolyP.

(** a real (non-NaN) box with the corners in order, and the points in it *)
Definition real_box (b : aabb) : Prop :=
  exists l u, b = AABB (Some l) (Some u) /\ fst l <= fst u /\ snd l <= snd u.
Definition pt_in (b : aabb) (p : point) : Prop :=
  exists l u, b = AABB (Some l) (Some u) /\ fst l <= fst u /\ snd l <= snd u /\ in_box l u p.

Lemma isect_pt b s p : pt_in b p -> on_seg s p -> seg_isect s b = true.
Proof.
  intros (l & u & -> & H1 & H2 & H3) H4. unfold seg_isect. apply aabb_intersects_segment_exact; eauto.
Qed.

Lemma seg_eqb_eq s r : seg_eqb s r = true <-> s = r.
Proof.
  unfold seg_eqb. rewrite andb_true_iff. destruct s as [a b], r as [c d]. cbn.
  destruct (pt_eqb_spec a c), (pt_eqb_spec b d); split; intros H; try (destruct H; congruence);
    try (apply pair_inv in H; destruct H; congruence); subst; auto.
Qed.
Lemma set_add_in x s y : In y (set_add seg_eqb x s) <-> y = x \/ In y s.
Proof.
  unfold set_add, set_mem. destruct (existsb (seg_eqb x) s) eqn:E.
  - apply existsb_exists in E. destruct E as (z & Hz & E). apply seg_eqb_eq in E. subst z.
    split; [auto|]. intros [->|]; auto.
  - rewrite in_app_iff. cbn. intuition.
Qed.

Local Arguments set_add : simpl never.
Lemma box_from_eq a b c d : box_from (Some a, Some b) (Some c, Some d) = AABB (Some (a, c)) (Some (b, d)).
Proof. reflexivity. Qed.

Lemma split_covers b p : pt_in b p ->
  let '(b0, b1, b2, b3) := split_boxes b in pt_in b0 p \/ pt_in b1 p \/ pt_in b2 p \/ pt_in b3 p.
Proof.
  intros ([lx ly] & [ux uy] & -> & H1 & H2 & H3). destruct p as [x y]. cbn in H1, H2.
  unfold in_box in H3. cbn in H3. destruct H3 as (A1 & A2 & A3 & A4).
  unfold split_boxes. cbn [AABB nv lower upper fst snd n_add n2 n_half].
  rewrite !box_from_eq. rewrite !qdiv_half.
  unfold pt_in.
  destruct (qleb_spec x (qq 1 2 * (ux + lx))), (qleb_spec y (qq 1 2 * (uy + ly))).
  - left. do 2 eexists. split; [reflexivity|]. unfold in_box; cbn. repeat split; try qlra.
  - right; left. do 2 eexists. split; [reflexivity|]. unfold in_box; cbn. repeat split; try qlra.
  - right; right; left. do 2 eexists. split; [reflexivity|]. unfold in_box; cbn. repeat split; try qlra.
  - right; right; right. do 2 eexists. split; [reflexivity|]. unfold in_box; cbn. repeat split; try qlra.
Qed.

Notation qn := (qnode segment).
(** every point of a node's box is in a child's box *)
Fixpoint qwf (n : qn) : Prop :=
  match n with
  | QLeaf _ _ => True
  | QSplit b _ c0 c1 c2 c3 =>
      (forall p, pt_in b p -> pt_in (q_box c0) p \/ pt_in (q_box c1) p \/ pt_in (q_box c2) p \/ pt_in (q_box c3) p)
      /\ qwf c0 /\ qwf c1 /\ qwf c2 /\ qwf c3
  end.
(** s is stored at a node on a path of boxes that all contain p *)
Fixpoint holds (n : qn) (s : segment) (p : point) : Prop :=
  match n with
  | QLeaf b items => pt_in b p /\ In s items
  | QSplit b items c0 c1 c2 c3 =>
      pt_in b p /\ (In s items \/ holds c0 s p \/ holds c1 s p \/ holds c2 s p \/ holds c3 s p)
  end.
(** s is stored somewhere *)
Fixpoint stored (n : qn) (s : segment) : Prop :=
  match n with
  | QLeaf _ items => In s items
  | QSplit _ items c0 c1 c2 c3 => In s items \/ stored c0 s \/ stored c1 s \/ stored c2 s \/ stored c3 s
  end.

Section T.
Variable th : nat.
Notation add := (q_add seg_eqb seg_isect th).

Lemma leaf_add_box b it x : q_box (leaf_add seg_eqb seg_isect b it x) = b.
Proof. unfold leaf_add. destruct (seg_isect x b); reflexivity. Qed.
Lemma leaf_add_wf b it x : qwf (leaf_add seg_eqb seg_isect b it x).
Proof. unfold leaf_add. destruct (seg_isect x b); exact I. Qed.
Lemma leaf_add_holds b it x p : on_seg x p -> pt_in b p -> holds (leaf_add seg_eqb seg_isect b it x) x p.
Proof.
  intros H1 H2. unfold leaf_add. rewrite (isect_pt b x p H2 H1). cbn. rewrite set_add_in. auto.
Qed.
Lemma leaf_add_stored b x s : stored (leaf_add seg_eqb seg_isect b [] x) s -> s = x.
Proof. unfold leaf_add. destruct (seg_isect x b); cbn; [rewrite set_add_in|]; cbn; tauto. Qed.

Lemma add_box n x al : q_box (add n x al) = q_box n.
Proof.
  destruct n; cbn [q_add]; destruct (seg_isect x _); cbn [negb q_box]; auto.
  destruct (_ && _); auto.
Qed.
Lemma add_qwf n x al : qwf n -> qwf (add n x al).
Proof.
  induction n; cbn [q_add q_box]; intros W; destruct (seg_isect x box); cbn [negb]; auto.
  - destruct (_ && _); [|exact I]. pose proof (split_covers box) as Hc.
    destruct (split_boxes box) as [[[b0 b1] b2] b3]. cbn [qwf]. rewrite !leaf_add_box.
    repeat split; auto using leaf_add_wf.
  - destruct W as (W0 & W1 & W2 & W3 & W4). cbn [qwf]. rewrite !add_box. repeat split; auto.
Qed.
Lemma add_holds_new n x al p : qwf n -> on_seg x p -> pt_in (q_box n) p -> holds (add n x al) x p.
Proof.
  induction n; intros W H1 H2; cbn [q_add q_box] in *; rewrite (isect_pt _ _ _ H2 H1); cbn [negb].
  - destruct (_ && _).
    + pose proof (split_covers box p H2) as Hc. destruct (split_boxes box) as [[[b0 b1] b2] b3].
      cbn [holds]. split; auto. right. intuition auto using leaf_add_holds.
    + cbn. rewrite set_add_in. auto.
  - destruct W as (W0 & W1 & W2 & W3 & W4). cbn [holds]. split; auto. right.
    destruct (W0 p H2) as [G|[G|[G|G]]]; auto 10.
Qed.
Lemma add_holds_old n x al s p : holds n s p -> holds (add n x al) s p.
Proof.
  induction n; intros H; cbn [q_add q_box]; destruct (seg_isect x box); cbn [negb]; auto.
  - destruct (_ && _).
    + destruct (split_boxes box) as [[[b0 b1] b2] b3]. cbn in *. tauto.
    + cbn in *. rewrite set_add_in. tauto.
  - cbn [holds] in *. intuition.
Qed.
Lemma add_stored n x al s : stored (add n x al) s -> s = x \/ stored n s.
Proof.
  induction n; cbn [q_add q_box]; destruct (seg_isect x box); cbn [negb]; auto.
  - destruct (_ && _).
    + destruct (split_boxes box) as [[[b0 b1] b2] b3]. cbn [stored].
      intros [H|[H|[H|[H|H]]]]; auto; apply leaf_add_stored in H; auto.
    + cbn. rewrite set_add_in. tauto.
  - cbn [stored]. intuition.
Qed.
Lemma find_holds n s p pred : holds n s p -> (forall b, pt_in b p -> pred b = true) -> In s (q_find n pred).
Proof.
  intros H P. induction n; cbn [q_find q_box]; cbn [holds] in H; destruct H as (H1 & H2);
    rewrite (P box H1); cbn [negb]; auto.
  rewrite !in_app_iff. intuition.
Qed.
Lemma find_stored n s pred : In s (q_find n pred) -> stored n s.
Proof.
  induction n; cbn [q_find q_box]; destruct (pred box); cbn [negb In]; try tauto; cbn [stored].
  rewrite !in_app_iff. intuition.
Qed.

Lemma fold_add_spec items n :
  qwf n -> let n' := fold_left (fun n x => add n x true) items n in
  qwf n' /\ q_box n' = q_box n /\ (forall s p, In s items -> on_seg s p -> pt_in (q_box n) p -> holds n' s p)
  /\ (forall s p, holds n s p -> holds n' s p)
  /\ (forall s, stored n' s -> stored n s \/ In s items).
Proof.
  revert n. induction items as [|x items IH]; intros n W; cbn [fold_left].
  - split; [exact W|]. split; [reflexivity|]. split; [intros ? ? []|]. auto.
  - destruct (IH (add n x true) (add_qwf _ _ _ W)) as (I1 & I2 & I3 & I4 & I5). rewrite add_box in *.
    split; [exact I1|]. split; [exact I2|]. split; [|split].
    + intros s p [<-|H] H1 H2; [apply I4, add_holds_new; auto | auto].
    + intros s p H. apply I4, add_holds_old, H.
    + intros s H. destruct (I5 s H) as [G|G]; [apply add_stored in G|]; cbn; intuition.
Qed.

Lemma items_box_eq items : items_box items = from_points (flat_map (fun s => [fst s; snd s]) items).
Proof.
  unfold items_box, from_points. generalize (AABB None None). induction items as [|s items IH]; intros b; cbn; auto.
Qed.

Lemma items_box_in items s p : In s items -> on_seg s p -> pt_in (items_box items) p.
Proof.
  intros H1 H2. rewrite items_box_eq. set (l := flat_map _ items).
  assert (Hl : In (fst s) l /\ In (snd s) l) by (split; apply in_flat_map; exists s; cbn; auto).
  destruct Hl as (L1 & L2).
  pose proof (box_of_from l) as B. unfold box_of in B.
  destruct l as [|p0 l]; [destruct L1|]. destruct B as (lx & ly & ux & uy & -> & B1 & B2 & B3 & B4).
  destruct B1 as (_ & B1), B2 as (_ & B2), B3 as (_ & B3), B4 as (_ & B4).
  pose proof (B1 _ L1); pose proof (B1 _ L2); pose proof (B2 _ L1); pose proof (B2 _ L2).
  pose proof (B3 _ L1); pose proof (B3 _ L2); pose proof (B4 _ L1); pose proof (B4 _ L2).
  exists (lx, ly), (ux, uy). split; [reflexivity|]. cbn [fst snd].
  destruct H2 as (t & T1 & T2 & ->). destruct s as [[x0 y0] [x1 y1]].
  unfold at_t, vadd, vscale, vsub, in_box; cbn [fst snd] in *.
  clear B1 B2 B3 B4 L1 L2 H1. repeat split; try qlra; qnra.
Qed.
End T.

(** C24 *)
Theorem quadtree_complete : forall (b : option aabb) (items later : list segment) (th : nat) (q s : segment),
  let tree := fold_left (fun n x => q_add seg_eqb seg_isect th n x true) later (SegmentPMRQuadTree b items th) in
  (In s (seg_find tree q) -> In s (items ++ later)) /\
  (forall p, In s (items ++ later) -> on_seg s p -> on_seg q p ->
     match b with Some b => pt_in b p | None => In s items \/ pt_in (items_box items) p end ->
     In s (seg_find tree q)).
Proof.
  intros b items later th q s tree. subst tree. unfold SegmentPMRQuadTree, PMRQuadTree, seg_find, find_all_similar.
  rewrite <- fold_left_app.
  destruct (fold_add_spec th (items ++ later) (leaf (match b with Some b => b | None => items_box items end)) I)
    as (I1 & I2 & I3 & I4 & I5).
  split.
  - intros H. apply find_stored in H. apply I5 in H. destruct H as [H|H]; [destruct H | exact H].
  - intros p H1 H2 H3 H4. apply find_holds with p.
    + apply I3; auto. cbn. destruct b; [exact H4|]. destruct H4 as [H4|H4]; auto. eapply items_box_in; eauto.
    + intros bb Hb. eapply isect_pt; eauto.
Qed.
Print Assumptions quadtree_complete.

Local Definition P (x y : Z) : point := (zq x, zq y).
Example quadtree_ex :
  let items := [(P 0 0, P 8 8); (P 0 8, P 8 0); (P 1 1, P 1 2); (P 6 6, P 7 6); (P 6 1, P 7 2); (P 2 7, P 3 7)] in
  let t := SegmentPMRQuadTree None items 2 in
  (match t with QSplit _ _ _ _ _ _ => true | _ => false end,
   length (seg_find t (P 0 1, P 2 1)), length (seg_find t (P 5 7, P 6 7)), length (seg_find t (P 20 20, P 30 30))) = (true, 3, 4, 0)%nat.
Proof. vm_compute. reflexivity. Qed.
