(** Lemmas about the Geom2D model. *)
From Verif.Model Require Export Geom2d.
From Verif.Spec Require Export Plane Region.
From Verif.Proofs Require Export PyP PolyP WindingP WindingQ WindingR Geom1dP.
From Verif.Props Require Import Primitive2dProps LocateProps.
From Coq Require Import Permutation.

Lemma area_ok l : l <> [] -> simple_polygon_area l = Ok (area_of l).
Proof. destruct l; [congruence|]. reflexivity. Qed.
Lemma area_ok_inv l a : simple_polygon_area l = Ok a -> l <> [] /\ a = area_of l.
Proof. destruct l; [discriminate|]. intros [= <-]. split; [discriminate|reflexivity]. Qed.

Lemma mapM_unit {A} (f : A -> result unit) l r : mapM f l = Ok r <-> Forall (fun x => f x = Ok tt) l /\ r = map (fun _ => tt) l.
Proof.
  revert r. induction l as [|x l IH]; intros r; cbn.
  - split; [intros [= <-]; auto|intros (_ & ->); auto].
  - split.
    + intros H. minv. destruct r0. apply IH in E0. destruct E0 as (F & ->). auto.
    + intros (F & ->). inversion F; subst. rewrite H1. cbn. erewrite (proj2 (IH _)); [|eauto]. reflexivity.
Qed.
Lemma mapM_ok {A B} (f : A -> result B) l r : mapM f l = Ok r -> Forall2 (fun x y => f x = Ok y) l r.
Proof.
  revert r. induction l as [|x l IH]; intros r H; cbn in H; minv; [constructor|]. constructor; auto.
Qed.

Definition ring_ok (r : list point) : Prop := r <> [] /\ 0 < area_of r /\ (forall s, is_edge r s -> fst s <> snd s).
Lemma check_no_dups_ok r : check_no_dups r = Ok tt <-> forall s, is_edge r s -> fst s <> snd s.
Proof.
  unfold check_no_dups. split.
  - intros H. apply passert_ok in H. rewrite forallb_forall in H. intros s Hs E. apply is_edge_iter in Hs.
    specialize (H _ Hs). destruct (pt_eqb_spec (fst s) (snd s)); [discriminate|congruence].
  - intros H. unfold passert. replace (forallb _ _) with true; [reflexivity|]. symmetry. apply forallb_forall.
    intros s Hs. apply is_edge_iter in Hs. destruct (pt_eqb_spec (fst s) (snd s)) as [E|]; [destruct (H _ Hs E)|reflexivity].
Qed.
Lemma check_hole_ok r : check_hole r = Ok tt <-> ring_ok r.
Proof.
  unfold check_hole, ring_ok. split.
  - intros H. minv. apply area_ok_inv in E. destruct E as (N & ->). destruct (qltb_spec 0 (area_of r)); [|discriminate].
    split; auto. split; auto. now apply check_no_dups_ok.
  - intros (N & P & D). rewrite area_ok by auto. cbn. destruct (qltb_spec 0 (area_of r)); [|tauto]. cbn.
    now apply check_no_dups_ok.
Qed.
Lemma SPWH_ok o hs s : Simple_Polygon_With_Holes o hs = Ok s <-> ring_ok o /\ Forall ring_ok hs /\ s = mkSpwh o hs.
Proof.
  unfold Simple_Polygon_With_Holes, ring_ok. split.
  - intros H. minv. destruct r. apply area_ok_inv in E0. destruct E0 as (N & ->).
    destruct (qltb_spec 0 (area_of o)); [|discriminate].
    split; [split; [auto|split; [auto|now apply check_no_dups_ok]]|]. split; [|auto].
    apply mapM_unit in E2. destruct E2 as (F & _). eapply Forall_impl; [|apply F]. apply check_hole_ok.
  - intros ((N & P & D) & F & ->). rewrite (proj2 (check_no_dups_ok o)) by auto. cbn.
    rewrite area_ok by auto. cbn. destruct (qltb_spec 0 (area_of o)); [|tauto]. cbn.
    rewrite (proj2 (mapM_unit check_hole hs (map (fun _ => tt) hs))); [reflexivity|]. split; auto.
    eapply Forall_impl; [|apply F]. apply check_hole_ok.
Qed.
Lemma spwh_ok_iff s : spwh_ok s <-> ring_ok (outer s) /\ Forall ring_ok (holes s).
Proof. unfold spwh_ok. rewrite SPWH_ok. destruct s; cbn. split; [intros (?&?&?)|intros (?&?)]; auto. Qed.
Lemma is_geom2d_rings g : is_geom2d g <-> forall r, ring_of g r -> ring_ok r.
Proof.
  unfold is_geom2d, ring_of. rewrite Forall_forall. split.
  - intros H r (s & Hs & Hr). specialize (H s Hs). apply spwh_ok_iff in H. destruct H as (H1 & H2).
    rewrite Forall_forall in H2. destruct Hr as [->|Hr]; auto.
  - intros H s Hs. apply spwh_ok_iff. rewrite Forall_forall. split; [|intros h Hh]; apply H; eauto.
Qed.

(** locating in a ring *)
Lemma locate_ring r p : r <> [] -> ~ on_boundary r p ->
  (locate_point_polygon_winding_number r p = Ok 1%Z /\ in_ring r p) \/
  (locate_point_polygon_winding_number r p = Ok (-1)%Z /\ ~ in_ring r p).
Proof.
  intros N B. destruct (locate_winding r p N B) as (w & W & U & L). rewrite L.
  destruct (Z.eqb_spec w 0) as [->|E]; [right|left]; (split; [reflexivity|]).
  - intros (w' & W' & N'). now rewrite (U w' W') in N'.
  - exists w. auto.
Qed.
Lemma locate_holes_ok hs p : (forall h, In h hs -> h <> [] /\ ~ on_boundary h p) ->
  (locate_holes hs p = Ok 1%Z /\ forall h, In h hs -> ~ in_ring h p) \/
  (locate_holes hs p = Ok (-1)%Z /\ exists h, In h hs /\ in_ring h p).
Proof.
  induction hs as [|h hs IH]; intros H; cbn [locate_holes]; [left; split; [reflexivity|intros ? []]|].
  destruct (H h (or_introl eq_refl)) as (N & B).
  destruct (locate_ring h p N B) as [(-> & I)|(-> & I)]; cbn.
  - right. split; [reflexivity|]. exists h. auto.
  - destruct IH as [(-> & J)|(-> & x & J & K)]; [intros; apply H; cbn; auto| |].
    + left. split; [reflexivity|]. intros x [<-|Hx]; auto.
    + right. split; [reflexivity|]. exists x. auto.
Qed.
Lemma spwh_locate_ok s p : (forall r, r = outer s \/ In r (holes s) -> r <> [] /\ ~ on_boundary r p) ->
  (spwh_locate s p = Ok 1%Z /\ in_poly s p) \/ (spwh_locate s p = Ok (-1)%Z /\ ~ in_poly s p).
Proof.
  intros H. destruct (H (outer s) (or_introl eq_refl)) as (N & B). unfold spwh_locate, in_poly.
  destruct (locate_ring _ p N B) as [(-> & I)|(-> & I)]; cbn; [|tauto].
  destruct (locate_holes_ok (holes s) p) as [(-> & J)|(-> & h & J & K)]; [intros; apply H; auto| |].
  - left. auto.
  - right. split; [reflexivity|]. intros (_ & G). exact (G h J K).
Qed.
Lemma locate_all g p : is_geom2d g -> ~ on_bd g p ->
  exists ls, mapM (fun s => spwh_locate s p) g = Ok ls /\
    Forall2 (fun s l => (l = 1%Z /\ in_poly s p) \/ (l = (-1)%Z /\ ~ in_poly s p)) g ls.
Proof.
  intros G B.
  assert (H : forall s, In s g -> (spwh_locate s p = Ok 1%Z /\ in_poly s p) \/ (spwh_locate s p = Ok (-1)%Z /\ ~ in_poly s p)).
  { intros s Hs. apply spwh_locate_ok. intros r Hr.
    assert (R : ring_of g r) by (exists s; auto). split; [now apply (proj1 (is_geom2d_rings g) G)|].
    intros O. apply B. exists r. auto. }
  clear G B. induction g as [|s g IH]; [exists []; split; [reflexivity|constructor]|].
  destruct IH as (ls & E & F); [intros; apply H; right; auto|].
  destruct (H s (or_introl eq_refl)) as [(E1 & I)|(E1 & I)]; cbn; rewrite E1; cbn; rewrite E; cbn; eexists; split; try reflexivity;
    constructor; auto.
Qed.
Lemma fold_max ls l : (l = 1 \/ l = -1)%Z -> Forall (fun l => l = 1 \/ l = -1)%Z ls ->
  (fold_left Z.max ls l = 1%Z /\ (l = 1%Z \/ In 1%Z ls)) \/ (fold_left Z.max ls l = (-1)%Z /\ l = (-1)%Z /\ ~ In 1%Z ls).
Proof.
  revert l. induction ls as [|m ls IH]; intros l Hl F; cbn [fold_left].
  - destruct Hl as [->| ->]; [left|right]; auto.
  - inversion F as [|? ? Hm F']; subst.
    destruct (IH (Z.max l m)) as [(E & H)|(E & H & N)]; auto; [lia| |].
    + left. split; auto. destruct H as [H|H]; [|right; right; auto].
      destruct Hl as [->| ->]; auto. destruct Hm as [->| ->]; [right; left; auto|]. cbn in H; lia.
    + right. split; auto. split; [lia|]. intros [->|H']; [lia|tauto].
Qed.
Lemma g2_locate_ok g p : is_geom2d g -> ~ on_bd g p ->
  (g2_locate g p = Ok 1%Z /\ in_geom g p) \/ (g2_locate g p = Ok (-1)%Z /\ ~ in_geom g p).
Proof.
  intros G B. destruct (locate_all g p G B) as (ls & E & F).
  assert (R : Forall (fun l => l = 1 \/ l = -1)%Z ls).
  { clear -F. induction F; constructor; auto. tauto. }
  assert (Iff : In 1%Z ls <-> in_geom g p).
  { clear -F. unfold in_geom. induction F as [|s l g ls H F IH]; cbn.
    - split; [intros []|intros (? & [] & _)].
    - rewrite IH. split.
      + intros [->|(x & Hx & I)]; [|eauto]. destruct H as [(_ & I)|(H & _)]; [eauto|discriminate].
      + intros (x & [<-|Hx] & I); [|right; eauto]. destruct H as [(-> & _)|(_ & N)]; [auto|tauto]. }
  destruct g as [|s g]; cbn [g2_locate].
  - right. split; [reflexivity|]. rewrite <- Iff. inversion F; subst. intros [].
  - cbn in E. minv. rewrite E0. cbn. rewrite E1. cbn. inversion R as [|? ? R1 R2]; subst.
    destruct (fold_max r0 r R1 R2) as [(-> & H)|(-> & H & N)]; [left|right]; (split; [reflexivity|]); rewrite <- Iff; cbn.
    + tauto.
    + intros [->|H']; [discriminate|tauto].
Qed.

Lemma is_edge_segments g s : In s (all_segments g) <-> exists r, ring_of g r /\ is_edge r s.
Proof.
  unfold all_segments, ring_of. rewrite in_flat_map. split.
  - intros (x & Hx & H). unfold spwh_segments in H. apply in_app_or in H. destruct H as [H|H].
    + exists (outer x). split; [eauto|]. now apply is_edge_iter.
    + apply in_flat_map in H. destruct H as (h & Hh & H). exists h. split; [eauto|]. now apply is_edge_iter.
  - intros (r & (x & Hx & Hr) & E). exists x. split; auto. unfold spwh_segments. apply in_or_app. apply is_edge_iter in E.
    destruct Hr as [->|Hr]; [auto|]. right. apply in_flat_map. eauto.
Qed.
Lemma on_bd_segments g p : on_bd g p <-> exists s, In s (all_segments g) /\ on_seg s p.
Proof.
  unfold on_bd, on_boundary. split.
  - intros (r & R & s & E & O). exists s. split; auto. apply is_edge_segments. eauto.
  - intros (s & H & O). apply is_edge_segments in H. destruct H as (r & R & E). exists r. eauto.
Qed.

(** areas *)
Lemma spwh_area_ok s : spwh_ok s -> spwh_area s = Ok (area_of (outer s) - qsum area_of (holes s)).
Proof.
  intros H. apply spwh_ok_iff in H. destruct H as ((N & _) & F). unfold spwh_area. rewrite area_ok by auto. cbn [bind].
  generalize (area_of (outer s)) as a. induction F as [|h hs (Nh & _) F IH]; intros a; cbn [foldM qsum].
  - f_equal. qlra.
  - rewrite area_ok by auto. cbn [bind]. rewrite IH. f_equal. qlra.
Qed.
Definition poly_area (s : spwh) : Qc := area_of (outer s) - qsum area_of (holes s).
Lemma g2_area_ok g : is_geom2d g -> g2_area g = Ok (qsum poly_area g).
Proof.
  intros G. unfold g2_area. enough (H : forall a, foldM (fun a s => b <- spwh_area s ;; Ok (a + b)) g a = Ok (a + qsum poly_area g)).
  { rewrite H. f_equal. qlra. }
  induction G as [|s g Hs G IH]; intros a; cbn [foldM qsum]; [f_equal; qlra|].
  rewrite spwh_area_ok by auto. cbn [bind]. rewrite IH. f_equal. unfold poly_area. qlra.
Qed.
