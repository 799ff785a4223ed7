(** * Properties of make_fingers and project_to_1d: C47, C48 (for every sound arrangement code). *)
From Verif.Spec Require Import Plane Region PointSet1 Fingers.
From Verif.Model Require Import Sheetplex.
From Verif.Proofs Require Import PyP Geom1dP Geom2dP Geom2dOps FingerP.
From Verif.Props Require Import Geom1dProps Geom2dProps.
From Coq Require Import String.
Open Scope Qc_scope.
Local Definition P (x y : Z) : point := (zq x, zq y).

(** ** C47.  Missing for the full property: that the arrangement code of the project is sound. *)
Theorem make_fingers_band_rel : forall A s w f0 f1 g, arr_sound A ->
  frame_ok s -> offset_at s f0 <> offset_at s f1 -> is_geom1d w -> make_fingers A s w f0 f1 = Ok g ->
  is_geom2d g /\
  (forall p, in_band s w f0 f1 p -> g2_locate g p = Ok 1%Z) /\
  (forall p, ~ on_bd g p -> (g2_locate g p = Ok 1%Z <-> in_band s w f0 f1 p)).
Proof.
  intros A s w f0 f1 g SA F NV W H. apply is_geom1d_normal in W.
  destruct (make_fingers_ok A s w f0 f1 g SA F NV W H) as (G & _ & P1 & P2 & _). split; auto. split.
  - intros p I. destruct (P1 p I) as (NB & IG). destruct (g2_locate_ok g p G NB) as [(E & _)|(_ & NI)]; tauto.
  - intros p NB. rewrite <- P2 by auto. destruct (g2_locate_ok g p G NB) as [(E & I)|(E & I)]; rewrite E; split; auto; try discriminate. tauto.
Qed.
Print Assumptions make_fingers_band_rel.
(** an infinite range is rejected, whatever the arrangement code *)
Theorem make_fingers_unbounded : forall A s w f0 f1, frame_ok s -> offset_at s f0 <> offset_at s f1 -> is_geom1d w ->
  ~ bounded1 w -> make_fingers A s w f0 f1 = Err AssertionError.
Proof.
  intros A s w f0 f1 F NV W NB. apply is_geom1d_normal in W. unfold make_fingers.
  assert (E : mapM (finger_polygon s f0 f1) w = Err AssertionError); [|now rewrite E].
  induction w as [|i w IH]; [exfalso; apply NB; intros ? []|]. apply normal_cons in W as (L & W & _). cbn [mapM].
  destruct i as [[|a|] [|b|]]; try reflexivity. cbn [fst snd] in L. unfold elt in L.
  destruct (finger_ok s f0 f1 a b F) as (g & E & _); auto; [intros ->; qlra|]. rewrite E. cbn [bind]. rewrite IH; auto.
  intros B. apply NB. intros i [<-|Hi]; eauto.
Qed.
Print Assumptions make_fingers_unbounded.

(** ** C48.  Missing for the full property: that the arrangement code of the project is sound. *)
Theorem project_make_fingers_rel : forall A s w g, arr_sound A ->
  frame_ok s -> Geom2d.dot (is_dir s) (is_dir s) = 1 -> is_min s <> is_max s -> is_geom1d w ->
  make_fingers01 A s w = Ok g -> is_project_to_1d s g = Ok w.
Proof. intros A s w g SA F D NM W H. apply is_geom1d_normal in W. eapply project_fingers; eauto. Qed.
Print Assumptions project_make_fingers_rel.

Section Ex.
Let f : frame := ((qq 3 5, qq 4 5), (P 1 1, [P 3 2; P 0 2; P 1 7])).
Let s := create_inter_side "s0,s1"%string "s0"%string 0 f.
(** one finger of the joint with a rational unit direction: location in the joint's coordinates, and
    projection back *)
Example finger_ex : frame_ok s /\ Geom2d.dot (is_dir s) (is_dir s) = 1 /\ offset_at s 0 <> offset_at s (qq 1 2) /\
  (match (g <- finger_polygon s 0 1 (Fin (zq 2), Fin (zq 5)) ;; is_project_to_1d s g) with
   | Ok [(Fin a, Fin b)] => qeqb a (zq 2) && qeqb b (zq 5) | _ => false end = true)%bool /\
  (g <- finger_polygon s 0 1 (Fin (zq 2), Fin (zq 5)) ;;
   mapM (g2_locate g) [finger_coord s 0 1 (zq 3) (qq 1 2); finger_coord s 0 1 (zq 5) (qq 1 2); finger_coord s 0 1 (zq 6) (qq 1 2)]) = Ok [1; 0; -1]%Z /\
  finger_polygon s 0 1 (Fin (zq 2), PInf) = Err AssertionError.
Proof.
  split; [split; [intros E; apply pair_inv in E as (E & _); discriminate|reflexivity]|].
  split; [apply Qc_is_canon; vm_compute; reflexivity|]. split; [intros E; vm_compute in E; discriminate|]. vm_compute. auto.
Qed.
End Ex.
