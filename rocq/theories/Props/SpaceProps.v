(** * Sheets in space: C112 - C114. *)
From Verif.Spec Require Import Plane Region PointSet1 Fingers Crisp Space.
From Verif.Model Require Import Arrangement2d Geom2d Geom1d Frames.
From Verif.Proofs Require Import PyP DictP WindingP WindingR NearP CoverP Geom1dP Geom2dP Geom2dOps ArrSoundP SheetplexP FingerP SheetbuildP SpaceP.
From Verif.Props Require Import Geom1dProps Geom2dProps SheetplexProps SheetbuildProps JointProps.
From Coq Require Import String.
Open Scope Qc_scope.

(** ** the sheets made from a facet *)
Theorem made_plate : forall normal offset thickness to_3D, section_frame normal to_3D -> 0 < thickness -> let pl := make_plate normal offset thickness to_3D in
  plate_ok pl /\ (forall x, in_slab pl x <-> offset - thickness <= dot3 normal x /\ dot3 normal x <= offset) /\
  v4 (midplane pl) = normal /\ vw (midplane pl) = offset - thickness * qq 1 2.
Proof.
  intros n o t [[a wa] [b wb] [c wc] r] (O & N & R) T. cbn [row3] in R. subst r. cbn [transpose col row0 row1 row2 v4 vx vy vz] in O, N. cbv zeta.
  assert (PO : plate_ok (make_plate n o t (M4 (V4 a wa) (V4 b wb) (V4 c wc) (V4 (V3 0 0 0) 1)))).
  { unfold plate_ok, make_plate, no_shift, transpose, col. cbn [pl_inverse pl_normal pl_offset side_of_plate pl_side0 pl_side1 row0 row1 row2 row3 v4 vw vx vy vz]. repeat (split; [first [assumption|reflexivity]|]). qlra. }
  split; auto. assert (H : qq 1 2 + qq 1 2 = 1) by (apply Qc_is_canon; reflexivity). split; [|split].
  - intros x. rewrite (slab_iff _ PO). unfold face_at. cbn [make_plate pl_normal pl_offset side_of_plate pl_side0 pl_side1 v4 vw]. split; intros (A & B); split; qlra.
  - unfold midplane. cbn [make_plate pl_normal side_of_plate pl_side0 pl_side1 v4]. apply vec3_ext; v3;
      [transitivity ((qq 1 2 + qq 1 2) * vx n)|transitivity ((qq 1 2 + qq 1 2) * vy n)|transitivity ((qq 1 2 + qq 1 2) * vz n)]; [ring|rewrite H; ring|ring|rewrite H; ring|ring|rewrite H; ring].
  - unfold midplane. cbn [make_plate pl_offset side_of_plate pl_side0 pl_side1 vw]. transitivity ((qq 1 2 + qq 1 2) * o - t * qq 1 2); [ring|rewrite H; ring].
Qed.
Print Assumptions made_plate.

(** ** sheetplexes of plates in space *)
Definition space_plex (norm : vec3 -> Qc) (plates : string -> plate) (sp : sheetplex) : Prop :=
  exists sp0, fresh_plex sp0 /\ create_intersections (space_frames norm plates) sp0 = Ok sp /\
    (forall k sh, In (k, sh) (sp_sheets sp0) -> plate_ok (plates k)) /\
    (forall k sh k' sh', In (k, sh) (sp_sheets sp0) -> In (k', sh') (sp_sheets sp0) -> norm_of norm (cross3 (pl_normal (plates k) false) (pl_normal (plates k') false))).
Lemma space_made norm plates sp : space_plex norm plates sp -> plex_made sp.
Proof. intros (sp0 & F & C & _). exists (space_frames norm plates), sp0. auto. Qed.
Lemma space_joint norm plates sp s o : space_plex norm plates sp -> joint sp s o ->
  (exists d, crossing (plates (is_sheet s)) (plates (is_sheet o)) s o d) /\ plate_ok (plates (is_sheet s)) /\ plate_ok (plates (is_sheet o)).
Proof.
  intros SP ((k & it & I & Is) & J). pose proof (space_made _ _ _ SP) as M. destruct SP as (sp0 & F & C & PO & NO). destruct (created _ _ _ F C) as (SS & ND & _ & G).
  destruct (made_two sp k it M I) as (s0 & s1 & E & _ & _ & O0 & O1). apply G in I as (a & b & f1 & f2 & B & Hf & -> & ->). destruct (fresh_ids _ F) as (N & _). destruct (before_ids _ a b N B) as (_ & Ia & Ib).
  assert (K : forall x, In x (values (sp_sheets sp0)) -> In (sh_id x, x) (sp_sheets sp0)).
  { intros x X. apply in_map_iff in X as ((k & x') & <- & X). cbn. destruct F as (_ & _ & F). destruct (F k x' X) as (-> & _). exact X. }
  pose proof (PO _ _ (K a Ia)) as Pa. pose proof (PO _ _ (K b Ib)) as Pb. unfold space_frames in Hf.
  destruct (plates_cross norm _ _ f1 f2 (pid (a, b)) (sh_id a) (sh_id b) Pa Pb (NO _ _ _ _ (K a Ia) (K b Ib)) Hf) as (d & _ & CR).
  unfold made in E. cbn [it_sides fst snd] in E. injection E as <- <-. destruct f1 as (d1 & o1 & os1), f2 as (d2 & o2 & os2). cbn [made it_sides fst snd In] in Is.
  destruct Is as [<-|[<-|[]]]; [rewrite O0 in J|rewrite O1 in J]; apply Ok_inv in J as <-; cbn [create_inter_side is_sheet]; (split; [exists d|auto]); [exact CR|apply crossing_sym; exact CR].
Qed.

(** ** C112: both sheets of a joint measure the same coordinate along it, and every two sheets that are not parallel have a joint *)
Theorem joint_coordinate : forall norm plates sp s o, space_plex norm plates sp -> joint sp s o ->
  Geom2d.dot (is_dir s) (is_dir s) = 1 /\
  (forall x, along s (footprint (plates (is_sheet s)) x) = along o (footprint (plates (is_sheet o)) x)) /\
  (exists d, dot3 d d = 1 /\ dot3 d (pl_normal (plates (is_sheet s)) false) = 0 /\ dot3 d (pl_normal (plates (is_sheet o)) false) = 0 /\
     forall x, along s (footprint (plates (is_sheet s)) x) = dot3 d x).
Proof.
  intros norm plates sp s o SP J. destruct (space_joint _ _ _ _ _ SP J) as ((d & CR) & Ps & Po). split; [apply (cr_unit1 _ _ _ _ _ CR)|]. split.
  - intros x. rewrite (cr_along1 _ _ _ _ _ CR), (cr_along2 _ _ _ _ _ CR). reflexivity.
  - exists d. destruct (cr_dir _ _ _ _ _ CR) as (D1 & D2 & D3). repeat (split; auto). exact (cr_along1 _ _ _ _ _ CR).
Qed.
Print Assumptions joint_coordinate.
Lemma in_before {X} (l : list X) a b : In a l -> In b l -> a <> b -> before l a b \/ before l b a.
Proof.
  intros A B N. apply in_split in A as (l1 & l2 & ->). apply in_app_iff in B as [B|[B|B]]; [|congruence|].
  - right. apply in_split in B as (l3 & l4 & ->). exists l3, l4, l2. now rewrite <- app_assoc.
  - left. apply in_split in B as (l3 & l4 & ->). exists l1, l3, l4. reflexivity.
Qed.
Lemma long_enough norm c : norm_of norm c -> (qltb (norm c) (qq 1 10000) = false <-> qq 1 100000000 <= dot3 c c).
Proof.
  intros (N0 & NN). rewrite <- NN. assert (E : qq 1 100000000 = qq 1 10000 * qq 1 10000) by (apply Qc_is_canon; reflexivity). rewrite E. set (e := qq 1 10000). assert (EP : 0 < e) by (vm_compute; reflexivity). clearbody e. clear E NN.
  set (n := norm c) in *. clearbody n. destruct (qltb_spec n e) as [L|L]; (split; [intros X|intros X]); auto; try discriminate X.
  - exfalso. assert (0 < (e - n) * e) by (apply mpp; qlra). assert (0 <= (e - n) * n) by (apply mnn; qlra). qlra.
  - assert (0 <= (n - e) * e) by (apply mnn; qlra). assert (0 <= (n - e) * n) by (apply mnn; qlra). qlra.
Qed.
Theorem joint_iff_crossing : forall norm plates sp, space_plex norm plates sp -> forall k sh k' sh', In (k, sh) (sp_sheets sp) -> In (k', sh') (sp_sheets sp) -> k <> k' ->
  let c := cross3 (pl_normal (plates k) false) (pl_normal (plates k') false) in
  ((exists s o, joint sp s o /\ is_sheet s = k /\ is_sheet o = k') <-> qq 1 100000000 <= dot3 c c).
Proof.
  intros norm plates sp SP k sh k' sh' I I' NE. cbv zeta. pose proof (space_made _ _ _ SP) as M. destruct SP as (sp0 & F & C & PO & NO). destruct (created _ _ _ F C) as (SS & ND & FR & G). rewrite SS in I, I'.
  destruct (fresh_ids _ F) as (N & _). pose proof (proj2 (proj2 F)) as FI. destruct (FI k sh I) as (Ek & _), (FI k' sh' I') as (Ek' & _).
  set (cr := fun x y => cross3 (pl_normal (plates x) false) (pl_normal (plates y) false)).
  assert (SY : forall x y, dot3 (cr x y) (cr x y) = dot3 (cr y x) (cr y x)) by (intros x y; unfold cr; v3; ring).
  assert (LE : forall a b, before (values (sp_sheets sp0)) a b -> ((exists f1 f2, space_frames norm plates a b = Ok (Some (f1, f2))) <-> qq 1 100000000 <= dot3 (cr (sh_id a) (sh_id b)) (cr (sh_id a) (sh_id b)))).
  { intros a b B. destruct (before_ids _ a b N B) as (_ & Ia & Ib).
    assert (K : forall x, In x (values (sp_sheets sp0)) -> In (sh_id x, x) (sp_sheets sp0)).
    { intros x X. apply in_map_iff in X as ((z & x') & <- & X). cbn. destruct (FI z x' X) as (-> & _). exact X. }
    unfold cr. rewrite <- (long_enough norm _ (NO _ _ _ _ (K a Ia) (K b Ib))). unfold space_frames, inter_frames, inter_direction.
    destruct (qltb (norm _) _); (split; [intros H|intros H]); auto; try discriminate H.
    - destruct H as (f1 & f2 & H). discriminate H.
    - unfold corner_origins, side_frame. cbn [flat_map map app]. cbn [bind]. eexists _, _. reflexivity. }
  fold (cr k k'). split.
  - intros (s & o & ((i & it & Hi & Hs) & J) & E1 & E2). destruct (made_two sp i it M Hi) as (s0 & s1 & E & _ & _ & O0 & O1). apply G in Hi as (a & b & f1 & f2 & B & Hf & _ & ->).
    assert (LL : qq 1 100000000 <= dot3 (cr (sh_id a) (sh_id b)) (cr (sh_id a) (sh_id b))) by (apply (LE a b B); eauto).
    unfold made in E. cbn [it_sides fst snd] in E. injection E as <- <-. destruct f1 as (d1 & o1 & os1), f2 as (d2 & o2 & os2). cbn [made it_sides fst snd In] in Hs.
    destruct Hs as [<-|[<-|[]]]; [rewrite O0 in J|rewrite O1 in J]; apply Ok_inv in J as <-; cbn [create_inter_side is_sheet] in E1, E2; rewrite <- E1, <- E2; [exact LL|rewrite SY; exact LL].
  - intros L. assert (Iv : forall z x, In (z, x) (sp_sheets sp0) -> In x (values (sp_sheets sp0))) by (intros z x X; apply in_map_iff; exists (z, x); auto).
    destruct (in_before _ sh sh' (Iv _ _ I) (Iv _ _ I')) as [B|B]; [intros X; subst; congruence| |].
    + destruct (proj2 (LE sh sh' B)) as (f1 & f2 & Hf); [rewrite Ek, Ek'; exact L|]. assert (Hi : In (pid (sh, sh'), made (sh, sh') f1 f2) (sp_inters sp)) by (apply G; exists sh, sh', f1, f2; auto).
      destruct (made_two sp _ _ M Hi) as (s0 & s1 & E & _ & _ & O0 & O1). exists s0, s1. destruct f1 as (d1 & o1 & os1), f2 as (d2 & o2 & os2). cbn [made it_sides fst snd] in E. injection E as E0 E1.
      split; [split; auto; eexists _, _; split; [exact Hi|rewrite <- E0; cbn; auto]|]. rewrite <- E0, <- E1. cbn. auto.
    + destruct (proj2 (LE sh' sh B)) as (f1 & f2 & Hf); [rewrite Ek, Ek', SY; exact L|]. assert (Hi : In (pid (sh', sh), made (sh', sh) f1 f2) (sp_inters sp)) by (apply G; exists sh', sh, f1, f2; auto).
      destruct (made_two sp _ _ M Hi) as (s0 & s1 & E & _ & _ & O0 & O1). exists s1, s0. destruct f1 as (d1 & o1 & os1), f2 as (d2 & o2 & os2). cbn [made it_sides fst snd] in E. injection E as E0 E1.
      split; [split; auto; eexists _, _; split; [exact Hi|rewrite <- E1; cbn; auto]|]. rewrite <- E0, <- E1. cbn. auto.
Qed.
Print Assumptions joint_iff_crossing.

(** ** C113: the band of a joint on a sheet is where the other sheet passes through it *)
Theorem joint_band : forall norm plates sp s o, space_plex norm plates sp -> joint sp s o -> let a := plates (is_sheet s) in let b := plates (is_sheet o) in
  is_min s < is_max s /\
  (forall p, is_min s < across s p /\ across s p < is_max s <-> exists x, inside_slab a x /\ inside_slab b x /\ footprint a x = p) /\
  (forall p, is_min s <= across s p /\ across s p <= is_max s <-> exists x, in_slab a x /\ in_slab b x /\ footprint a x = p).
Proof.
  intros norm plates sp s o SP J. cbv zeta. destruct (space_joint _ _ _ _ _ SP J) as ((d & CR) & Ps & Po).
  split; [exact (band_wide _ _ _ _ _ Ps Po CR)|]. split; [exact (band_strict _ _ _ _ _ Ps Po CR)|exact (band_closed _ _ _ _ _ Ps Po CR)].
Qed.
Print Assumptions joint_band.

(** ** C114: a finger is the part of the crossing over its range *)
Theorem fingers_in_space : forall orc norm plates sp s o w f, space_plex norm plates sp -> joint sp s o -> is_geom1d w -> make_fingers01 (segment_arrangement orc) s w = Ok f ->
  let a := plates (is_sheet s) in let b := plates (is_sheet o) in
  (forall x, inside_slab a x -> inside_slab b x -> inside1 w (along s (footprint a x)) -> g2_locate f (footprint a x) = Ok 1%Z) /\
  (forall p, ~ on_bd f p -> (g2_locate f p = Ok 1%Z <-> exists x, inside_slab a x /\ inside_slab b x /\ inside1 w (along o (footprint b x)) /\ footprint a x = p)).
Proof.
  intros orc norm plates sp s o w f SP J W H. cbv zeta. destruct (joint_coordinate _ _ _ _ _ SP J) as (_ & SAME & _). destruct (joint_band _ _ _ _ _ SP J) as (LT & BD & _).
  destruct (space_joint _ _ _ _ _ SP J) as ((d & CR) & _). set (a := plates (is_sheet s)) in *. set (b := plates (is_sheet o)) in *.
  assert (E01 : offset_at s 0 = is_min s /\ offset_at s 1 = is_max s) by (unfold offset_at; split; ring). destruct E01 as (E0 & E1).
  destruct (make_fingers_band orc s w 0 1 f (cr_frame1 _ _ _ _ _ CR)) as (_ & F1 & F2); auto; [rewrite E0, E1; intros E; rewrite E in LT; qlra|]. unfold in_band in F1, F2. rewrite E0, E1 in F1, F2.
  assert (SB : forall v, strictly_between (is_min s) v (is_max s) <-> is_min s < v /\ v < is_max s).
  { intros v. unfold strictly_between. split; [intros [X|(X & Y)]; auto; exfalso; qlra|auto]. }
  split.
  - intros x X1 X2 X3. apply F1. split; auto. apply SB, BD. exists x. auto.
  - intros p NB. rewrite (F2 p NB), SB, BD. split.
    + intros (I & x & X1 & X2 & <-). exists x. rewrite <- SAME. auto.
    + intros (x & X1 & X2 & X3 & <-). rewrite <- SAME in X3. split; auto. exists x. auto.
Qed.
Print Assumptions fingers_in_space.

(** two sheets at an angle (a 3-4-5 triangle), and a third one parallel to the first *)
Module SpaceEx.
Definition frame345 : mat4 := M4 (V4 (V3 1 0 0) (zq 7)) (V4 (V3 0 (qq 4 5) (qq 3 5)) 0) (V4 (V3 0 (qq (-3) 5) (qq 4 5)) 1) (V4 (V3 0 0 0) 1).
Definition frame_flat : mat4 := M4 (V4 (V3 1 0 0) 0) (V4 (V3 0 1 0) 0) (V4 (V3 0 0 1) 0) (V4 (V3 0 0 0) 1).
Definition plates (k : string) : plate :=
  if String.eqb k "s1" then make_plate (V3 0 (qq 3 5) (qq 4 5)) (zq 2) 1 frame345
  else if String.eqb k "s2" then make_plate (V3 0 0 1) (zq 9) 1 frame_flat else make_plate (V3 0 0 1) 1 1 frame_flat.
Definition norm (v : vec3) : Qc := qabs (vx v) + qabs (vy v) + qabs (vz v).
Definition sheet_of (k : string) : sheet := mkSheet k g2_empty g2_empty g2_empty.
Definition plex : sheetplex := mkPlex [("s0", sheet_of "s0"); ("s1", sheet_of "s1"); ("s2", sheet_of "s2")]%string [].
Definition sp : sheetplex := match create_intersections (space_frames norm plates) plex with Ok x => x | Err _ => plex end.
Lemma frames_ok : section_frame (V3 0 (qq 3 5) (qq 4 5)) frame345 /\ section_frame (V3 0 0 1) frame_flat.
Proof. unfold section_frame, orthonormal. repeat split; apply Qc_is_canon; vm_compute; reflexivity. Qed.
End SpaceEx.
Example space_ex : space_plex SpaceEx.norm SpaceEx.plates SpaceEx.sp /\ keys (sp_inters SpaceEx.sp) = ["s0,s1"; "s1,s2"]%string.
Proof.
  split; [|vm_compute; reflexivity]. exists SpaceEx.plex. split; [|split; [|split]].
  - split; [reflexivity|]. split; [repeat constructor; cbn; intuition discriminate|].
    intros k s H. destruct H as [H|[H|[H|[]]]]; injection H as <- <-; (split; [reflexivity|]); intros K; vm_compute in K; intuition discriminate.
  - vm_compute. reflexivity.
  - destruct SpaceEx.frames_ok as (F1 & F2). assert (P : 0 < 1) by (vm_compute; reflexivity). intros k sh H. unfold SpaceEx.plates.
    destruct (String.eqb k "s1"); [apply (proj1 (made_plate _ _ _ _ F1 P))|]. destruct (String.eqb k "s2"); apply (proj1 (made_plate _ _ _ _ F2 P)).
  - intros k sh k' sh' H H'. destruct H as [H|[H|[H|[]]]]; injection H as <- <-; (destruct H' as [H'|[H'|[H'|[]]]]; injection H' as <- <-); (split; [vm_compute; discriminate|apply Qc_is_canon; vm_compute; reflexivity]).
Qed.
(** the joint of s0 and s1: a point inside both sheets, its coordinate along the joint and its places on the two sheets *)
Example crossing_ex : exists s o, joint SpaceEx.sp s o /\ is_sheet s = "s0"%string /\ is_sheet o = "s1"%string /\
  (let x := V3 (zq (-4)) (zq 2) (qq 1 2) in
   inside_slab (SpaceEx.plates "s0") x /\ inside_slab (SpaceEx.plates "s1") x /\
   (footprint (SpaceEx.plates "s0") x, footprint (SpaceEx.plates "s1") x, along s (footprint (SpaceEx.plates "s0") x)) = ((zq (-4), zq 2), (zq (-4), qq 13 10), zq 4) /\
   (is_min s, across s (footprint (SpaceEx.plates "s0") x), is_max s) = (qq 1 3, zq 2, qq 10 3)).
Proof.
  set (i := nth 0 (sp_inters SpaceEx.sp) (""%string, mkInter "" [])). set (s := nth 0 (it_sides (snd i)) (create_inter_side "" "" 0 ((0, 0), ((0, 0), [])))). set (o := nth 1 (it_sides (snd i)) s).
  exists s, o. split; [|vm_compute; repeat split]. split; [|vm_compute; reflexivity]. exists (fst i), (snd i). split; [vm_compute; left; reflexivity|vm_compute; left; reflexivity].
Qed.
(** the crossing of the band of s0 and the range (3, 5) *)
Example finger_ex : exists s o, joint SpaceEx.sp s o /\
  (f <- make_fingers01 (segment_arrangement (fun _ _ _ => 0%nat)) s [(Fin (zq 3), Fin (zq 5))] ;; mapM (g2_locate f) [(zq (-4), zq 2); (zq (-6), zq 2); (zq (-4), zq 4)]) = Ok [1; -1; -1]%Z.
Proof.
  set (i := nth 0 (sp_inters SpaceEx.sp) (""%string, mkInter "" [])). set (s := nth 0 (it_sides (snd i)) (create_inter_side "" "" 0 ((0, 0), ((0, 0), [])))). set (o := nth 1 (it_sides (snd i)) s).
  exists s, o. split; [|vm_compute; reflexivity]. split; [|vm_compute; reflexivity]. exists (fst i), (snd i). split; [vm_compute; left; reflexivity|vm_compute; left; reflexivity].
Qed.
