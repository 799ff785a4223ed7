(** * Properties of the DXF writer: C61, C62. *)
From Verif.Model Require Import Writer.
From Verif.Proofs Require Import PyP FingerP.
From Verif.Props Require Import AabbProps.
From Coq Require Import String.
Open Scope Qc_scope.

(** ** Specification *)
Definition shift (dx dy : Qc) (p : point) : point := (fst p + dx, snd p + dy).
Definition rings (g : geom2d) : list (list point) := flat_map (fun s => outer s :: holes s) g.
Definition outer_pts (g : geom2d) : list point := flat_map outer g.
(** a closed polyline along the ring *)
Definition close (r : list point) : list point := match r with [] => [] | p :: _ => r ++ [p] end.
(** sheets placed from left to right: the outer rings of each start exactly 3 right of [x], their
    right end is the [x] of the next; bottom edge at 0; every polyline is a closed translate of a ring *)
Inductive placed : Qc -> list (string * geom2d) -> list (string * list (list point)) -> Prop :=
| pl_nil x : placed x [] []
| pl_cons x name g dx dy right l out :
    is_min fst (map (shift dx dy) (outer_pts g)) (x + zq 3) ->
    is_min snd (map (shift dx dy) (outer_pts g)) 0 ->
    is_max fst (map (shift dx dy) (outer_pts g)) right ->
    placed right l out ->
    placed x ((name, g) :: l) ((name, map (fun r => close (map (shift dx dy) r)) (rings g)) :: out).
Definition finite (l : list (list point)) : list polyline := map (map nv) l.

Lemma sheet_box_from g : sheet_box g = from_points (outer_pts g).
Proof.
  unfold sheet_box, from_points, outer_pts, g2_polygons. generalize (AABB None None). induction g as [|s g IH]; intros b; cbn; [reflexivity|]. rewrite fold_left_app. apply IH.
Qed.
Lemma is_min_shift f d dx dy l m : (forall p, f (shift dx dy p) = f p + d) -> is_min f l m -> is_min f (map (shift dx dy) l) (m + d).
Proof.
  intros F ((p & I & E) & H). split; [exists (shift dx dy p); split; [now apply in_map|rewrite F, E; reflexivity]|]. intros q Q. apply in_map_iff in Q as (r & <- & Ir). rewrite F. specialize (H r Ir). qlra.
Qed.
Lemma is_max_shift f d dx dy l m : (forall p, f (shift dx dy p) = f p + d) -> is_max f l m -> is_max f (map (shift dx dy) l) (m + d).
Proof.
  intros F ((p & I & E) & H). split; [exists (shift dx dy p); split; [now apply in_map|rewrite F, E; reflexivity]|]. intros q Q. apply in_map_iff in Q as (r & <- & Ir). rewrite F. specialize (H r Ir). qlra.
Qed.
Lemma draw_finite dx dy r : draw_coords (Some dx, Some dy) r = map nv (close (map (shift dx dy) r)).
Proof.
  unfold draw_coords. destruct r as [|p r]; [reflexivity|]. change (firstn 1 (p :: r)) with [p]. change (close (map (shift dx dy) (p :: r))) with (map (shift dx dy) (p :: r) ++ map (shift dx dy) [p]). rewrite <- map_app, map_map. reflexivity.
Qed.
Lemma sheet_finite dx dy g : draw_sheet (Some dx, Some dy) g = finite (map (fun r => close (map (shift dx dy) r)) (rings g)).
Proof.
  unfold draw_sheet, g2_polygons, rings, finite. rewrite map_map. induction g as [|s g IH]; cbn [map flat_map]; [reflexivity|].
  rewrite IH, map_app. f_equal. cbn [map]. f_equal; [apply draw_finite|]. apply map_ext. intros r. apply draw_finite.
Qed.
Lemma place_ok l : forall x, Forall (fun e => outer_pts (snd e) <> []) l -> exists out, place (Some x) l = map (fun e => (fst e, finite (snd e))) out /\ placed x l out.
Proof.
  induction l as [|(name, g) l IH]; intros x F; [exists []; split; [reflexivity|constructor]|]. inversion F as [|? ? NE F']; subst. cbn [snd] in NE. cbn [place].
  rewrite sheet_box_from. pose proof (box_of_from (outer_pts g)) as B. unfold box_of in B. destruct (outer_pts g) as [|p0 ps] eqn:EO; [contradiction|]. rewrite <- EO in *.
  destruct B as (lx & ly & ux & uy & -> & M1 & M2 & M3 & _). cbn [AABB lower upper nv fst snd n_sub n_add n2].
  destruct (IH (x + (ux - lx + margin)) F') as (out & E & P). rewrite E.
  exists ((name, map (fun r => close (map (shift (x - lx + margin) (0 - ly)) r)) (rings g)) :: out). split.
  - cbn [map fst snd]. f_equal. f_equal. apply sheet_finite.
  - apply (pl_cons x name g (x - lx + margin) (0 - ly) (x + (ux - lx + margin)) l out); auto.
    + replace (x + zq 3) with (lx + (x - lx + margin)) by (unfold margin; qlra). apply is_min_shift; auto.
    + replace 0 with (ly + (0 - ly)) by qlra. apply is_min_shift; auto. intros p. cbn [shift snd]. qlra.
    + replace (x + (ux - lx + margin)) with (ux + (x - lx + margin)) by qlra. apply is_max_shift; auto.
Qed.
(** ** C61 *)
Theorem dxf_placement : forall geoms, Forall (fun e => outer_pts (snd e) <> []) geoms ->
  exists out, write_dxf geoms = map (fun e => (fst e, finite (snd e))) out /\ placed 0 geoms out.
Proof. intros geoms F. exact (place_ok geoms 0 F). Qed.
Print Assumptions dxf_placement.
(** so outer rings of different sheets keep a distance of at least 3 *)
Definition drawn (dx dy : Qc) (name : string) (g : geom2d) : string * list (list point) := (name, map (fun r => close (map (shift dx dy) r)) (rings g)).
Lemma placed_right x l out : placed x l out -> forall k name g, nth_error l k = Some (name, g) ->
  exists dx dy, nth_error out k = Some (drawn dx dy name g) /\ forall p, In p (outer_pts g) -> x + zq 3 <= fst (shift dx dy p).
Proof.
  intros P. assert (T : 0 < zq 3) by reflexivity. induction P as [|x name g dx dy right l out M1 M2 M3 P IH]; intros [|k] nm gg E; try discriminate; cbn [nth_error] in *.
  - apply some_inv in E. apply pair_inv in E as (<- & <-). exists dx, dy. split; [reflexivity|]. intros p Hp. apply (proj2 M1). now apply in_map.
  - destruct (IH k nm gg E) as (dx' & dy' & E' & H). exists dx', dy'. split; auto. intros p Hp. specialize (H p Hp). pose proof M3 as ((q & Q1 & Q2) & _). pose proof (proj2 M1 q Q1) as Q3. rewrite Q2 in Q3. qlra.
Qed.
Theorem dxf_sheets_apart : forall x l out, placed x l out -> forall i j ni gi nj gj, (i < j)%nat -> nth_error l i = Some (ni, gi) -> nth_error l j = Some (nj, gj) ->
  exists dxi dyi dxj dyj, nth_error out i = Some (drawn dxi dyi ni gi) /\ nth_error out j = Some (drawn dxj dyj nj gj) /\
    forall p q, In p (outer_pts gi) -> In q (outer_pts gj) -> fst (shift dxi dyi p) + zq 3 <= fst (shift dxj dyj q).
Proof.
  intros x l out P. induction P as [|x name g dx dy right l out M1 M2 M3 P IH]; intros i j ni gi nj gj L E1 E2; [destruct i; discriminate|].
  destruct j as [|j]; [lia|]. destruct i as [|i]; cbn [nth_error] in *.
  - apply some_inv in E1. apply pair_inv in E1 as (<- & <-). destruct (placed_right right l out P j nj gj E2) as (dxj & dyj & E & H). exists dx, dy, dxj, dyj. split; [reflexivity|]. split; auto.
    intros p q Hp Hq. specialize (H q Hq). pose proof (proj2 M3 _ (in_map (shift dx dy) _ _ Hp)) as X. qlra.
  - exact (IH i j ni gi nj gj ltac:(lia) E1 E2).
Qed.
Print Assumptions dxf_sheets_apart.
(** ** C62 *)
(** false: every sheet after an empty one gets NaN coordinates *)
Lemma place_nan l : forall name lines pl p, In (name, lines) (place None l) -> In pl lines -> In p pl -> fst p = None.
Proof.
  induction l as [|(nm, g) l IH]; intros name lines pl p H1 H2 H3; cbn [place] in H1; [destruct H1|]. destruct H1 as [E|H1]; [|eapply IH; eauto].
  apply pair_inv in E as (_ & <-). unfold draw_sheet in H2. cbn [n_sub n_add n2 fst snd] in H2. apply in_flat_map in H2 as (poly & _ & H2). destruct poly as [|s poly]; [destruct H2|].
  assert (D : forall y r, In p (draw_coords (None, y) r) -> fst p = None). { intros y r H. unfold draw_coords in H. apply in_map_iff in H as (q & <- & _). reflexivity. }
  destruct H2 as [<-|H2]; [eapply D; eauto|]. apply in_map_iff in H2 as (h & <- & _). eapply D; eauto.
Qed.
Theorem dxf_empty_sheet_poisons : forall before name rest nm lines pl p, Forall (fun e => outer_pts (snd e) <> []) before ->
  In (nm, lines) (skipn (List.length before) (write_dxf (before ++ (name, []) :: rest))) -> In pl lines -> In p pl -> fst p = None.
Proof.
  intros before name rest nm lines pl p F. unfold write_dxf. generalize 0. revert F. induction before as [|(n0, g0) b IH]; intros F x H1 H2 H3.
  - cbn [app List.length skipn place] in H1. destruct H1 as [E|H1]; [|eapply place_nan; eauto]. apply pair_inv in E as (_ & <-). destruct H2.
  - inversion F as [|? ? NE F']; subst. cbn [app List.length skipn place snd] in *. rewrite sheet_box_from in H1. pose proof (box_of_from (outer_pts g0)) as B. unfold box_of in B.
    destruct (outer_pts g0) as [|p0 ps] eqn:EO; [contradiction|]. destruct B as (lx & ly & ux & uy & EB & _). rewrite EB in H1. cbn [AABB lower upper nv fst snd n_sub n_add n2] in H1. exact (IH F' _ H1 H2 H3).
Qed.
Print Assumptions dxf_empty_sheet_poisons.
Theorem empty_sheet_harmless_refuted : exists geoms name g lines, nth_error geoms 1 = Some (name, g) /\ outer_pts g <> [] /\ outer_pts (snd (hd (name, g) geoms)) = [] /\
  nth_error (write_dxf geoms) 1 = Some (name, lines) /\ lines <> [] /\ forall pl p, In pl lines -> In p pl -> fst p = None.
Proof.
  pose (sq := [mkSpwh [(0, 0); (0, zq 9); (zq 9, zq 9); (zq 9, 0)] []]).
  exists [("s0", []); ("s1", sq)]%string, "s1"%string, sq. destruct (write_dxf [("s0", []); ("s1", sq)]%string) as [|a [|(n & lines) r]] eqn:E; try (vm_compute in E; discriminate).
  exists lines. split; [reflexivity|]. split; [intros K; vm_compute in K; discriminate|]. split; [reflexivity|]. assert (E' : nth_error (write_dxf [("s0", []); ("s1", sq)]%string) 1 = Some (n, lines)) by now rewrite E.
  assert (EN : n = "s1"%string). { apply (f_equal (map fst)) in E. vm_compute in E. congruence. } subst n. split; [rewrite <- E, E'; reflexivity|]. split.
  - intros ->. apply (f_equal (map (fun e => List.length (snd e)))) in E. vm_compute in E. congruence.
  - intros pl p H1 H2. apply (place_nan [("s1", sq)]%string "s1"%string lines pl p); auto. apply nth_error_In in E'. unfold write_dxf in E'. cbn [place] in E'. destruct E' as [E'|E']; [apply pair_inv in E' as (E' & _); discriminate|exact E'].
Qed.
Print Assumptions empty_sheet_harmless_refuted.
Example dxf_ex : let sq := [mkSpwh [(zq 2, zq 5); (zq 2, zq 9); (zq 9, zq 9); (zq 9, zq 5)] []] in
  match write_dxf [("s0", sq); ("s1", sq)]%string with
  | [(_, [l0]); (_, [l1])] => l0 = map nv [(zq 3, zq 0); (zq 3, zq 4); (zq 10, zq 4); (zq 10, zq 0); (zq 3, zq 0)] /\ l1 = map nv [(zq 13, zq 0); (zq 13, zq 4); (zq 20, zq 4); (zq 20, zq 0); (zq 13, zq 0)]
  | _ => False end /\ outer_pts sq <> [].
Proof. vm_compute. split; [auto|discriminate]. Qed.
