(** * C146: the DXF of any sheets, empty ones among them. *)
From Verif.Model Require Import Writer.
From Verif.Proofs Require Import PyP FingerP.
From Verif.Props Require Import AabbProps WriterProps.
From Coq Require Import String.
Open Scope Qc_scope.

(** ** Specification: a sheet with no outline before position [k] *)
Definition empty_before (l : list (string * geom2d)) (k : nat) : Prop := exists j nm g, (j < k)%nat /\ nth_error l j = Some (nm, g) /\ outer_pts g = [].
(** the ring closed, moved by an offset whose first part may be NaN *)
Definition moved (dx : option Qc) (dy : Qc) (r : list point) : polyline := map (fun p => (match dx with Some d => Some (fst p + d) | None => None end, Some (snd p + dy))) (close r).

Lemma moved_coords dx dy r : draw_coords (dx, Some dy) r = moved dx dy r.
Proof. unfold draw_coords, moved, close. destruct r as [|p r]; [reflexivity|]. change (firstn 1 (p :: r)) with [p]. apply map_ext. intros q. destruct dx; reflexivity. Qed.
Lemma moved_sheet dx dy g : draw_sheet (dx, Some dy) g = map (moved dx dy) (rings g).
Proof.
  unfold draw_sheet, g2_polygons, rings. induction g as [|s g IH]; cbn [map flat_map]; [reflexivity|].
  rewrite IH, map_app. f_equal. cbn [map]. f_equal; [apply moved_coords|]. apply map_ext. intros r. apply moved_coords.
Qed.
Lemma place_all l : forall x k name g, nth_error l k = Some (name, g) -> outer_pts g <> [] ->
  exists dx dy, nth_error (place x l) k = Some (name, map (moved dx dy) (rings g)) /\ is_min snd (outer_pts g) (- dy) /\ (dx = None <-> x = None \/ empty_before l k).
Proof.
  induction l as [|(nm, g0) l IH]; intros x k name g E NE; [destruct k; discriminate|]. cbn [place]. rewrite sheet_box_from. pose proof (box_of_from (outer_pts g0)) as B. unfold box_of in B. destruct k as [|k]; cbn [nth_error] in *.
  - apply some_inv in E. apply pair_inv in E as (<- & <-). destruct (outer_pts g0) as [|p0 ps] eqn:EO; [contradiction|]. destruct B as (lx & ly & ux & uy & -> & M1 & M2 & _). cbn [AABB lower upper nv fst snd n_sub n_add n2].
    exists (n_add (n_sub x (Some lx)) (Some margin)), (0 - ly). split; [f_equal; f_equal; apply moved_sheet|]. split; [replace (- (0 - ly)) with ly by qlra; exact M2|].
    split; [destruct x; [discriminate|auto]|]. intros [->|(j & a & b & L & _)]; [reflexivity|lia].
  - set (x' := n_add x _) in *. destruct (IH x' k name g E NE) as (dx & dy & H1 & H2 & H3). exists dx, dy. split; [exact H1|]. split; [exact H2|]. rewrite H3.
    assert (X : x' = None <-> x = None \/ outer_pts g0 = []).
    { subst x'. destruct (outer_pts g0) as [|p0 ps] eqn:EO.
      - rewrite B. cbn. destruct x; cbn; tauto.
      - destruct B as (lx & ly & ux & uy & -> & _). cbn. destruct x; cbn; split; intros K; try discriminate; auto. destruct K; discriminate. }
    rewrite X. split.
    + intros [[K|K]|(j & a & b & L & J1 & J2)]; [auto|right; exists 0%nat, nm, g0; split; [lia|auto]|right; exists (S j), a, b; split; [lia|auto]].
    + intros [K|(j & a & b & L & J1 & J2)]; [auto|]. destruct j as [|j]; cbn [nth_error] in J1; [apply some_inv in J1; apply pair_inv in J1 as (_ & <-); auto|]. right. exists j, a, b. split; [lia|auto].
Qed.
(** every sheet is there, under its name and in order *)
Theorem dxf_names : forall geoms, map fst (write_dxf geoms) = map fst geoms.
Proof. intros geoms. unfold write_dxf. generalize (Some 0). induction geoms as [|(nm, g) l IH]; intros x; cbn [place map fst]; [reflexivity|]. f_equal. apply IH. Qed.
(** each ring of a sheet gives one closed polyline, with the lowest outline point at height 0; the other
    coordinate is NaN exactly if a sheet before it has no outline *)
Theorem dxf_any : forall geoms k name g, nth_error geoms k = Some (name, g) -> outer_pts g <> [] ->
  exists dx dy, nth_error (write_dxf geoms) k = Some (name, map (moved dx dy) (rings g)) /\ is_min snd (outer_pts g) (- dy) /\ (dx = None <-> empty_before geoms k).
Proof.
  intros geoms k name g E NE. destruct (place_all geoms (Some 0) k name g E NE) as (dx & dy & H1 & H2 & H3). exists dx, dy. split; [exact H1|]. split; [exact H2|]. rewrite H3. split; [intros [K|K]; [discriminate|auto]|auto].
Qed.
Print Assumptions dxf_names.
Print Assumptions dxf_any.
(** ** Non-vacuity: a square, an empty sheet, the square again *)
Example dxf_any_ex : let sq := [mkSpwh [(zq 2, zq 5); (zq 2, zq 9); (zq 9, zq 9); (zq 9, zq 5)] []] in
  match write_dxf [("s0", sq); ("s1", []); ("s2", sq)]%string with
  | [(_, [l0]); (_, []); (_, [l2])] => hd (None, None) l0 = (Some (zq 3), Some 0) /\ map fst l2 = repeat None 5 /\ map snd l2 = map Some [0; zq 4; zq 4; 0; 0]
  | _ => False end.
Proof. vm_compute. auto. Qed.
