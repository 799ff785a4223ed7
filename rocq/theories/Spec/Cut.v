(** * Spec: the cut lines of a geometry *)
From Verif.Spec Require Export Plane Region.
From Verif.Model Require Import Types2d Geom2d.

(** the closed outlines that are drawn, and their edges by position *)
Definition outlines (g : geom2d) : list (list point) := flat_map (fun s => outer s :: holes s) g.
Definition cut (g : geom2d) (k i : nat) (e : segment) : Prop :=
  exists r, nth_error (outlines g) k = Some r /\ nth_error (cyclic_pairs r) i = Some e.
(** strictly between the ends *)
Definition between_ends (e : segment) (x : point) : Prop := exists t, 0 < t /\ t < 1 /\ x = at_t e t.

(** cut lines meet in their end points only: no crossing, no T-junction, nothing is cut twice *)
Definition no_crossing (g : geom2d) : Prop := forall k i e k' i' e' x,
  cut g k i e -> cut g k' i' e' -> between_ends e x -> on_seg e' x -> k = k' /\ i = i'.

(** next to [e], on the side of the directions [d] accepted by [side], [P] holds *)
Definition beside (side : Qc -> Prop) (e : segment) (P : point -> Prop) : Prop := forall x d, between_ends e x -> side (cross (vsub (snd e) (fst e)) d) ->
  exists k, 0 < k /\ forall t, 0 < t -> t <= k -> P (vadd x (vscale t d)).
Definition on_right := beside (fun c => c < 0).
Definition on_left := beside (fun c => 0 < c).
Definition material (g : geom2d) (p : point) : Prop := ~ on_bd g p /\ in_geom g p.
Definition waste (g : geom2d) (p : point) : Prop := ~ on_bd g p /\ ~ in_geom g p.

(** every cut line separates material from waste: material to the right of the outer lines, to the left of the lines of holes *)
Definition separating (g : geom2d) : Prop :=
  (forall s e, In s g -> is_edge (outer s) e -> on_right e (material g) /\ on_left e (waste g)) /\
  (forall s h e, In s g -> In h (holes s) -> is_edge h e -> on_left e (material g) /\ on_right e (waste g)).

Definition cuttable (g : geom2d) : Prop := no_crossing g /\ separating g.
