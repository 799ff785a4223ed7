(** * Spec: geometries without slits *)
From Verif.Spec Require Export Plane Region.
From Verif.Model Require Import Types2d Geom2d.

(** closer than [eps] in both coordinates *)
Definition near (eps : Qc) (p q : point) : Prop := qabs (fst q - fst p) < eps /\ qabs (snd q - snd p) < eps.

(** every boundary point is a limit of points inside and of points outside *)
Definition crisp (g : geom2d) : Prop := forall p eps, on_bd g p -> 0 < eps ->
  (exists q, near eps p q /\ ~ on_bd g q /\ in_geom g q) /\ (exists q, near eps p q /\ ~ on_bd g q /\ ~ in_geom g q).

(** the winding number around the ring changes at each of its points: the ring does not run back along itself *)
Definition clean (r : list point) : Prop := forall p eps, on_boundary r p -> 0 < eps ->
  exists q q' w w', near eps p q /\ near eps p q' /\ ~ on_boundary r q /\ ~ on_boundary r q' /\
    winding_number r q w /\ winding_number r q' w' /\ w <> w'.
Definition clean_geom (g : geom2d) : Prop := forall r, ring_of g r -> clean r.

(** same interior, same boundary, same outside *)
Definition same_region (a b : geom2d) : Prop := forall p, (on_bd a p <-> on_bd b p) /\ (~ on_bd a p -> (in_geom a p <-> in_geom b p)).

Definition sharp (g : geom2d) : Prop := is_geom2d g /\ crisp g /\ clean_geom g.

(** what [r] has to answer at [p], boundary included, to be the set of the points satisfying [P], a predicate that is only looked at
    off the boundaries of [gs] *)
Definition locates (gs : list geom2d) (P : point -> Prop) (r : geom2d) : Prop := forall p,
  let around (Q : point -> Prop) := exists eps, 0 < eps /\ forall q, near eps p q -> off_all gs q -> Q q in
  let touches (Q : point -> Prop) := forall eps, 0 < eps -> exists q, near eps p q /\ off_all gs q /\ Q q in
  (g2_locate r p = Ok 1%Z <-> around P) /\ (g2_locate r p = Ok (-1)%Z <-> around (fun q => ~ P q)) /\
  (g2_locate r p = Ok 0%Z <-> touches P /\ touches (fun q => ~ P q)).

(** ** expressions over [|], [&], [-] and [union] *)
Inductive rexp : Type := Var (i : nat) | Or (e f : rexp) | And (e f : rexp) | Sub (e f : rexp) | Union (es : list rexp).
Fixpoint truth (rho : nat -> bool) (e : rexp) : bool :=
  match e with
  | Var i => rho i
  | Or e f => truth rho e || truth rho f
  | And e f => truth rho e && truth rho f
  | Sub e f => truth rho e && negb (truth rho f)
  | Union es => existsb (truth rho) es
  end.
