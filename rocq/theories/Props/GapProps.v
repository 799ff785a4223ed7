(** * The crossing of two plates has no gap that is still allowed: C123 *)
From Verif.Spec Require Import Plane Region PointSet1 Fingers Crisp Space Steps.
From Verif.Model Require Import Arrangement2d Geom2d Geom1d Sheetplex Sheetbuild Heuristics Canned Frames.
From Verif.Proofs Require Import PyP PolyP PlanarP ExtOrd DictP Geom1dP SheetplexP FingerP SheetbuildP CreateP HeuristicsP HeuStepsP StepsP SpaceP FullP.
From Verif.Props Require Import Geom1dProps SheetplexProps SheetbuildProps JointProps CannedProps CrispProps RunSharpProps StepsProps AssignProps FingerAreaProps SpaceProps AssemblyProps CompleteProps.
From Coq Require Import String Permutation.
Open Scope Qc_scope.

(** the finite ends of the intervals of [w] *)
Definition ends (w : geom1d) : list Qc := flat_map (fun i => match fst i with Fin q => [q] | _ => [] end) w.
Lemma ends_in w x : (exists b, In (Fin x, b) w) -> In x (ends w).
Proof. intros (b & I). apply in_flat_map. exists (Fin x, b). split; [exact I|now left]. Qed.

(** The point [x] of the crossing of the plates of [s] and [o] is material of the sheet of [s], or that sheet may not have it
    in the state [b] *)
Definition taken_or_barred (plates : string -> plate) (sb b : sbuild) (s : interside) (x : vec3) : Prop :=
  g2_locate (geom_at (sb_schosen sb) (is_sheet s)) (footprint (plates (is_sheet s)) x) = Ok 1%Z \/
  g2_locate (geom_at (sb_sok b) (is_sheet s)) (footprint (plates (is_sheet s)) x) <> Ok 1%Z.

Theorem crossing_settled : forall orc fsqrt R mn mx ord sord norm plates rof sp rad ci sb h, root_ok fsqrt -> rng_ok R -> 0 < mn -> mn <= mx ->
  space_plex norm plates sp -> plex_clean sp -> (forall c, Permutation c (ord c)) ->
  canned_1 (segment_arrangement orc) fsqrt idq R mn mx ord sord None rof sp rad ci = Ok (mkCanned true sb h) ->
  exists b b', nth_error h 10 = Some b /\ nth_error h 12 = Some b' /\ forall s o, joint sp s o -> exists d l, normal d /\ small d /\ forall x, let t := along s (footprint (plates (is_sheet s)) x) in
    inside_slab (plates (is_sheet s)) x -> inside_slab (plates (is_sheet o)) x -> ~ pts d t -> ~ In t l -> pts (ok_of b (is_id s)) t ->
    scrap b (is_id s) (is_id o) t \/
    (inside1 (chosen_of sb (is_id s)) t /\ taken_or_barred plates sb b' s x) \/ (inside1 (chosen_of sb (is_id o)) t /\ taken_or_barred plates sb b' o x).
Proof.
  intros orc fsqrt R mn mx ord sord norm plates rof sp rad ci sb h RO RG P1 P2 SP PC O H. pose proof (space_made _ _ _ SP) as M.
  destruct (joints_filled _ _ _ _ _ _ _ _ _ _ _ _ _ RG P1 P2 M O H) as (b & E10 & JF).
  destruct (chosen_crossing_filled _ _ _ _ _ _ _ _ _ _ _ _ _ _ _ _ RO SP PC O H) as (b' & E12 & CF).
  exists b, b'. split; [exact E10|]. split; [exact E12|]. intros s o J. destruct (JF s o J) as (d & Nd & Sd & D).
  exists d, (ends (chosen_of sb (is_id s)) ++ ends (chosen_of sb (is_id o))). split; [exact Nd|]. split; [exact Sd|]. intros x t X1 X2 ND NL K.
  pose proof (joint_sym _ _ _ M J) as J'. destruct (joint_coordinate _ _ _ _ _ SP J) as (_ & SAME & _). specialize (SAME x). fold t in SAME.
  assert (LG : legal sp sb).
  { destruct (canned_reaches (segment_arrangement orc) fsqrt idq R mn mx ord sord _ _ _ _ _ _ _ _ _ (geoms_closed (segment_arrangement orc) fsqrt) M O H) as (s0 & s1 & C1 & S1 & sok & -> & _).
    pose proof (legal_steps (segment_arrangement orc) sp M _ _ (proj1 (create_inv1 _ _ _ _ _ M C1)) S1) as L. destruct L as [Y1 Y2 Y3 Y4]. constructor; auto. }
  assert (IN : forall u, (u = s \/ u = o) -> pts (chosen_of sb (is_id u)) t -> inside1 (chosen_of sb (is_id u)) t).
  { intros u U P. destruct (inside_or_end _ t (is_geom1d_normal _ (proj1 (iv_normal _ _ LG (is_id u)))) P) as [I|I]; [exact I|]. destruct NL. apply in_or_app. apply ends_in in I. destruct U as [-> | ->]; auto. }
  assert (TB : forall u v, joint sp u v -> inside_slab (plates (is_sheet u)) x -> inside_slab (plates (is_sheet v)) x -> along u (footprint (plates (is_sheet u)) x) = t -> inside1 (chosen_of sb (is_id u)) t -> taken_or_barred plates sb b' u x).
  { intros u v Ju Xu Xv Eu I. unfold taken_or_barred. rewrite <- Eu in I. pose proof (CF u v x Ju Xu Xv I) as G. destruct (g2_locate (geom_at (sb_sok b') (is_sheet u)) (footprint (plates (is_sheet u)) x)) as [z|e] eqn:EL; [|right; discriminate].
    destruct (Z.eq_dec z 1) as [->|NZ]; [left; apply G; reflexivity|right; congruence]. }
  destruct (D t ND) as (_ & F). destruct (F K) as [C|[C|C]]; [right; left|right; right|left; exact C].
  - apply IN in C; [|auto]. split; [exact C|]. exact (TB s o J X1 X2 eq_refl C).
  - apply IN in C; [|auto]. split; [exact C|]. exact (TB o s J' X2 X1 (eq_sym SAME) C).
Qed.
Print Assumptions crossing_settled.

(** Non-vacuity: the two sheets of [AssemblyEx] ([assembly_ex] shows that the hypotheses about them hold), each allowed the whole joint.
    The last two steps that choose divide the points of the crossing among the sheets. *)
Module GapEx.
Definition R : rng := mkRng (fun _ l => rev l) (fun _ lo hi => (lo + hi) / zq 2) (fun _ lo _ => lo).
Definition row (sb : sbuild) : result (list (list Z)) :=
  mapM (fun t => mapM (fun k => g2_locate (geom_at (sb_schosen sb) k) (footprint (AssemblyEx.plates k) (V3 (zq t) (zq 2) (zq 2)))) ["s0"; "s1"]%string) [1; 3; 7; 13; 17; 19]%Z.
End GapEx.
Example gap_ex : (st <- choose_the_ok_side (segment_arrangement (fun _ _ _ => O)) (CompleteEx.st, 1%Z) ;; st <- single_fingers_random (segment_arrangement (fun _ _ _ => O)) idq GapEx.R (zq 3) (zq 5) st ;; GapEx.row (fst st)) =
  Ok [[-1; 1]; [-1; 1]; [1; -1]; [1; -1]; [-1; 1]; [-1; 1]]%Z.
Proof. vm_compute. reflexivity. Qed.
