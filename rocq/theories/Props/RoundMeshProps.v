(** * C143: float64 runs on a mesh.  create_sheetbuild allows no position beyond 1000 along a joint, so the hypothesis of C138
      about short stretches holds by itself. *)
From Verif.Spec Require Import Plane Region PointSet1 Fingers Crisp Simple Space Shadow Steps Double.
From Verif.Model Require Import Arrangement2d Geom2d Geom1d Sheetplex Sheetbuild Heuristics Canned CreateSheets Frames SpaceMesh.
From Verif.Proofs Require Import PyP PolyP WindingP PlanarP ExtOrd DictP Geom1dP Geom1dM NearP Geom2dP Geom2dOps ArrSoundP SheetplexP FingerP SheetbuildP CreateP CoverP CrispP CrispQ BufferP BufSharpQ RunSharpP HeuristicsP TrimP TrimQ HeuStepsP StepsP SpaceP FullP AssemblyP.
From Verif.Props Require Import LocateProps Geom1dProps Geom2dProps SheetplexProps SheetbuildProps JointProps CannedProps CreateSheetsProps CrispProps RunSharpProps TrimProps MeshProps AssignProps RoundAssignProps StepsProps FingerAreaProps SpaceProps AssemblyProps CompleteProps SpaceMeshProps GapProps RoundRunProps PlainProps MeshAssemblyProps.
From Coq Require Import String Permutation.
Open Scope Qc_scope.

Section Fresh.
Variable orc : list segment -> nat -> nat -> nat.
Variable fsqrt : Qc -> Qc.
Let A := segment_arrangement orc.
Variable sp : sheetplex.
Hypothesis M : plex_made sp.
Hypothesis PC : plex_clean sp.
Hypothesis U : forall s, side_of sp s -> Geom2d.dot (is_dir s) (is_dir s) = 1.
Variable rad : pynum.
Variable sb : sbuild.
Hypothesis RO : root_ok fsqrt.
Hypothesis C : create_sheetbuild A fsqrt sp rad = Ok sb.

Lemma side_within s v y : side_of sp s -> init_side_ok A sp (sb_sok sb) s = Ok v -> pts v y -> zq (-1000) <= y /\ y < zq 1000.
Proof.
  intros Hs H Y. pose proof (U s Hs) as US. destruct RO as (F1 & F2 & F3). pose proof (proj2 (create_sharp orc fsqrt F1 F2 F3 sp rad sb (plex_clean_neat sp PC) C (is_sheet s))) as S0.
  unfold init_side_ok in H. apply bind_ok in H as (k & H1 & H). apply bind_ok in H as (sh & H2 & H). apply bind_ok in H as (a & H3 & H). apply bind_ok in H as (r & H4 & H). apply bind_ok in H as (f & H5 & H). apply bind_ok in H as (x & H6 & H).
  apply dgetr_ok in H1. apply geom_at_get in H1. rewrite H1 in *. apply dgetr_ok in H2. pose proof (dget_in _ string_eqb_ok _ _ _ H2) as Ish.
  destruct (span_ok (zq (-1000)) (zq 1000)) as (r' & R1 & Nr & Pr); [vm_compute; discriminate|]. rewrite R1 in H4. apply Ok_inv in H4 as <-.
  assert (Gr : is_geom1d r') by (exists (ENew [[NMpq (zq (-1000)); NMpq (zq 1000)]]); exact R1).
  assert (LH : zq (-1000) < zq 1000) by (vm_compute; reflexivity).
  clear R1. set (lo := zq (-1000)) in *. set (hi := zq 1000) in *. clearbody lo hi.
  pose proof (plex_clean_neat sp PC _ sh Ish) as (_ & _ & Nm). pose proof (and_neat orc _ _ a (sharp_neat _ S0) Nm H3) as Sa. pose proof (fingers_sharp orc s r' f H5) as Sf. pose proof (and_sharp orc a f x Sa Sf H6) as Sx.
  assert (FR : frame_ok s /\ offset_at s 0 <> offset_at s 1).
  { destruct r' as [|i w]; [|exact (TrimP.fingers_frame orc s w i f (made_rot sp s M Hs) H5)]. exfalso. destruct (proj2 (Pr lo)) as (? & [] & _). split; qlra. }
  destruct FR as (FO & NO).
  assert (NV : is_dir s <> (0, 0)) by (intros E; rewrite E in US; unfold Geom2d.dot in US; cbn [fst snd] in US; apply (f_equal this) in US; vm_compute in US; discriminate).
  pose proof (proj1 (projection_is_shadow x (is_dir s) (- is_offs s) v Sx NV H y) Y) as SHD.
  destruct (op_segs _ _ _ (g2_and_ok A a f x (arrangement_sound orc) (proj1 Sa) (proj1 Sf) H6)) as (S2 & O2).
  assert (IN : forall p, g2_locate x p = Ok 1%Z -> lo <= along s p /\ along s p < hi).
  { intros p L. destruct (sharp_locate f p Sf) as (n & N). assert (E : n = 1%Z).
    { destruct (crisp_locates f p (proj1 Sf) (proj1 (proj2 Sf))) as [(Z & _)|[(Z & _)|(Z & _)]]; rewrite N in Z; apply Ok_inv in Z as ->; auto; exfalso.
      all: destruct (differ_near f x p _ _ Sf Sx N L ltac:(lia) S2 1 ltac:(vm_compute; reflexivity)) as (q & _ & Oq & Ix & NIf); apply NIf; apply (O2 q Oq) in Ix; tauto. }
    subst n. assert (NB : ~ on_bd f p). { destruct (crisp_locates f p (proj1 Sf) (proj1 (proj2 Sf))) as [(Z & _)|[(_ & B & _)|(Z & _)]]; auto; rewrite N in Z; discriminate. }
    destruct (make_fingers_band orc s r' 0 1 f FO NO Gr H5) as (_ & _ & X). apply (X p NB) in N as (I1 & _).
    apply Pr. destruct I1 as (i & I & J1 & J2). exists i. split; auto. split; [|exact J2]. destruct (fst i); cbn [elt ele] in *; auto. change (q < along s p) in J1. change (q <= along s p). qlra. }
  assert (AL : forall p, Geom2d.dot p (is_dir s) + - is_offs s = along s p).
  { intros p. unfold along. rewrite US. unfold Qcdiv. rewrite (qc_inv1 : / 1 = 1). ring. }
  split.
  - destruct (qleb_spec lo y) as [|L]; auto. exfalso. destruct (SHD (lo - y)) as (p & P1 & P2 & P3); [qlra|]. rewrite AL in P2. destruct (IN p P3). qlra.
  - destruct (SHD 1) as (p & P1 & P2 & P3); [vm_compute; reflexivity|]. rewrite AL in P1. destruct (IN p P3). qlra.
Qed.
Lemma opposites_shrink l : forall iok iok', foldM (and_opposite sp) l iok = Ok iok' -> (forall id v, dget id2_eqb id iok = Some v -> is_geom1d v) ->
  forall id y, pts (opt (dget id2_eqb id iok')) y -> pts (opt (dget id2_eqb id iok)) y.
Proof.
  induction l as [|t l IH]; intros iok iok' H G id y Y; cbn [foldM] in H; [apply Ok_inv in H as <-; auto|]. apply bind_ok in H as (m & F & H).
  unfold and_opposite, iget in F. apply bind_ok in F as (a & F1 & F). apply bind_ok in F as (o1 & F2 & F). apply bind_ok in F as (b & F3 & F). apply bind_ok in F as (r & F4 & F). apply Ok_inv in F as <-. apply dgetr_ok in F1, F3.
  pose proof (is_geom1d_normal _ (G _ _ F1)) as Na. pose proof (is_geom1d_normal _ (G _ _ F3)) as Nb.
  apply (IH _ _ H) in Y.
  - rewrite (dget_dset _ id2_eqb_ok) in Y. destruct (eqb_case _ id2_eqb_ok id (is_id t)) as [(Q & ->)|(Q & E)]; rewrite Q in Y; auto. rewrite F1. cbn [opt] in *. now apply (and_pts a b r y Na Nb F4) in Y.
  - intros j v. rewrite (dget_dset _ id2_eqb_ok). destruct (id2_eqb j (is_id t)); [|now apply G]. intros E. apply some_inv in E as <-. exact (is_geom1d_and _ _ _ (G _ _ F1) (G _ _ F3) F4).
Qed.
Lemma fresh_within j y : pts (ok_of sb j) y -> zq (-1000) <= y /\ y < zq 1000.
Proof.
  intros Y. pose proof C as C'. apply create_parts in C' as (sc0 & iok & _ & _ & _ & E3 & E4 & _ & P).
  pose proof (proj2 (dict_of_get _ id2_eqb_ok _ _ _ _ _ E3)) as DG.
  apply (opposites_shrink _ _ _ E4) in Y; [|intros id x X; apply DG in X as [X|(t & _ & _ & X)]; [discriminate|exact (init_side_geom _ _ _ _ _ X)]].
  destruct (dget id2_eqb j iok) as [v|] eqn:D; [|destruct Y as (? & [] & _)]. cbn [opt] in Y. apply DG in D as [D|(t & It & _ & D)]; [discriminate|].
  apply (made_list _ _ M) in It. exact (side_within t v y It D Y).
Qed.
End Fresh.

(** whatever a run returns: no position beyond 1000 along a joint is allowed to either side *)
Theorem positions_within : forall orc fsqrt fl R mn mx ord sord norm plates show rof sp rad ci ok sb h, root_ok fsqrt -> space_plex norm plates sp -> plex_clean sp -> (forall c, Permutation c (ord c)) ->
  canned_1 (segment_arrangement orc) fsqrt fl R mn mx ord sord show rof sp rad ci = Ok (mkCanned ok sb h) -> forall j y, pts (ok_of sb j) y -> zq (-1000) <= y /\ y < zq 1000.
Proof.
  intros orc fsqrt fl R mn mx ord sord norm plates show rof sp rad ci ok sb h RO SP PC O H j y Y. pose proof (space_made _ _ _ SP) as M. set (A := segment_arrangement orc) in *.
  destruct (canned_reaches A fsqrt fl R mn mx ord sord _ _ _ _ _ _ _ _ _ (geoms_closed A fsqrt) M O H) as (sb0 & sb1 & C & S1 & sok & -> & _).
  pose proof (steps_move A (Kc:=geoms_of A) sp M _ _ (proj1 (create_inv1 _ _ _ _ _ M C)) S1) as MV. apply (fresh_within orc fsqrt sp M PC) with (rad := rad) (sb := sb0) (j := j); auto.
  - intros s Hs. destruct (made_opp _ _ M Hs) as (o & Ho & _). exact (proj1 (proj2 (proj2 (space_frame _ _ _ s o SP (conj Hs Ho))))).
  - apply (MV j y). exact Y.
Qed.
Print Assumptions positions_within.

(** so no allowed stretch is longer than 2000 *)
Lemma fresh_short orc fsqrt norm plates sp rad sb mn N : root_ok fsqrt -> space_plex norm plates sp -> plex_clean sp -> create_sheetbuild (segment_arrangement orc) fsqrt sp rad = Ok sb -> zq 2000 <= mn * zq N -> short_ok mn N sb.
Proof.
  intros RO SP PC C B j x y Z. pose proof (space_made _ _ _ SP) as M.
  assert (W : forall z, pts (ok_of sb j) z -> zq (-1000) <= z /\ z < zq 1000).
  { intros z. apply (fresh_within orc fsqrt sp M PC) with (rad := rad); auto. intros s Hs. destruct (made_opp _ _ M Hs) as (o & Ho & _). exact (proj1 (proj2 (proj2 (space_frame _ _ _ s o SP (conj Hs Ho))))). }
  assert (E : zq 2000 = zq 1000 - zq (-1000)) by (apply Qc_is_canon; reflexivity). assert (P : zq (-1000) < zq 1000) by (vm_compute; reflexivity). rewrite E in B. set (lo := zq (-1000)) in *. set (hi := zq 1000) in *. set (m := mn * zq N) in *. clearbody lo hi m. clear E.
  destruct (Qclt_le_dec x y) as [L|L]; [|qlra]. assert (X0 : x <= x) by qlra. destruct (W x (Z x X0 L)) as (X1 & X2).
  destruct (qleb_spec y hi) as [Q|Q]; [qlra|]. exfalso. assert (X3 : x <= hi) by qlra. destruct (W hi (Z hi X3 ltac:(qlra))). qlra.
Qed.
Theorem crossing_settled_within : forall orc fsqrt fl R mn mx d0 M0 N ord sord norm plates rof sp rad ci sb h, root_ok fsqrt -> rounds fl R mn mx d0 M0 N -> zq 2000 <= mn * zq N ->
  space_plex norm plates sp -> plex_clean sp -> (forall c, Permutation c (ord c)) ->
  canned_1 (segment_arrangement orc) fsqrt fl R mn mx ord sord None rof sp rad ci = Ok (mkCanned true sb h) ->
  exists b b1 b', nth_error h 10 = Some b /\ nth_error h 11 = Some b1 /\ nth_error h 12 = Some b' /\ forall s o, joint sp s o -> exists d l E, normal d /\ small d /\ (forall e, In e E -> open_before b1 s o e) /\ forall x, let t := along s (footprint (plates (is_sheet s)) x) in
    inside_slab (plates (is_sheet s)) x -> inside_slab (plates (is_sheet o)) x -> ~ pts d t -> ~ near_ends (gap d0 N) E t -> ~ In t l -> pts (ok_of b (is_id s)) t ->
    scrap b (is_id s) (is_id o) t \/
    (inside1 (chosen_of sb (is_id s)) t /\ taken_or_barred plates sb b' s x) \/ (inside1 (chosen_of sb (is_id o)) t /\ taken_or_barred plates sb b' o x).
Proof.
  intros orc fsqrt fl R mn mx d0 M0 N ord sord norm plates rof sp rad ci sb h RO RG B SP PC O H.
  apply (crossing_settled_rounded orc fsqrt fl R mn mx d0 M0 N ord sord norm plates rof sp rad ci sb h RO RG SP PC O H). intros b0 E0.
  destruct (canned_history _ _ _ _ _ _ _ _ _ _ _ _ _ _ H) as (sb0 & ci0 & sts & C & -> & _). cbn [nth_error] in E0. apply some_inv in E0 as <-. exact (fresh_short orc fsqrt norm plates sp rad sb0 mn N RO SP PC C B).
Qed.
Print Assumptions crossing_settled_within.

(** the same for the sheets of a mesh, with fingers placed in float64 *)
Section Mesh.
Variable orc : list segment -> nat -> nat -> nat.
Let A := segment_arrangement orc.
Variable orient : shpoly -> shpoly.
Variable norm : vec3 -> Qc.
Variable sect : Type.
Variable argsort : list Qc -> list nat.
Variable section_shape : sect -> shape.
Variable to_3D : sect -> mat4.
Variable sord : list nat -> list nat.
Variable thickness normal_tol offset_tol : Qc.
Let sheets := mesh_sheets A orient norm sect argsort section_shape to_3D sord thickness normal_tol offset_tol.
Let plex := mesh_sheetplex A orient norm sect argsort section_shape to_3D sord thickness normal_tol offset_tol.
Let plates := mesh_plates sect to_3D thickness offset_tol.
(** a generator as numpy's: permutations, numbers between the bounds up to one rounding of numbers of size [M], counts in range *)
Definition generator (R : rng) (M : Qc) : Prop := (forall k l, Permutation l (r_shuffle R k l)) /\
  (forall k lo hi, - M <= lo -> lo <= hi -> hi <= M -> lo - pow2 (-52) * M <= r_uniform R k lo hi /\ r_uniform R k lo hi <= hi + pow2 (-52) * M) /\
  (forall k lo hi, (lo < hi)%Z -> (lo <= r_randint R k lo hi < hi)%Z).
Theorem mesh_crossing_settled_double : forall fsqrt R mn mx N ord sord1 rof rad ci pord only m sp sb h,
  (forall l, Permutation l (sord l)) -> (forall d, Permutation d (pord d)) -> (forall c, Permutation c (ord c)) -> root_ok fsqrt ->
  qq 1 2 < mn -> mn <= mx -> (0 <= N)%Z -> zq 2000 <= mn * zq N -> let M := zq N * (mx + 1) + 1 in M <= pow2 50 -> generator R M ->
  0 < thickness -> mesh_ok orient norm sect section_shape to_3D m -> plex pord only m = Ok sp -> canned_1 A fsqrt dbl R mn mx ord sord1 None rof sp rad ci = Ok (mkCanned true sb h) ->
  exists cs b b1 b', sheets only m = Ok cs /\ nth_error h 10 = Some b /\ nth_error h 11 = Some b1 /\ nth_error h 12 = Some b' /\ forall s o, joint sp s o -> exists c c' d l E, In (is_sheet s, c) cs /\ In (is_sheet o, c') cs /\ normal d /\ small d /\
    (forall e, In e E -> open_before b1 s o e) /\
    forall x, inside_plate thickness c x -> inside_plate thickness c' x -> let t := along s (footprint (plates m cs (is_sheet s)) x) in
      ~ pts d t -> ~ near_ends ((zq 2 * zq N + zq 2) * (pow2 (-52) * M)) E t -> ~ In t l -> pts (ok_of b (is_id s)) t ->
      scrap b (is_id s) (is_id o) t \/
      (inside1 (chosen_of sb (is_id s)) t /\ taken_or_barred (plates m cs) sb b' s x) \/ (inside1 (chosen_of sb (is_id o)) t /\ taken_or_barred (plates m cs) sb b' o x).
Proof.
  intros fsqrt R mn mx N ord sord1 rof rad ci pord only m sp sb h SO PO OO RO M0 MM N0 B M MB (G1 & G2 & G3) T MK P C.
  pose proof (double_rounds R mn mx M N N0 MB M0 MM ltac:(unfold M; qlra) G1 G2 G3) as RG.
  destruct (mesh_setup orc orient norm sect argsort section_shape to_3D sord thickness normal_tol offset_tol pord only m sp SO PO T MK P) as (cs & CS & SP & PC & IS & SD & PL).
  destruct (crossing_settled_within orc fsqrt dbl R mn mx _ _ N ord sord1 norm _ rof sp rad ci sb h RO RG B SP PC OO C) as (b & b1 & b' & E0 & E1 & E2 & K). exists cs, b, b1, b'. do 4 (split; auto). intros s o J.
  destruct (SD s (proj1 J)) as (c & I). destruct (SD o (proj1 (joint_sym _ _ _ (space_made _ _ _ SP) J))) as (c' & I'). destruct (K s o J) as (d & l & E & N1 & S1 & OE & KK). exists c, c', d, l, E. do 5 (split; auto).
  intros x X1 X2 t. apply KK.
  - now apply (proj2 (proj2 (proj2 (PL _ _ I))) x).
  - now apply (proj2 (proj2 (proj2 (PL _ _ I'))) x).
Qed.
End Mesh.
Print Assumptions mesh_crossing_settled_double.

(** the default widths 3 and 5: 667 fingers reach, and the gaps are below 1e-8 *)
Example default_widths : zq 2000 <= zq 3 * zq 667 /\ zq 667 * (zq 5 + 1) + 1 <= pow2 50 /\ (zq 2 * zq 667 + zq 2) * (pow2 (-52) * (zq 667 * (zq 5 + 1) + 1)) < e8.
Proof. repeat split; vm_compute; congruence. Qed.
Example default_generator : generator GapEx.R (zq 667 * (zq 5 + 1) + 1).
Proof.
  split; [intros k l; apply Permutation_rev|]. split; [|intros k lo hi L; cbn [GapEx.R r_randint]; lia].
  intros k lo hi _ L _. cbn [GapEx.R r_uniform]. assert (P : 0 <= pow2 (-52) * (zq 667 * (zq 5 + 1) + 1)) by (vm_compute; congruence). set (p := pow2 (-52) * (zq 667 * (zq 5 + 1) + 1)) in *. clearbody p.
  assert (E : (lo + hi) / zq 2 + (lo + hi) / zq 2 = lo + hi). { replace (zq 2) with (1 + 1) by (apply Qc_is_canon; reflexivity). field. intros X. apply (f_equal this) in X. discriminate X. }
  set (m := (lo + hi) / zq 2) in *. clearbody m. split; qlra.
Qed.
