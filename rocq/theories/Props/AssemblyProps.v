(** * The assembled sheets: C115 - C117 *)
From Verif.Spec Require Import Plane Region PointSet1 Fingers Crisp Simple Trim Space.
From Verif.Model Require Import Arrangement2d Geom2d Geom1d Sheetplex Sheetbuild Heuristics Canned Frames.
From Verif.Proofs Require Import PyP PolyP WindingP WindingR PlanarP ExtOrd DictP Geom1dP NearP Geom2dP Geom2dOps ArrSoundP SheetplexP FingerP SheetbuildP CreateP CoverP CrispP CrispQ BufferP BufSharpQ RunSharpP HeuristicsP ClusterP HeuStepsP TrimP TrimQ SpaceP AssemblyP SupportP.
From Verif.Props Require Import Geom1dProps SheetplexProps Geom2dProps SheetbuildProps JointProps CannedProps CrispProps BufferExactProps RunSharpProps FingerAreaProps SpaceProps.
From Coq Require Import String Permutation.
Open Scope Qc_scope.

(** every ring of the faces is simple and no polygon lies in a hole of another *)
Definition plex_simple (sp : sheetplex) : Prop := forall k sh g, In (k, sh) (sp_sheets sp) -> In g [sh_face0 sh; sh_face1 sh] -> tidy g /\ no_nesting g.

Lemma dict_of_has {X V} (key : X -> string) (f : X -> result V) l : forall m m', foldM (fun m x => v <- f x ;; Ok (dset String.eqb (key x) v m)) l m = Ok m' ->
  forall k, In k (keys m) \/ In k (map key l) -> In k (keys m').
Proof.
  induction l as [|x l IH]; intros m m' H k K; cbn [foldM] in H; [apply Ok_inv in H as <-; destruct K as [|[]]; auto|].
  apply bind_ok in H as (m1 & H1 & H). apply bind_ok in H1 as (v & E & H1). apply Ok_inv in H1 as <-. apply (IH _ _ H). rewrite (in_keys_dset _ string_eqb_ok). cbn [map In] in K. destruct K as [K|[K|K]]; auto.
Qed.
(** ** C115: what create_sheetbuild chooses is within what it allows *)
Theorem chosen_supported : forall orc fsqrt sp rad q sb, root_ok fsqrt -> plex_made sp -> plex_clean sp -> plex_simple sp -> pval rad = Some (Fin q) -> 1 < q ->
  create_sheetbuild (segment_arrangement orc) fsqrt sp rad = Ok sb -> forall k p, exists x y,
    g2_locate (geom_at (sb_schosen sb) k) p = Ok x /\ g2_locate (geom_at (sb_sok sb) k) p = Ok y /\ (x <= y)%Z.
Proof.
  intros orc fsqrt sp rad q sb RO M PC PS V Q C k p. pose proof (plex_clean_geoms _ PC) as PG. pose proof (plex_clean_neat sp PC) as PN. pose proof RO as (F1 & F2 & F3).
  pose proof (create_sharp orc fsqrt F1 F2 F3 sp rad sb PN C k) as (S1 & S2). set (A := segment_arrangement orc) in *.
  enough (H : exists S, forall z, off_segs S z -> in_geom (geom_at (sb_schosen sb) k) z -> in_geom (geom_at (sb_sok sb) k) z) by (destruct H as (S & H); exact (sharp_le _ _ S p S1 S2 H)).
  pose proof (proj1 (create_inv1 _ _ _ _ _ M C)) as L. apply create_parts in C as (sc0 & iok & E1 & E2 & _ & E3 & E4 & E5 & P).
  pose proof (dict_of_get _ string_eqb_ok _ _ _ _ _ E1) as (_ & D1). pose proof (dict_of_has _ _ _ _ _ E2) as K2. pose proof (dict_of_get _ string_eqb_ok _ _ _ _ _ E2) as (_ & D2). pose proof (dict_of_get _ id2_eqb_ok _ _ _ _ _ E3) as (N3 & _).
  specialize (N3 ltac:(constructor)). pose proof (and_opposites_nodup _ _ _ _ E4 N3) as N.
  assert (GV : forall id v, In (id, v) (sb_iok sb) -> is_geom1d v).
  { intros id v I. apply (dget_nodup _ id2_eqb_ok _ _ _ N) in I. pose proof (proj2 (iv_normal _ _ L id)) as G. unfold ok_of in G. now rewrite I in G. }
  assert (G0 : forall k, is_geom2d (geom_at sc0 k)).
  { intros j. unfold geom_at. destruct (dget String.eqb j sc0) as [g|] eqn:E; [|constructor]. apply D1 in E as [E|(sh & I & <- & E)]; [discriminate|]. cbn [opt]. exact (proj1 (init_chosen_within A (arrangement_sound orc) fsqrt sp M PG sh g I E)). }
  destruct (carve_all A (arrangement_sound orc) sp M _ GV sc0 (sb_schosen sb) G0 E5) as (_ & S0 & H0).
  unfold geom_at in H0. destruct (dget String.eqb k sc0) as [c|] eqn:Ec.
  2:{ exists S0. intros z Z I. apply (H0 z Z k) in I as (I & _). rewrite Ec in I. destruct I as (w & [] & _). }
  apply D1 in Ec as Ec'. destruct Ec' as [X|(sh & I & Ek & Hc)]; [discriminate|].
  assert (Kk : In k (keys (sb_sok sb))) by (apply K2; right; rewrite <- Ek; now apply in_map). apply (dget_some _ string_eqb_ok) in Kk as (g & Kg). rewrite (geom_at_get _ _ _ Kg).
  apply D2 in Kg as [X|(sh' & I' & Ek' & Hg)]; [discriminate|]. rewrite <- Ek in Ek'.
  destruct (slices_value sp M PG sh I) as (Gf0 & Gf1 & Gm & Es). 
  assert (sh' = sh). { apply in_map_iff in I as ((i & ?) & <- & I), I' as ((i' & ?) & <- & I'). cbn [snd] in *. destruct (made_sheets_fresh sp M) as (ND & NI). pose proof (NI _ _ I). pose proof (NI _ _ I'). apply (dget_nodup _ string_eqb_ok _ _ _ ND) in I, I'. congruence. } subst sh'.
  assert (IS : exists i, In (i, sh) (sp_sheets sp)) by (apply in_map_iff in I as ((i & ?) & <- & I); eauto). destruct IS as (i & IS). destruct (PN i sh IS) as (Nf0 & Nf1 & Nm). destruct (PS i sh (sh_face0 sh) IS) as (T0 & NN0); [cbn; auto|]. destruct (PS i sh (sh_face1 sh) IS) as (T1 & NN1); [cbn; auto|].
  unfold init_chosen in Hc. apply bind_ok in Hc as (b0 & C1 & Hc). apply bind_ok in Hc as (b1 & C2 & Hc). apply bind_ok in Hc as (m & C3 & Hc). apply buffer_zero in C3 as ->.
  unfold init_ok in Hg. apply bind_ok in Hg as (f0 & B1 & Hg). apply bind_ok in Hg as (f1 & B2 & Hg). apply bind_ok in Hg as (f & B3 & Hg). apply bind_ok in Hg as (m & B4 & Hg). apply buffer_zero in B4 as ->.
  pose proof (and_neat orc _ _ b0 Nf0 Nf1 C1) as Sb0. destruct (op_segs _ _ _ (g2_and_ok A _ _ _ (arrangement_sound orc) Gf0 Gf1 C1)) as (U1 & X1).
  pose proof (buffer_geom _ _ _ _ _ (arrangement_sound orc) (proj1 Sb0) C2) as Gb1. pose proof (buffer_geom _ _ _ _ _ (arrangement_sound orc) Gf0 B1) as Gq0. pose proof (buffer_geom _ _ _ _ _ (arrangement_sound orc) Gf1 B2) as Gq1.
  destruct (op_segs _ _ _ (g2_and_ok A _ _ _ (arrangement_sound orc) Gb1 Gm Hc)) as (U2 & X2). pose proof (g2_and_ok A _ _ _ (arrangement_sound orc) Gq0 Gq1 B3) as O3. destruct (op_segs _ _ _ O3) as (U3 & X3). destruct (op_segs _ _ _ (g2_and_ok A _ _ _ (arrangement_sound orc) (proj1 O3) Gm Hg)) as (U4 & X4).
  destruct (grown_within orc fsqrt RO b0 (sh_face0 sh) q f0 rad b1 (sharp_neat _ Sb0) Sb0 Gf0 T0 NN0) as (U5 & X5); auto. { exists U1. intros z Z J. exact (proj1 (proj1 (X1 z Z) J)). }
  destruct (grown_within orc fsqrt RO b0 (sh_face1 sh) q f1 rad b1 (sharp_neat _ Sb0) Sb0 Gf1 T1 NN1) as (U6 & X6); auto. { exists U1. intros z Z J. exact (proj2 (proj1 (X1 z Z) J)). }
  exists (S0 ++ U2 ++ U3 ++ U4 ++ U5 ++ U6). intros z Z J. apply off_segs_app in Z as (Z0 & Z). apply off_segs_app in Z as (Z1 & Z). apply off_segs_app in Z as (Z2 & Z). apply off_segs_app in Z as (Z3 & Z). apply off_segs_app in Z as (Z4 & Z).
  apply (H0 z Z0 k) in J as (J & _). rewrite Ec in J. cbn [opt] in J. apply (X2 z Z1) in J as (J1 & J2). apply (X4 z Z3). split; auto. apply (X3 z Z2). split; [apply (X5 z Z4); auto|apply (X6 z Z); auto].
Qed.
Print Assumptions chosen_supported.

(** ** C116: two sheets that have just been made do not meet *)
Lemma space_frame norm plates sp s o : space_plex norm plates sp -> joint sp s o -> frame_ok s /\ frame_ok o /\ Geom2d.dot (is_dir s) (is_dir s) = 1 /\ Geom2d.dot (is_dir o) (is_dir o) = 1.
Proof.
  intros SP J. destruct (space_joint _ _ _ _ _ SP J) as ((d & CR) & _).
  exact (conj (cr_frame1 _ _ _ _ _ CR) (conj (cr_frame2 _ _ _ _ _ CR) (conj (cr_unit1 _ _ _ _ _ CR) (cr_unit2 _ _ _ _ _ CR)))).
Qed.
Lemma joint_sym sp s o : plex_made sp -> joint sp s o -> joint sp o s.
Proof. intros M (Hs & Ho). destruct (made_opp _ _ M Hs) as (o' & O1 & O2 & Hso & _). rewrite Ho in O1. apply Ok_inv in O1 as <-. split; auto. Qed.
Lemma space_reach norm plates sp s o x : space_plex norm plates sp -> joint sp s o -> inside_slab (plates (is_sheet s)) x -> inside_slab (plates (is_sheet o)) x ->
  is_min s < across s (footprint (plates (is_sheet s)) x) /\ across s (footprint (plates (is_sheet s)) x) < is_max s.
Proof. intros SP J X1 X2. destruct (joint_band _ _ _ _ _ SP J) as (_ & BD & _). apply BD. exists x. auto. Qed.
Theorem fresh_no_collision : forall orc fsqrt norm plates sp rad q sb, root_ok fsqrt -> space_plex norm plates sp -> plex_clean sp -> plex_simple sp -> pval rad = Some (Fin q) -> 1 < q ->
  create_sheetbuild (segment_arrangement orc) fsqrt sp rad = Ok sb -> forall s o x, joint sp s o -> let a := is_sheet s in let b := is_sheet o in
  inside_slab (plates a) x -> inside_slab (plates b) x -> qabs (along s (footprint (plates a) x)) < zq 1000 ->
  ~ (g2_locate (geom_at (sb_schosen sb) a) (footprint (plates a) x) = Ok 1%Z /\ g2_locate (geom_at (sb_schosen sb) b) (footprint (plates b) x) = Ok 1%Z).
Proof.
  intros orc fsqrt norm plates sp rad q sb RO SP PC PS V Q C s o x J a b X1 X2 AL (L1 & L2). pose proof (space_made _ _ _ SP) as M.
  pose proof (joint_sym _ _ _ M J) as J'. destruct (space_frame _ _ _ _ _ SP J) as (FS & FO & U1 & U2). destruct (joint_coordinate _ _ _ _ _ SP J) as (_ & SAME & _). specialize (SAME x). fold a b in SAME.
  destruct (space_reach _ _ _ _ _ x SP J X1 X2) as (B1 & B2). destruct (space_reach _ _ _ _ _ x SP J' X2 X1) as (B3 & B4). fold a in B1, B2. fold b in B3, B4.
  apply qabs_lt in AL as (A1 & A2). assert (NEG : - zq 1000 = zq (-1000)) by (apply Qc_is_canon; reflexivity). rewrite NEG in A1.
  assert (OK : forall k p, g2_locate (geom_at (sb_schosen sb) k) p = Ok 1%Z -> g2_locate (geom_at (sb_sok sb) k) p = Ok 1%Z).
  { intros k p E. destruct (chosen_supported orc fsqrt sp rad q sb RO M PC PS V Q C k p) as (u & w & Eu & Ew & LE). rewrite E in Eu. apply Ok_inv in Eu as <-. rewrite Ew.
    destruct (create_sharp orc fsqrt (proj1 RO) (proj1 (proj2 RO)) (proj2 (proj2 RO)) sp rad sb (plex_clean_neat sp PC) C k) as (_ & S).
    destruct (crisp_locates _ p (proj1 S) (proj1 (proj2 S))) as [(Z & _)|[(Z & _)|(Z & _)]]; rewrite Ew in Z; apply Ok_inv in Z as ->; auto; lia. }
  destruct (fresh_apart orc fsqrt sp M PC rad sb RO C s o (footprint (plates a) x) (footprint (plates b) x) J FS FO U1 U2) as (NO & _); auto.
  - exact (conj B1 (conj B2 (conj A1 (conj A2 (OK _ _ L1))))).
  - rewrite SAME in A1, A2. exact (conj B3 (conj B4 (conj A1 (conj A2 (OK _ _ L2))))).
Qed.
Print Assumptions fresh_no_collision.

(** ** C117: where two sheets of a checked result meet *)
Lemma closed_limit w y e : normal w -> 0 < e -> (exists i, In i w /\ ele (fst i) (Fin y) /\ ele (Fin y) (snd i)) -> exists t, qabs t < e /\ inside1 w (y + t).
Proof.
  intros N E ((a & b) & I & L1 & L2). cbn [fst snd] in L1, L2. assert (L : elt a b).
  { clear -N I. induction w as [|(u & v) w IH]; [destruct I|]. destruct N as (N1 & N2 & _). destruct I as [I|I]; [injection I as <- <-; auto|auto]. }
  assert (HE : 0 < e * qq 1 2 /\ e * qq 1 2 < e) by (assert (HH : qq 1 2 + qq 1 2 = 1) by (apply Qc_is_canon; reflexivity); assert (P : 0 < e * qq 1 2) by (apply mpp; [auto|vm_compute; reflexivity]); split; auto; assert (e * qq 1 2 + e * qq 1 2 = e) by (rewrite <- (Qcmult_1_r e) at 3; rewrite <- HH; ring); qlra).
  destruct HE as (H0 & H1). set (h := e * qq 1 2) in *. clearbody h.
  assert (X : exists t, qabs t < e /\ elt a (Fin (y + t)) /\ elt (Fin (y + t)) b).
  { destruct a as [|a|]; [| |destruct L1]; (destruct b as [|b|]; [try destruct L2| |]).
    - change (y <= b) in L2. exists (- h). split; [apply qabs_lt; split; qlra|]. split; [exact Logic.I|]. change (y + - h < b). qlra.
    - exists 0. split; [apply qabs_lt; split; qlra|]. split; exact Logic.I.
    - change (a <= y) in L1. change (y <= b) in L2. change (a < b) in L. set (m := (a + b) * qq 1 2). assert (HH : qq 1 2 + qq 1 2 = 1) by (apply Qc_is_canon; reflexivity).
      assert (M1 : a < m /\ m < b). { assert (0 < (b - a) * qq 1 2) by (apply mpp; [qlra|vm_compute; reflexivity]). assert (Ea : a * qq 1 2 + a * qq 1 2 = a) by (rewrite <- (Qcmult_1_r a) at 3; rewrite <- HH; ring). assert (Eb : b * qq 1 2 + b * qq 1 2 = b) by (rewrite <- (Qcmult_1_r b) at 3; rewrite <- HH; ring). unfold m. split; qlra. }
      clearbody m. destruct M1 as (M1 & M2). destruct (qleb_spec y m) as [Y|Y].
      + destruct (qmin_spec h ((b - y) * qq 1 2)) as (Q1 & Q2 & Q3). assert (P : 0 < (b - y) * qq 1 2) by (apply mpp; [qlra|vm_compute; reflexivity]). specialize (Q3 H0 P).
        assert (Eb : (b - y) * qq 1 2 + (b - y) * qq 1 2 = b - y) by (rewrite <- (Qcmult_1_r (b - y)) at 3; rewrite <- HH; ring). exists (qmin h ((b - y) * qq 1 2)). split; [apply qabs_lt; split; qlra|]. split; [change (a < y + qmin h ((b - y) * qq 1 2)); qlra|change (y + qmin h ((b - y) * qq 1 2) < b); qlra].
      + destruct (qmin_spec h ((y - a) * qq 1 2)) as (Q1 & Q2 & Q3). assert (P : 0 < (y - a) * qq 1 2) by (apply mpp; [qlra|vm_compute; reflexivity]). specialize (Q3 H0 P).
        assert (Eb : (y - a) * qq 1 2 + (y - a) * qq 1 2 = y - a) by (rewrite <- (Qcmult_1_r (y - a)) at 3; rewrite <- HH; ring). exists (- qmin h ((y - a) * qq 1 2)). split; [apply qabs_lt; split; qlra|]. split; [change (a < y + - qmin h ((y - a) * qq 1 2)); qlra|change (y + - qmin h ((y - a) * qq 1 2) < b); qlra].
    - change (a <= y) in L1. exists h. split; [apply qabs_lt; split; qlra|]. split; [|exact Logic.I]. change (a < y + h). qlra. }
  destruct X as (t & T & X1 & X2). exists t. split; auto. exists (a, b). auto.
Qed.
(** a place strictly within the band of a side, over the end or the inside of a range, is a limit of places of the open fingers *)
Lemma band_limit s w p e : frame_ok s -> Geom2d.dot (is_dir s) (is_dir s) = 1 -> normal w -> 0 < e -> is_min s < across s p -> across s p < is_max s ->
  (exists i, In i w /\ ele (fst i) (Fin (along s p)) /\ ele (Fin (along s p)) (snd i)) -> exists p', near e p p' /\ in_band s w 0 1 p'.
Proof.
  intros (_ & NO) U N E B1 B2 I. destruct (closed_limit w _ e N E I) as (t & T & J). exists (vadd p (vscale t (is_dir s))). set (d := is_dir s) in *.
  assert (V1 : qabs (fst d) <= 1 /\ qabs (snd d) <= 1).
  { unfold Geom2d.dot in U. assert (S0 : forall u, 0 <= u * u) by (intros u; destruct (qleb_spec 0 u); [apply mnn; auto|replace (u * u) with ((- u) * (- u)) by ring; apply mnn; qlra]).
    assert (K : forall u, u * u <= 1 -> qabs u <= 1).
    { intros u X. destruct (qleb_spec (qabs u) 1) as [|Q]; auto. exfalso. assert (QQ : qabs u * qabs u = u * u) by (destruct (qabs_cases u) as [(_ & ->)|(_ & ->)]; ring). assert (0 < (qabs u - 1) * (qabs u + 1)) by (apply mpp; qlra). qlra. }
    pose proof (S0 (fst d)). pose proof (S0 (snd d)). split; apply K; qlra. }
  assert (M : forall v, qabs v <= 1 -> qabs (t * v) < e).
  { intros v V. apply qabs_lt in T. destruct T as (T1 & T2). assert (V' : - (1) <= v /\ v <= 1) by (destruct (qabs_cases v) as [(? & X)|(? & X)]; rewrite X in V; split; qlra). destruct V'. apply qabs_lt.
    destruct (qleb_spec 0 t) as [T|T]; [assert (0 <= t * (1 - v)) by (apply mnn; qlra); assert (0 <= t * (1 + v)) by (apply mnn; qlra)|assert (0 <= (- t) * (1 - v)) by (apply mnn; qlra); assert (0 <= (- t) * (1 + v)) by (apply mnn; qlra)]; split; qlra. }
  split.
  - split; unfold vadd, vscale; cbn [fst snd]; [replace (fst p + t * fst d - fst p) with (t * fst d) by ring|replace (snd p + t * snd d - snd p) with (t * snd d) by ring]; apply M; tauto.
  - assert (E01 : offset_at s 0 = is_min s /\ offset_at s 1 = is_max s) by (unfold offset_at; split; ring). destruct E01 as (E0 & E1). split.
    + replace (along s (vadd p (vscale t d))) with (along s p + t); auto. unfold along. fold d. rewrite U. unfold Qcdiv. rewrite qc_inv1. transitivity (Geom2d.dot p d * 1 - is_offs s + t * Geom2d.dot d d); [rewrite U; ring|]. unfold Geom2d.dot, vadd, vscale. cbn [fst snd]. ring.
    + rewrite E0, E1. left. replace (across s (vadd p (vscale t d))) with (across s p); auto. unfold across. f_equal. rewrite NO. fold d. unfold Geom2d.dot, vadd, vscale. cbn [fst snd]. ring.
Qed.

Section Result.
Variable orc : list segment -> nat -> nat -> nat.
Variable fsqrt fl : Qc -> Qc.
Variable R : rng.
Variable mn mx : Qc.
Variable ord : dict string geom1d -> dict string geom1d.
Variable sord : list string -> list string.
(** the place [p] of the sheet of [s] is in or on the part of the sheet's material that lies in the fingers of the other side, and this part
    has an area of at most 1/1000 plus that of the fingers of a range of length 1e-7 *)
Definition sliver (sb : sbuild) (s o : interside) (p : point) : Prop :=
  exists c g, dget id2_eqb (is_id o) (sb_ichosen sb) = Some c /\ dget String.eqb (is_sheet s) (sb_schosen sb) = Some g /\
  forall orc1 orc2 f k a, make_fingers01 (segment_arrangement orc1) s c = Ok f -> g2_and (segment_arrangement orc2) g f = Ok k -> g2_area k = Ok a ->
    g2_locate k p <> Ok (-1)%Z /\ a < e3 + e7 * (is_max s - is_min s).
Lemma finger_place orc1 orc2 u c g f k p : frame_ok u -> Geom2d.dot (is_dir u) (is_dir u) = 1 -> is_geom1d c -> sharp g -> make_fingers01 (segment_arrangement orc1) u c = Ok f -> g2_and (segment_arrangement orc2) g f = Ok k ->
  is_min u < across u p -> across u p < is_max u -> (exists i, In i c /\ ele (fst i) (Fin (along u p)) /\ ele (Fin (along u p)) (snd i)) -> g2_locate g p = Ok 1%Z -> g2_locate k p <> Ok (-1)%Z.
Proof.
  intros FU U1 Nc Su Hf Hk B1 B2 F Lu.
  intros Lk. pose proof (fingers_sharp orc1 u c f Hf) as Sf. pose proof (and_sharp orc2 g f k Su Sf Hk) as Sk. destruct (op_segs _ _ _ (g2_and_ok _ g f k (arrangement_sound orc2) (proj1 Su) (proj1 Sf) Hk)) as (S & OP).
  destruct (crisp_locates k p (proj1 Sk) (proj1 (proj2 Sk))) as [(Z & _)|[(Z & _)|(_ & Bk & Nk)]]; [rewrite Lk in Z; discriminate|rewrite Lk in Z; discriminate|].
  destruct (crisp_locates g p (proj1 Su) (proj1 (proj2 Su))) as [(Z & _)|[(_ & Bg & Ig)|(Z & _)]]; [rewrite Lu in Z; discriminate| |rewrite Lu in Z; discriminate].
  destruct (bd_away k p (proj1 Sk) Bk) as (e1 & E1 & W1), (bd_away g p (proj1 Su) Bg) as (e2 & E2 & W2). destruct (qmin_spec e1 e2) as (M1 & M2 & M3). specialize (M3 E1 E2). set (e := qmin e1 e2) in *. clearbody e.
  assert (HH : qq 1 2 + qq 1 2 = 1) by (apply Qc_is_canon; reflexivity). assert (Hp : 0 < e * qq 1 2) by (apply mpp; [auto|vm_compute; reflexivity]). assert (He : e * qq 1 2 + e * qq 1 2 = e) by (rewrite <- (Qcmult_1_r e) at 3; rewrite <- HH; ring).
  destruct (band_limit u c p (e * qq 1 2) FU U1 (is_geom1d_normal _ Nc) Hp B1 B2 F) as (p' & N' & IB). destruct (band_open u c p' IB) as (e3' & E3 & BO). destruct (qmin_spec (e * qq 1 2) e3') as (Q1 & Q2 & Q3).
  destruct (near_generic_eps p' _ [] (S ++ all_segments f) (Q3 Hp E3)) as (z & Nz & _ & Oz); [intros ? []|].
  assert (NZ : near e p z). { pose proof (near_mono _ _ _ _ Q1 Nz) as Nz'. clear -N' Nz' He. unfold near in *. rewrite !qabs_lt in *. destruct N' as ((? & ?) & ? & ?), Nz' as ((? & ?) & ? & ?). repeat split; qlra. }
  apply Nk. apply (W1 z (near_mono _ _ _ _ M1 NZ)). assert (Z12 : off_segs S z /\ off_segs (all_segments f) z) by (apply off_segs_app; exact Oz). destruct Z12 as (Z1 & Z2). apply (OP z Z1). split; [apply (W2 z (near_mono _ _ _ _ M2 NZ)); auto|].
  assert (NBf : ~ on_bd f z) by (intros Bz; apply on_bd_segments in Bz as (s1 & I1 & Bz); exact (Z2 s1 I1 Bz)). destruct (make_fingers_band orc1 u c 0 1 f FU) as (_ & F1 & _); auto.
  { assert (E01 : offset_at u 0 = is_min u /\ offset_at u 1 = is_max u) by (unfold offset_at; split; ring). destruct E01 as (-> & ->). intros Z. rewrite Z in B1. qlra. }
  specialize (F1 z (BO z (near_mono _ _ _ _ Q2 Nz))). destruct (g2_locate_ok f z (proj1 Sf) NBf) as [(_ & ?)|(Z & _)]; auto. rewrite F1 in Z. discriminate.
Qed.
(** a finger of a joint on the sheet of [t] makes a sliver on the other sheet *)
Lemma band_area u a : is_min u < is_max u -> Geom2d.dot (is_dir u) (is_dir u) = 1 -> a < e3 + e7 * (qabs (is_max u - is_min u) * Geom2d.dot (is_dir u) (is_dir u)) -> a < e3 + e7 * (is_max u - is_min u).
Proof.
  intros L U H. rewrite U in H. destruct (qabs_cases (is_max u - is_min u)) as [(_ & E)|(Z & _)]; [|exfalso; qlra]. rewrite E, Qcmult_1_r in H. exact H.
Qed.
Lemma has_geom sb k p : g2_locate (geom_at (sb_schosen sb) k) p = Ok 1%Z -> exists g, dget String.eqb k (sb_schosen sb) = Some g /\ geom_at (sb_schosen sb) k = g.
Proof. unfold geom_at. destruct (dget String.eqb k (sb_schosen sb)) as [g|]; [eauto|]. intros X. discriminate X. Qed.
Lemma finger_sliver rof sp rad ci sb h : root_ok fsqrt -> plex_made sp -> plex_clean sp -> (forall c, Permutation c (ord c)) ->
  canned_1 (segment_arrangement orc) fsqrt fl R mn mx ord sord None rof sp rad ci = Ok (mkCanned true sb h) -> forall t u p, joint sp u t -> frame_ok u -> Geom2d.dot (is_dir u) (is_dir u) = 1 ->
  is_min u < across u p -> across u p < is_max u ->
  (exists i, In i (chosen_of sb (is_id t)) /\ ele (fst i) (Fin (along u p)) /\ ele (Fin (along u p)) (snd i)) -> g2_locate (geom_at (sb_schosen sb) (is_sheet u)) p = Ok 1%Z -> sliver sb u t p.
Proof.
  intros RO M PC O H t u p Ju FU U1 B1 B2 F Lu. pose proof (plex_clean_geoms _ PC) as PG. pose proof (run_states orc fsqrt fl R mn mx ord sord _ _ _ _ _ _ _ _ RO M PC O H (is_sheet u)) as (Su & _).
  assert (LG : legal sp sb). { destruct (canned_reaches (segment_arrangement orc) fsqrt fl R mn mx ord sord _ _ _ _ _ _ _ _ _ (geoms_closed (segment_arrangement orc) fsqrt) M O H) as (s0 & s1 & C1 & S1 & sok & -> & _).
    pose proof (legal_steps (segment_arrangement orc) sp M _ _ (proj1 (create_inv1 _ _ _ _ _ M C1)) S1) as L. destruct L as [Y1 Y2 Y3 Y4]. constructor; auto. }
  destruct (proj1 (dget_some _ id2_eqb_ok (is_id t) (sb_ichosen sb)) (proj1 (iv_has _ _ LG t (proj1 (joint_sym _ _ _ M Ju))))) as (c & Kc). pose proof (proj1 (iv_normal _ _ LG (is_id t))) as Nc.
  assert (EC : chosen_of sb (is_id t) = c) by (unfold chosen_of; now rewrite Kc). rewrite EC in F, Nc. clear EC.
  destruct (has_geom sb _ p Lu) as (g & Kg & EG). rewrite EG in Su, Lu. exists c, g. split; [exact Kc|]. split; [exact Kg|]. intros orc1 orc2 f k ar Hf Hk Ha. split.
  - exact (finger_place orc1 orc2 u c g f k p FU U1 Nc Su Hf Hk B1 B2 F Lu).
  - refine (band_area u ar _ U1 (joint_clearance orc orc1 orc2 fsqrt fl R mn mx ord sord _ _ _ _ _ _ M PG O H u t c g f k ar Ju Kc Kg Hf Hk Ha)). clear -B1 B2. qlra.
Qed.
Theorem result_collisions : forall norm plates rof sp rad q ci sb h, root_ok fsqrt -> space_plex norm plates sp -> plex_clean sp -> plex_simple sp -> pval rad = Some (Fin q) -> 1 < q -> (forall c, Permutation c (ord c)) ->
  canned_1 (segment_arrangement orc) fsqrt fl R mn mx ord sord None rof sp rad ci = Ok (mkCanned true sb h) -> forall s o x, joint sp s o -> let a := is_sheet s in let b := is_sheet o in
  inside_slab (plates a) x -> inside_slab (plates b) x -> qabs (along s (footprint (plates a) x)) < zq 1000 ->
  g2_locate (geom_at (sb_schosen sb) a) (footprint (plates a) x) = Ok 1%Z -> g2_locate (geom_at (sb_schosen sb) b) (footprint (plates b) x) = Ok 1%Z ->
  (exists t, side_of sp t /\ t <> s /\ t <> o /\ (is_sheet t = a \/ is_sheet t = b) /\ on_finger sb t (footprint (plates (is_sheet t)) x)) \/
  sliver sb s o (footprint (plates a) x) \/ sliver sb o s (footprint (plates b) x).
Proof.
  intros norm plates rof sp rad q ci sb h RO SP PC PS V Q O H s o x J a b X1 X2 AL L1 L2. pose proof (space_made _ _ _ SP) as M. pose proof (joint_sym _ _ _ M J) as J'.
  destruct (result_material_everywhere orc fsqrt fl R mn mx ord sord _ _ _ _ _ _ _ _ RO M PC O H) as (sb0 & C & MAT).
  destruct (joint_coordinate _ _ _ _ _ SP J) as (_ & SAME & _). specialize (SAME x). fold a b in SAME. destruct (joint_coordinate _ _ _ _ _ SP J') as (_ & SAME' & _). specialize (SAME' x). fold a b in SAME'.
  assert (SL : forall t u, joint sp u t -> inside_slab (plates (is_sheet t)) x -> inside_slab (plates (is_sheet u)) x -> along t (footprint (plates (is_sheet t)) x) = along u (footprint (plates (is_sheet u)) x) ->
    on_finger sb t (footprint (plates (is_sheet t)) x) -> g2_locate (geom_at (sb_schosen sb) (is_sheet u)) (footprint (plates (is_sheet u)) x) = Ok 1%Z -> sliver sb u t (footprint (plates (is_sheet u)) x)).
  { intros t u Ju It Iu Eq (F & _) Lu. rewrite Eq in F. destruct (space_reach _ _ _ _ _ x SP Ju Iu It) as (B1 & B2). destruct (space_frame _ _ _ _ _ SP Ju) as (FU & _ & U1 & _).
    exact (finger_sliver rof sp rad ci sb h RO M PC O H t u _ Ju FU U1 B1 B2 F Lu). }
  assert (EQ : forall t u, side_of sp t -> side_of sp u -> t = u \/ t <> u). { intros t u Ht Hu. destruct (eqb_case _ id2_eqb_ok (is_id t) (is_id u)) as [(_ & E)|(_ & E)]; [left; apply (made_unique sp); auto|right; congruence]. }
  pose proof (proj1 J) as Hs. pose proof (proj1 J') as Ho.
  assert (DIF : is_sheet o <> is_sheet s) by (destruct (made_opp _ _ M Hs) as (o' & O1 & _ & _ & _ & D & _); rewrite (proj2 J) in O1; apply Ok_inv in O1 as <-; exact D).
  destruct (MAT a (footprint (plates a) x)) as (u0 & u1 & E0 & E1 & _ & CA). rewrite L1 in E1. apply Ok_inv in E1 as <-. destruct (MAT b (footprint (plates b) x)) as (w0 & w1 & E2 & E3 & _ & CB). rewrite L2 in E3. apply Ok_inv in E3 as <-.
  destruct CA as [<-|(t & Ht & Et & F)].
  - destruct CB as [<-|(t & Ht & Et & F)].
    + exfalso. exact (fresh_no_collision orc fsqrt norm plates sp rad q sb0 RO SP PC PS V Q C s o x J X1 X2 AL (conj E0 E2)).
    + destruct (EQ t o Ht Ho) as [->|NE].
      * right. left. apply (SL o s J); auto.
      * left. exists t. split; auto. split; [intros ->; apply DIF; auto|]. split; auto. split; auto. rewrite Et. exact F.
  - destruct (EQ t s Ht Hs) as [->|NE].
    + right. right. apply (SL s o J'); auto.
    + left. exists t. split; auto. split; auto. split; [intros ->; apply DIF; auto|]. split; auto. rewrite Et. exact F.
Qed.
End Result.
Print Assumptions result_collisions.

(** two 20 x 20 sheets, 4 thick, one lying and one standing on its edge *)
Module AssemblyEx.
Definition fs (q : Qc) : Qc := if qeqb q 1 then 1 else qq 41 29.
Definition flat : mat4 := M4 (V4 (V3 1 0 0) 0) (V4 (V3 0 1 0) 0) (V4 (V3 0 0 1) 0) (V4 (V3 0 0 0) 1).
Definition upright : mat4 := M4 (V4 (V3 1 0 0) 0) (V4 (V3 0 0 1) 0) (V4 (V3 0 (- (1)) 0) 0) (V4 (V3 0 0 0) 1).
Definition plates (k : string) : plate := if String.eqb k "s1" then make_plate (V3 0 1 0) (zq 4) (zq 4) upright else make_plate (V3 0 0 1) (zq 4) (zq 4) flat.
Definition sq y0 y1 : geom2d := [mkSpwh [(0, y0); (0, y1); (zq 20, y1); (zq 20, y0)] []].
Definition sheet_of k y0 y1 := mkSheet k (sq y0 y1) (sq y0 y1) (sq y0 y1).
Definition plex := mkPlex [("s0", sheet_of "s0" 0 (zq 20)); ("s1", sheet_of "s1" (zq (-20)) 0)]%string [].
Definition sp := match create_intersections (space_frames SpaceEx.norm plates) plex with Ok x => x | Err _ => plex end.
Lemma sq_ok : sharp (sq 0 (zq 20)) /\ sharp (sq (zq (-20)) 0) /\ (tidy (sq 0 (zq 20)) /\ no_nesting (sq 0 (zq 20))) /\ (tidy (sq (zq (-20)) 0) /\ no_nesting (sq (zq (-20)) 0)).
Proof.
  split; [apply (rect_sharp 0 0 20 20); vm_compute; reflexivity|]. split; [apply (rect_sharp 0 (-20) 20 0); vm_compute; reflexivity|].
  split; apply rect_tidy, rect_simple; vm_compute; reflexivity.
Qed.
End AssemblyEx.
Example assembly_ex : root_ok AssemblyEx.fs /\ space_plex SpaceEx.norm AssemblyEx.plates AssemblyEx.sp /\ plex_clean AssemblyEx.sp /\ plex_simple AssemblyEx.sp.
Proof.
  split; [repeat split; vm_compute; reflexivity|]. split; [|split].
  - exists AssemblyEx.plex. split; [|split; [|split]].
    + split; [reflexivity|]. split; [repeat constructor; cbn; intuition discriminate|].
      intros k s H. destruct H as [H|[H|[]]]; injection H as <- <-; (split; [reflexivity|]); intros K; vm_compute in K; intuition discriminate.
    + vm_compute. reflexivity.
    + intros k sh H. destruct H as [H|[H|[]]]; injection H as <- <-.
      * refine (proj1 (made_plate (V3 0 0 1) (zq 4) (zq 4) AssemblyEx.flat _ _)); [|vm_compute; reflexivity]. unfold section_frame, orthonormal. repeat split; apply Qc_is_canon; vm_compute; reflexivity.
      * refine (proj1 (made_plate (V3 0 1 0) (zq 4) (zq 4) AssemblyEx.upright _ _)); [|vm_compute; reflexivity]. unfold section_frame, orthonormal. repeat split; apply Qc_is_canon; vm_compute; reflexivity.
    + intros k sh k' sh' H H'. destruct H as [H|[H|[]]]; injection H as <- <-; (destruct H' as [H'|[H'|[]]]; injection H' as <- <-); (split; [vm_compute; discriminate|apply Qc_is_canon; vm_compute; reflexivity]).
  - destruct AssemblyEx.sq_ok as (S0 & S1 & _). intros k sh H g G. change (sp_sheets AssemblyEx.sp) with (sp_sheets AssemblyEx.plex) in H. destruct H as [H|[H|[]]]; injection H as <- <-; cbn [sh_face0 sh_face1 sh_slices_max AssemblyEx.sheet_of] in G;
      [assert (g = AssemblyEx.sq 0 (zq 20)) as -> by (destruct G as [<-|[<-|[<-|[]]]]; reflexivity); exact (conj (proj1 S0) (proj2 (proj2 S0)))|assert (g = AssemblyEx.sq (zq (-20)) 0) as -> by (destruct G as [<-|[<-|[<-|[]]]]; reflexivity); exact (conj (proj1 S1) (proj2 (proj2 S1)))].
  - destruct AssemblyEx.sq_ok as (_ & _ & T0 & T1). intros k sh g H G. change (sp_sheets AssemblyEx.sp) with (sp_sheets AssemblyEx.plex) in H. destruct H as [H|[H|[]]]; injection H as <- <-; cbn [sh_face0 sh_face1 AssemblyEx.sheet_of] in G;
      [assert (g = AssemblyEx.sq 0 (zq 20)) as -> by (destruct G as [<-|[<-|[]]]; reflexivity); exact T0|assert (g = AssemblyEx.sq (zq (-20)) 0) as -> by (destruct G as [<-|[<-|[]]]; reflexivity); exact T1].
Qed.
(** the fresh state: neither sheet has material in the corner they share, both have it elsewhere *)
Example fresh_ex : (sb <- create_sheetbuild (segment_arrangement (fun _ _ _ => O)) AssemblyEx.fs AssemblyEx.sp (NInt 12) ;;
   mapM (fun e => g2_locate (geom_at (sb_schosen sb) (fst e)) (footprint (AssemblyEx.plates (fst e)) (snd e)))
     [("s0", V3 (zq 5) (zq 2) (zq 2)); ("s1", V3 (zq 5) (zq 2) (zq 2)); ("s0", V3 (zq 5) (zq 9) (zq 2)); ("s1", V3 (zq 5) (zq 2) (zq 9))]%string) = Ok [-1; -1; 1; 1]%Z.
Proof. vm_compute. reflexivity. Qed.

(** The bound of 1000 is needed: create_sheetbuild projects only the positions from -1000 to 1000, so two sheets 2000 away from the origin
    are left with a common corner. *)
Module FarEx.
Definition sq y0 y1 : geom2d := [mkSpwh [(zq 2000, y0); (zq 2000, y1); (zq 2020, y1); (zq 2020, y0)] []].
Definition sheet_of k y0 y1 := mkSheet k (sq y0 y1) (sq y0 y1) (sq y0 y1).
Definition plex := mkPlex [("s0", sheet_of "s0" 0 (zq 20)); ("s1", sheet_of "s1" (zq (-20)) 0)]%string [].
Definition sp := match create_intersections (space_frames SpaceEx.norm AssemblyEx.plates) plex with Ok x => x | Err _ => plex end.
End FarEx.
Theorem fresh_no_collision_far_refuted : exists sb s o x,
  create_sheetbuild (segment_arrangement (fun _ _ _ => O)) AssemblyEx.fs FarEx.sp (NInt 12) = Ok sb /\ joint FarEx.sp s o /\
  inside_slab (AssemblyEx.plates (is_sheet s)) x /\ inside_slab (AssemblyEx.plates (is_sheet o)) x /\
  g2_locate (geom_at (sb_schosen sb) (is_sheet s)) (footprint (AssemblyEx.plates (is_sheet s)) x) = Ok 1%Z /\ g2_locate (geom_at (sb_schosen sb) (is_sheet o)) (footprint (AssemblyEx.plates (is_sheet o)) x) = Ok 1%Z.
Proof.
  assert (E : (r <- create_sheetbuild (segment_arrangement (fun _ _ _ => O)) AssemblyEx.fs FarEx.sp (NInt 12) ;;
     mapM (fun k => g2_locate (geom_at (sb_schosen r) k) (footprint (AssemblyEx.plates k) (V3 (zq 2005) (zq 2) (zq 2)))) ["s0"; "s1"]%string) = Ok [1; 1]%Z) by (vm_compute; reflexivity).
  apply bind_ok in E as (sb & C & E). cbn [mapM] in E. apply bind_ok in E as (u & L1 & E). apply bind_ok in E as (l & L2 & E). apply bind_ok in L2 as (w & L2 & E'). cbn [bind] in E'. apply Ok_inv in E' as <-. apply Ok_inv in E. injection E as -> ->.
  set (i := nth 0 (sp_inters FarEx.sp) (""%string, mkInter "" [])). set (s := nth 0 (it_sides (snd i)) (create_inter_side "" "" 0 ((0, 0), ((0, 0), [])))). set (o := nth 1 (it_sides (snd i)) s).
  exists sb, s, o, (V3 (zq 2005) (zq 2) (zq 2)). assert (E0 : is_sheet s = "s0"%string) by (vm_compute; reflexivity). assert (E1 : is_sheet o = "s1"%string) by (vm_compute; reflexivity). rewrite E0, E1. split; [exact C|].
  split; [split; [exists (fst i), (snd i); split; [vm_compute; left; reflexivity|vm_compute; left; reflexivity]|vm_compute; reflexivity]|].
  split; [split; vm_compute; reflexivity|]. split; [split; vm_compute; reflexivity|]. auto.
Qed.
Print Assumptions fresh_no_collision_far_refuted.
