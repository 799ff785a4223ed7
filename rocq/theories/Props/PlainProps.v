(** * Away from the joints nothing is lost: C125 *)
From Verif.Spec Require Import Plane Region PointSet1 Fingers Crisp Trim Space.
From Verif.Model Require Import Arrangement2d Geom2d Geom1d Sheetplex Sheetbuild Heuristics Canned Frames.
From Verif.Proofs Require Import PyP PolyP PlanarP ExtOrd DictP Geom1dP NearP Geom2dP Geom2dOps ArrSoundP SheetplexP FingerP SheetbuildP CreateP CrispP CrispQ BufferP BufSharpQ RunSharpP HeuristicsP TrimP TrimQ SpaceP.
From Verif.Props Require Import Geom1dProps LocateProps SheetplexProps Geom2dProps SheetbuildProps JointProps CannedProps CrispProps BufferExactProps RunSharpProps SpaceProps AssemblyProps CompleteProps.
From Coq Require Import String Permutation.
Open Scope Qc_scope.

(** [p] is inside the region, not on its boundary *)
Definition well_inside (g : geom2d) (p : point) : Prop := ~ on_bd g p /\ in_geom g p.
(** the sheet has both its faces and a section at [p] *)
Definition supported_at (sh : sheet) (p : point) : Prop := well_inside (sh_face0 sh) p /\ well_inside (sh_face1 sh) p /\ well_inside (sh_slices_max sh) p.

Lemma well_inside_near g p : is_geom2d g -> well_inside g p -> exists e, 0 < e /\ forall q, near e p q -> in_geom g q.
Proof. intros G (B & I). destruct (bd_away g p G B) as (e & E & W). exists e. split; auto. intros q N. apply (W q N). exact I. Qed.

(** what create_sheetbuild has chosen *)
Lemma fresh_plain orc fsqrt sp rad sb k sh p : root_ok fsqrt -> plex_made sp -> plex_clean sp -> create_sheetbuild (segment_arrangement orc) fsqrt sp rad = Ok sb ->
  In (k, sh) (sp_sheets sp) -> (forall b, g2_and (segment_arrangement orc) (sh_face0 sh) (sh_face1 sh) = Ok b -> no_nesting b) -> supported_at sh p ->
  (forall s, side_of sp s -> is_sheet s = k -> ~ on_band s (ok_of sb (is_id s)) p) -> g2_locate (geom_at (sb_schosen sb) k) p = Ok 1%Z.
Proof.
  intros RO M PC C IS NN (W0 & W1 & Wm) NB. pose proof (plex_clean_geoms _ PC) as PG. pose proof (plex_clean_neat sp PC) as PN. pose proof RO as (F1 & F2 & F3).
  pose proof (proj1 (create_sharp orc fsqrt F1 F2 F3 sp rad sb PN C k)) as S1. set (A := segment_arrangement orc) in *.
  pose proof (proj1 (create_inv1 _ _ _ _ _ M C)) as L. apply create_parts in C as (sc0 & iok & E1 & _ & _ & E3 & E4 & E5 & P).
  pose proof (dict_of_get _ string_eqb_ok _ _ _ _ _ E1) as (_ & D1). pose proof (dict_of_has _ _ _ _ _ E1) as K1. pose proof (dict_of_get _ id2_eqb_ok _ _ _ _ _ E3) as (N3 & _).
  specialize (N3 ltac:(constructor)). pose proof (and_opposites_nodup _ _ _ _ E4 N3) as N.
  assert (GV : forall id v, In (id, v) (sb_iok sb) -> is_geom1d v).
  { intros id v I. apply (dget_nodup _ id2_eqb_ok _ _ _ N) in I. pose proof (proj2 (iv_normal _ _ L id)) as G. unfold ok_of in G. now rewrite I in G. }
  assert (G0 : forall k, is_geom2d (geom_at sc0 k)).
  { intros j. unfold geom_at. destruct (dget String.eqb j sc0) as [g|] eqn:E; [|constructor]. apply D1 in E as [E|(sh' & I & <- & E)]; [discriminate|]. cbn [opt]. exact (proj1 (init_chosen_within A (arrangement_sound orc) fsqrt sp M PG sh' g I E)). }
  destruct (carve_all A (arrangement_sound orc) sp M _ GV sc0 (sb_schosen sb) G0 E5) as (_ & S0 & H0).
  destruct (made_sheets_fresh sp M) as (ND & NI). pose proof (NI _ _ IS) as Ek.
  assert (IV : In sh (values (sp_sheets sp))) by (apply in_map_iff; exists (k, sh); auto).
  assert (Kk : In k (keys sc0)) by (apply K1; right; apply in_map_iff; exists sh; split; auto). apply (dget_some _ string_eqb_ok) in Kk as (c & Kc).
  pose proof (geom_at_get _ _ _ Kc) as Gc. apply D1 in Kc as [X|(sh' & I' & Ek' & Hc)]; [discriminate|].
  assert (sh' = sh). { apply in_map_iff in I' as ((i' & ?) & <- & I'). cbn [snd] in *. pose proof (NI _ _ I') as NI'. pose proof (proj2 (dget_nodup _ string_eqb_ok _ _ _ ND) IS) as Q1. pose proof (proj2 (dget_nodup _ string_eqb_ok _ _ _ ND) I') as Q2. destruct Ek, NI'. congruence. } subst sh'.
  destruct (slices_value sp M PG sh IV) as (Gf0 & Gf1 & Gm & Es).
  unfold init_chosen in Hc. apply bind_ok in Hc as (b0 & C1 & Hc). apply bind_ok in Hc as (b1 & C2 & Hc). apply bind_ok in Hc as (m & C3 & Hc). apply buffer_zero in C3 as ->.
  pose proof (g2_and_ok A _ _ _ (arrangement_sound orc) Gf0 Gf1 C1) as O1. destruct (op_segs _ _ _ O1) as (U1 & X1). pose proof (proj1 O1) as Gb0.
  assert (F2p : 0 < fsqrt (zq 2)) by qlra.
  destruct (buffer_direction_rel A fsqrt b0 (NInt 1) 1 b1 (arrangement_sound orc) F1 F2p Gb0 C2) as (Gb1 & _ & BP & _). { vm_compute. reflexivity. }
  specialize (BP ltac:(qlra) (NN b0 C1)).
  destruct (op_segs _ _ _ (g2_and_ok A _ _ _ (arrangement_sound orc) Gb1 Gm Hc)) as (U2 & X2).
  assert (NR : exists e, 0 < e /\ forall q s, near e p q -> In s (filter (fun s => String.eqb (is_sheet s) k) (sp_intersides sp None)) -> ~ in_band s (ok_of sb (is_id s)) 0 1 q).
  { assert (HB : forall s, In s (filter (fun s => String.eqb (is_sheet s) k) (sp_intersides sp None)) -> ~ on_band s (ok_of sb (is_id s)) p).
    { intros s I. apply filter_In in I as (I & Q). apply String.eqb_eq in Q. apply NB; auto. now apply made_list. }
    clear -HB. induction (filter _ _) as [|s l IH]; [exists 1; split; [qlra|intros q s _ []]|]. destruct IH as (e2 & E2 & H2); [intros; apply HB; now right|].
    destruct (band_dec s (ok_of sb (is_id s)) p) as [X|(e1 & E1 & H1)]; [destruct (HB s (or_introl eq_refl) X)|]. destruct (qmin_spec e1 e2) as (M1 & M2 & M3). exists (qmin e1 e2). split; auto.
    intros q t Nq [<-|T]; [apply (H1 q); exact (near_mono _ _ _ _ M1 Nq)|apply (H2 q t); auto; exact (near_mono _ _ _ _ M2 Nq)]. }
  destruct NR as (e0 & E0 & NR). destruct (well_inside_near _ p Gf0 W0) as (e1 & Q1 & V0), (well_inside_near _ p Gf1 W1) as (e2 & Q2 & V1), (well_inside_near _ p Gm Wm) as (e3 & Q3 & Vm).
  destruct (qmin_spec e0 e1) as (A1 & A2 & A3), (qmin_spec e2 e3) as (B1 & B2 & B3), (qmin_spec (qmin e0 e1) (qmin e2 e3)) as (D2 & D3 & D4).
  apply (locate_inside _ p (qmin (qmin e0 e1) (qmin e2 e3)) (S0 ++ U1 ++ U2 ++ all_segments b0 ++ all_segments b1) S1 (D4 (A3 E0 Q1) (B3 Q2 Q3))).
  intros q Nq OF. apply off_segs_app in OF as (Z0 & OF). apply off_segs_app in OF as (Z1 & OF). apply off_segs_app in OF as (Z2 & OF). apply off_segs_app in OF as (Z3 & Z4).
  pose proof (near_mono _ _ _ _ D2 Nq) as Na. pose proof (near_mono _ _ _ _ D3 Nq) as Nb.
  apply (H0 q Z0 k). split.
  - rewrite Gc. apply (X2 q Z2). split; [|exact (Vm q (near_mono _ _ _ _ B2 Nb))].
    assert (OB : forall g, off_segs (all_segments g) q -> ~ on_bd g q) by (intros g Z B; apply on_bd_segments in B as (e & E & B); exact (Z e E B)).
    apply BP; auto. apply (X1 q Z1). split; [exact (V0 q (near_mono _ _ _ _ A2 Na))|exact (V1 q (near_mono _ _ _ _ B1 Nb))].
  - intros id v s I Hs Eks IB. destruct (made_interside _ _ _ M Hs) as (Sd & Eid). apply (NR q s (near_mono _ _ _ _ A1 Na)).
    + apply filter_In. split; [now apply made_list|]. rewrite Eks. apply String.eqb_refl.
    + apply (dget_nodup _ id2_eqb_ok _ _ _ N) in I. unfold ok_of. rewrite Eid, I. exact IB.
Qed.

(** ** C125 *)
Theorem plain_kept : forall orc fsqrt fl R mn mx ord sord show rof sp rad ci ok sb h, root_ok fsqrt -> plex_made sp -> plex_clean sp -> (forall c, Permutation c (ord c)) ->
  canned_1 (segment_arrangement orc) fsqrt fl R mn mx ord sord show rof sp rad ci = Ok (mkCanned ok sb h) ->
  exists sb0, create_sheetbuild (segment_arrangement orc) fsqrt sp rad = Ok sb0 /\
  forall k sh p, In (k, sh) (sp_sheets sp) -> (forall b, g2_and (segment_arrangement orc) (sh_face0 sh) (sh_face1 sh) = Ok b -> no_nesting b) -> supported_at sh p ->
    (forall s, side_of sp s -> is_sheet s = k -> ~ on_band s (ok_of sb0 (is_id s)) p) -> g2_locate (geom_at (sb_schosen sb) k) p = Ok 1%Z.
Proof.
  intros orc fsqrt fl R mn mx ord sord show rof sp rad ci ok sb h RO M PC O H.
  destruct (result_material_everywhere orc fsqrt fl R mn mx ord sord show rof sp rad ci ok sb h RO M PC O H) as (sb0 & C & MS). exists sb0. split; auto.
  intros k sh p I NN SU NB. pose proof (fresh_plain _ _ _ _ _ _ _ _ RO M PC C I NN SU NB) as F. destruct (MS k p) as (x0 & x & X0 & X & LE & _). rewrite F in X0. apply Ok_inv in X0 as <-.
  rewrite X. f_equal. destruct (run_states orc fsqrt fl R mn mx ord sord _ _ _ _ _ _ _ _ RO M PC O H k) as ((G & CR & _) & _).
  destruct (crisp_locates _ p G CR) as [(Z & _)|[(Z & _)|(Z & _)]]; rewrite X in Z; apply Ok_inv in Z as ->; [lia|reflexivity|lia].
Qed.
Print Assumptions plain_kept.

(** the same in space: if no other sheet passes over or under [x] within the sheet, the sheet has its material at [x] *)
Theorem plain_kept_in_space : forall orc fsqrt fl R mn mx ord sord norm plates show rof sp rad ci ok sb h, root_ok fsqrt -> space_plex norm plates sp -> plex_clean sp -> (forall c, Permutation c (ord c)) ->
  canned_1 (segment_arrangement orc) fsqrt fl R mn mx ord sord show rof sp rad ci = Ok (mkCanned ok sb h) ->
  forall k sh p, In (k, sh) (sp_sheets sp) -> (forall b, g2_and (segment_arrangement orc) (sh_face0 sh) (sh_face1 sh) = Ok b -> no_nesting b) -> supported_at sh p ->
    (forall s o y, joint sp s o -> is_sheet s = k -> in_slab (plates k) y -> in_slab (plates (is_sheet o)) y -> footprint (plates k) y <> p) ->
    g2_locate (geom_at (sb_schosen sb) k) p = Ok 1%Z.
Proof.
  intros orc fsqrt fl R mn mx ord sord norm plates show rof sp rad ci ok sb h RO SP PC O H k sh p I NN SU NB. pose proof (space_made _ _ _ SP) as M.
  destruct (plain_kept _ _ _ _ _ _ _ _ _ _ _ _ _ _ _ _ RO M PC O H) as (sb0 & _ & K). apply (K k sh p I NN SU). intros s Hs Ek (_ & B).
  destruct (made_opp _ _ M Hs) as (o & O1 & _). assert (J : joint sp s o) by (split; auto). destruct (joint_band _ _ _ _ _ SP J) as (LT & _ & CB).
  assert (O0 : offset_at s 0 = is_min s) by (unfold offset_at; ring). assert (O1' : offset_at s 1 = is_max s) by (unfold offset_at; ring). rewrite O0, O1' in B.
  assert (B' : is_min s <= across s p /\ across s p <= is_max s) by (destruct B as [B|(B1 & B2)]; [exact B|exfalso; qlra]). apply CB in B' as (y & Y1 & Y2 & Y3). rewrite Ek in *. exact (NB s o y J Ek Y1 Y2 Y3).
Qed.
Print Assumptions plain_kept_in_space.

(** The hypothesis on nesting is needed.  A single sheet: a square frame and a loose square inside it.  The support of both faces is grown by 1
    before anything is chosen; that drops the inner square (fact 5 of DESIGN.md), and no later step brings it back. *)
Module IslandEx.
Definition island : geom2d := [mkSpwh (ring_sq 14 16) []; mkSpwh (ring_sq 0 30) [ring_sq 10 20]].
Definition sp : sheetplex := mkPlex [("s0", mkSheet "s0" island island island)]%string [].
Definition p : point := (zq 15, zq 15).
Lemma rings r : ring_of island r -> clean r /\ ~ on_boundary r p.
Proof.
  intros H. assert (E : r = ring_sq 14 16 \/ r = ring_sq 0 30 \/ r = ring_sq 10 20) by (destruct H as (s & [<-|[<-|[]]] & [->|X]); cbn [outer holes In] in *; intuition). clear H.
  assert (K : forall a b, rectangle (NInt a) (NInt a) (NInt b) (NInt b) = Ok [mkSpwh (ring_sq a b) []] -> clean (ring_sq a b)).
  { intros a b X. apply rect_sharp in X as (_ & _ & C). apply C. exists (mkSpwh (ring_sq a b) []). split; [now left|now left]. }
  split; [destruct E as [->|[->| ->]]; apply K; vm_compute; reflexivity|].
  intros B. assert (NE : r <> []) by (destruct E as [->|[->| ->]]; discriminate). apply (proj1 (locate_zero_iff_boundary r p NE)) in B. destruct E as [->|[->| ->]]; vm_compute in B; discriminate B.
Qed.
Lemma sp_ok : plex_made sp /\ plex_clean sp /\ supported_at (mkSheet "s0" island island island) p.
Proof.
  assert (G : is_geom2d island) by repeat constructor. split; [|split].
  - exists (fun _ _ => Ok None), sp. split; [|reflexivity]. split; [reflexivity|]. split; [repeat constructor; intros []|].
    intros k s [E|[]]. injection E as <- <-. split; [reflexivity|]. intros X. vm_compute in X. intuition discriminate.
  - intros k sh [E|[]] g I. injection E as <- <-. assert (g = island) as -> by (cbn in I; destruct I as [<-|[<-|[<-|[]]]]; reflexivity). split; [exact G|]. intros r I'. now apply rings.
  - assert (W : well_inside island p).
    { assert (B : ~ on_bd island p) by (intros (r & I & X); apply rings in I as (_ & I); auto). split; [exact B|].
      apply (proj1 (geom2d_locate_exact island p G B)). vm_compute. reflexivity. }
    split; [exact W|split; exact W].
Qed.
End IslandEx.
Theorem plain_island_refuted : exists fsqrt sp k sh p sb0, root_ok fsqrt /\ plex_made sp /\ plex_clean sp /\ In (k, sh) (sp_sheets sp) /\ supported_at sh p /\ (forall s, ~ side_of sp s) /\
  create_sheetbuild (segment_arrangement (fun _ _ _ => O)) fsqrt sp (NInt 12) = Ok sb0 /\ g2_locate (geom_at (sb_schosen sb0) k) p = Ok (-1)%Z /\
  forall fl R mn mx ord sord show rof ci ok sb h, (forall c, Permutation c (ord c)) ->
    canned_1 (segment_arrangement (fun _ _ _ => O)) fsqrt fl R mn mx ord sord show rof sp (NInt 12) ci = Ok (mkCanned ok sb h) -> g2_locate (geom_at (sb_schosen sb) k) p = Ok (-1)%Z.
Proof.
  assert (E : (sb <- create_sheetbuild (segment_arrangement (fun _ _ _ => O)) AssemblyEx.fs IslandEx.sp (NInt 12) ;; g2_locate (geom_at (sb_schosen sb) "s0"%string) IslandEx.p) = Ok (-1)%Z) by (vm_compute; reflexivity).
  apply bind_ok in E as (sb0 & C & E). destruct IslandEx.sp_ok as (M & PC & SU). pose proof (proj1 assembly_ex) as RO.
  assert (NS : forall s, ~ side_of IslandEx.sp s) by (intros s (k & it & [] & _)).
  exists AssemblyEx.fs, IslandEx.sp, "s0"%string. eexists. exists IslandEx.p, sb0. do 3 (split; [assumption|]). split; [now left|]. split; [exact SU|]. split; [exact NS|]. split; [exact C|]. split; [exact E|].
  intros fl R mn mx ord sord show rof ci ok sb h O H.
  destruct (result_material_everywhere _ _ _ _ _ _ _ _ _ _ _ _ _ _ _ _ RO M PC O H) as (sb1 & C1 & MS). assert (sb1 = sb0) by congruence. subst sb1.
  destruct (MS "s0"%string IslandEx.p) as (x0 & x & X0 & X & _ & [->|(s & Hs & _)]); [congruence|destruct (NS s Hs)].
Qed.
Print Assumptions plain_island_refuted.

(** Non-vacuity: the lying sheet of [AssemblyEx] at a point 9 away from the edge on which the other one stands *)
Example plain_ex : let sh := AssemblyEx.sheet_of "s0" 0 (zq 20) in let p := (zq 5, zq 9) in In ("s0"%string, sh) (sp_sheets AssemblyEx.sp) /\
  (forall b, g2_and (segment_arrangement (fun _ _ _ => O)) (sh_face0 sh) (sh_face1 sh) = Ok b -> no_nesting b) /\ supported_at sh p /\
  forall s w, side_of AssemblyEx.sp s -> is_sheet s = "s0"%string -> ~ on_band s w p.
Proof.
  intros sh p. destruct AssemblyEx.sq_ok as (S0 & _ & (_ & NN) & _). split; [now left|]. split; [|split].
  - intros b E. assert (E0 : g2_and (segment_arrangement (fun _ _ _ => O)) (sh_face0 sh) (sh_face1 sh) = Ok (AssemblyEx.sq 0 (zq 20))) by (vm_compute; reflexivity). rewrite E0 in E. apply Ok_inv in E as <-. exact NN.
  - assert (W : well_inside (AssemblyEx.sq 0 (zq 20)) p).
    { pose proof (proj1 S0) as G. assert (B : ~ on_bd (AssemblyEx.sq 0 (zq 20)) p).
      { intros (r & (s & [<-|[]] & [->|[]]) & B). apply locate_zero_iff_boundary in B; [|discriminate]. vm_compute in B. discriminate B. }
      split; [exact B|]. apply (proj1 (geom2d_locate_exact _ p G B)). vm_compute. reflexivity. }
    split; [exact W|split; exact W].
  - intros s w (k & it & I & Is) Ek (_ & B). assert (LT : offset_at s 0 < across s p /\ offset_at s 1 < across s p).
    { vm_compute in I. destruct I as [I|[]]. injection I as <- <-. cbn [it_sides In] in Is. destruct Is as [<-|[<-|[]]]; [|discriminate Ek]. split; vm_compute; reflexivity. }
    destruct LT. destruct B as [(_ & B)|(_ & B)]; qlra.
Qed.
