(** * Chosen fingers are complete: C120 *)
From Verif.Spec Require Import Plane Region PointSet1 Fingers Crisp Space Steps.
From Verif.Model Require Import Arrangement2d Geom2d Geom1d Sheetplex Sheetbuild Heuristics Canned Frames.
From Verif.Proofs Require Import PyP PolyP PlanarP ExtOrd DictP Geom1dP NearP Geom2dP Geom2dOps ArrSoundP SheetplexP FingerP SheetbuildP CreateP CrispP CrispQ BufferP BufSharpQ RunSharpP HeuristicsP ClusterP HeuStepsP StepsP TrimP TrimQ SpaceP FullP.
From Verif.Props Require Import Geom1dProps SheetplexProps Geom2dProps SheetbuildProps JointProps CannedProps CrispProps BufferExactProps RunSharpProps StepsProps FingerAreaProps SpaceProps AssemblyProps.
From Coq Require Import String Permutation.
Open Scope Qc_scope.

Lemma locate_inside c p eps (S : list segment) : sharp c -> 0 < eps -> (forall q, near eps p q -> off_segs S q -> in_geom c q) -> g2_locate c p = Ok 1%Z.
Proof.
  intros (G & C & _) E H. destruct (crisp_locates c p G C) as [(_ & B)|[(L & _)|(_ & B & N)]]; [exfalso|exact L|exfalso].
  - assert (E2 : 0 < eps * qq 1 2) by (apply mpp; [auto|vm_compute; reflexivity]). destruct (C p _ B E2) as (_ & q & N & NB & NI). destruct (near_off q _ c S E2 G NB) as (q' & N' & I' & O).
    apply NI, I', (H q' (near_trans _ _ _ _ N N') O).
  - destruct (near_off p _ c S E G B) as (q & N' & I' & O). apply N, I', (H q N' O).
Qed.
Lemma full_band sp sb s p : state_in sharp sb -> full sp sb -> side_of sp s -> in_band s (chosen_of sb (is_id s)) 0 1 p -> g2_locate (geom_at (sb_sok sb) (is_sheet s)) p = Ok 1%Z ->
  g2_locate (geom_at (sb_schosen sb) (is_sheet s)) p = Ok 1%Z.
Proof.
  intros ST (S & F) Hs B K. destruct (ST (is_sheet s)) as (S1 & S2). destruct (crisp_locates _ p (proj1 S2) (proj1 (proj2 S2))) as [(Z & _)|[(_ & NB & I)|(Z & _)]]; [rewrite K in Z; discriminate| |rewrite K in Z; discriminate].
  destruct (bd_away _ p (proj1 S2) NB) as (e1 & E1 & W1), (band_open s _ p B) as (e2 & E2 & W2). destruct (qmin_spec e1 e2) as (M1 & M2 & M3). apply (locate_inside _ p (qmin e1 e2) S S1 (M3 E1 E2)).
  intros q N O. apply (F q O s Hs); [|apply (W1 q (near_mono _ _ _ _ M1 N)); exact I]. destruct (W2 q (near_mono _ _ _ _ M2 N)) as (B1 & B2). split; [now apply inside1_pts|exact B2].
Qed.

Section C.
Variable orc : list segment -> nat -> nat -> nat.
Let A := segment_arrangement orc.
Variable fsqrt fl : Qc -> Qc.
Variable R : rng.
Variable mn mx : Qc.
Variable ord : dict string geom1d -> dict string geom1d.
Variable sord : list string -> list string.
Lemma step_full sp st op st' : root_ok fsqrt -> plex_made sp -> plex_clean sp -> (forall c, Permutation c (ord c)) -> In op (firstn 11 (canned_steps A fsqrt fl R mn mx ord sord)) -> op st = Ok st' ->
  fstate sp (fst st) /\ state_in sharp (fst st) -> fstate sp (fst st') /\ state_in sharp (fst st').
Proof.
  intros (F1 & F2 & F3) M PC O I H (F & SH). pose proof (plex_clean_geoms sp PC) as PG. pose proof (proj1 F) as L. pose proof (iv_plex _ _ L) as P. split.
  - pose proof (steps_ssteps A fsqrt fl R mn mx ord sord (geoms_of A) sp st op st' (geoms_closed A fsqrt) M O L I H) as SS.
    assert (TR : sb_schosen (fst st') = sb_schosen (fst st) -> sb_ichosen (fst st') = sb_ichosen (fst st) -> fstate sp (fst st')) by (intros E1 E2; exact (fstate_shrink orc sp M PG _ _ E1 E2 SS F)). clear SS.
    cbn [canned_steps firstn In] in I. 
    assert (T1 : same_but_sok (fst st) (fst st') -> fstate sp (fst st')) by (intros (_ & E1 & E2 & _); auto). assert (T2 : same_but_iok (fst st) (fst st') -> fstate sp (fst st')) by (intros (_ & E1 & _ & E2); auto).
    destruct I as [<-|[<-|[<-|[<-|[<-|[<-|[<-|[<-|[<-|[<-|[<-|[]]]]]]]]]]]].
    + apply T2, (irrelevant_all orc fsqrt sp M st st' P H).
    + apply T1, (loose_all orc sp st st' M P H).
    + apply T2, (iok_all orc sp st st' M P H).
    + apply T1, (sok_all orc fsqrt sp M st st' P H).
    + apply T2, (iok_all orc sp st st' M P H).
    + apply T1, (loose_all orc sp st st' M P H).
    + apply T2, (iok_all orc sp st st' M P H).
    + exact (multi_full orc sp M PG fsqrt ord sord O st st' F H).
    + apply T2, (iok_all orc sp st st' M P H).
    + exact (only_ok_full orc sp M PG st st' F H).
    + exact (random_full orc sp M fl R mn mx st st' F H).
  - exact (ssteps_sharp orc sp _ _ M (plex_clean_neat sp PC) L SH (steps_ssteps A fsqrt fl R mn mx ord sord neat sp st op st' (neat_closed orc fsqrt F1 F2 F3) M O L I H)).
Qed.
(** [h] is the history of the run; state 12 of it is the one before clean_up_thin_ok_parts, the last step, which changes only sheet_ok *)
Theorem chosen_fingers_complete : forall rof sp rad ci sb h, root_ok fsqrt -> plex_made sp -> plex_clean sp -> (forall c, Permutation c (ord c)) ->
  canned_1 A fsqrt fl R mn mx ord sord None rof sp rad ci = Ok (mkCanned true sb h) ->
  (forall n b, (n <= 12)%nat -> nth_error h n = Some b -> forall s p, side_of sp s -> in_band s (chosen_of b (is_id s)) 0 1 p ->
     g2_locate (geom_at (sb_sok b) (is_sheet s)) p = Ok 1%Z -> g2_locate (geom_at (sb_schosen b) (is_sheet s)) p = Ok 1%Z) /\
  exists b, nth_error h 12 = Some b /\ sb_schosen sb = sb_schosen b /\ sb_ichosen sb = sb_ichosen b.
Proof.
  intros rof sp rad ci sb h RO M PC O H. destruct (canned_history _ _ _ _ _ _ _ _ _ _ _ _ _ _ H) as (sb0 & ci0 & sts & C & -> & S0 & (SL & F) & SE).
  pose proof (proj1 (create_inv1 _ _ _ _ _ M C)) as L0. set (steps := canned_steps A fsqrt fl R mn mx ord sord) in *. pose proof (plex_clean_geoms sp PC) as PG.
  assert (B0 : fstate sp sb0 /\ state_in sharp sb0).
  { split; [split; [exact L0|]; split; [exact (proj1 (create_2d A (arrangement_sound orc) fsqrt sp M PG rad sb0 C))|]|destruct RO as (F1 & F2 & F3); exact (create_sharp orc fsqrt F1 F2 F3 sp rad sb0 (plex_clean_neat sp PC) C)].
    exists []. intros p _ s Hs (X & _). exfalso. revert X. rewrite (proj2 (create_inv1 _ _ _ _ _ M C)). intros (i & [] & _). }
  assert (ALL : forall n st, (n <= 11)%nat -> nth_error sts n = Some st -> fstate sp (fst st) /\ state_in sharp (fst st)).
  { induction n as [|n IH]; intros st LE E; [rewrite S0 in E; apply some_inv in E as <-; exact B0|]. destruct (nth_error steps n) as [op|] eqn:EO; [|apply nth_error_None in EO; unfold steps in EO; cbn [canned_steps List.length] in EO; lia].
    destruct (F n op EO) as (a & b & Ea & Eb & OP). pose proof (some_inv _ _ (eq_trans (eq_sym E) Eb)) as <-. refine (step_full sp a op st RO M PC O _ OP (IH a ltac:(lia) Ea)).
    apply (nth_error_In _ n). unfold steps in EO. clear -LE EO. do 11 (destruct n as [|n]; [exact EO|]). lia. }
  split.
  - intros n b LE E s p Hs B K. assert (X : fstate sp b /\ state_in sharp b).
    { destruct n as [|n]; [cbn in E; apply some_inv in E as <-; exact B0|]. cbn [nth_error] in E. rewrite nth_error_map in E. destruct (nth_error sts n) as [st|] eqn:E'; [|discriminate E]. cbn [option_map] in E. apply some_inv in E as <-. apply (ALL n); [lia|exact E']. }
    destruct X as ((_ & _ & FU) & SH). exact (full_band sp b s p SH FU Hs B K).
  - destruct (F 11%nat _ eq_refl) as (s11 & s12 & E11 & E12 & H11). exists (fst s11). split; [change (nth_error (map fst sts) 11 = Some (fst s11)); rewrite nth_error_map; unfold hstate in *; now rewrite E11|].
    assert (EB : fst s12 = sb). { change (nth_error (map fst sts) 12 = Some sb) in SE. pose proof (eq_trans (eq_sym (nth_error_map fst 12 sts)) SE) as X. unfold hstate in *. rewrite E12 in X. cbn [option_map] in X. now apply some_inv in X. }
    destruct (clean_frame A fsqrt _ _ H11) as (sok & EF). rewrite EB in EF. rewrite EF. auto.
Qed.
End C.
Print Assumptions chosen_fingers_complete.

(** In space: the part of the crossing of two plates that has a chosen coordinate and is still allowed is material of the sheet that has it *)
Theorem chosen_crossing_filled : forall orc fsqrt fl R mn mx ord sord norm plates rof sp rad ci sb h, root_ok fsqrt -> space_plex norm plates sp -> plex_clean sp -> (forall c, Permutation c (ord c)) ->
  canned_1 (segment_arrangement orc) fsqrt fl R mn mx ord sord None rof sp rad ci = Ok (mkCanned true sb h) ->
  exists b, nth_error h 12 = Some b /\ forall s o x, joint sp s o -> inside_slab (plates (is_sheet s)) x -> inside_slab (plates (is_sheet o)) x ->
    inside1 (chosen_of sb (is_id s)) (along s (footprint (plates (is_sheet s)) x)) ->
    g2_locate (geom_at (sb_sok b) (is_sheet s)) (footprint (plates (is_sheet s)) x) = Ok 1%Z ->
    g2_locate (geom_at (sb_schosen sb) (is_sheet s)) (footprint (plates (is_sheet s)) x) = Ok 1%Z.
Proof.
  intros orc fsqrt fl R mn mx ord sord norm plates rof sp rad ci sb h RO SP PC O H. pose proof (space_made _ _ _ SP) as M.
  destruct (chosen_fingers_complete orc fsqrt fl R mn mx ord sord rof sp rad ci sb h RO M PC O H) as (ALL & b & E & E1 & E2). exists b. split; [exact E|]. intros s o x J X1 X2 I K. rewrite E1.
  assert (E3 : chosen_of sb (is_id s) = chosen_of b (is_id s)) by (unfold chosen_of; now rewrite E2). rewrite E3 in I.
  apply (ALL 12%nat b (le_n _) E s _ (proj1 J)); [|exact K]. split; [exact I|]. destruct (space_reach _ _ _ _ _ _ SP J X1 X2) as (B1 & B2). left.
  assert (O0 : offset_at s 0 = is_min s) by (unfold offset_at; ring). assert (O1 : offset_at s 1 = is_max s) by (unfold offset_at; ring). rewrite O0, O1. auto.
Qed.
Print Assumptions chosen_crossing_filled.

(** the hypotheses hold for the sheets of [AssemblyEx]; there, choosing a range for the lying sheet fills its finger, and nothing else *)
Module CompleteEx.
Definition sq0 := AssemblyEx.sq 0 (zq 20).
Definition sq1 := AssemblyEx.sq (zq (-20)) 0.
Definition ok : geom1d := [(Fin (zq (-20)), Fin 0)].
Definition i := nth 0 (sp_inters AssemblyEx.sp) (""%string, mkInter "" []).
Definition s := nth 0 (it_sides (snd i)) (create_inter_side "" "" 0 ((0, 0), ((0, 0), []))).
Definition o := nth 1 (it_sides (snd i)) s.
Definition st := mkSB AssemblyEx.sp [("s0", []); ("s1", [])]%string [("s0", sq0); ("s1", sq1)]%string [(is_id s, []); (is_id o, [])] [(is_id s, ok); (is_id o, ok)].
End CompleteEx.
Example complete_ex : (sb <- choose_interside (segment_arrangement (fun _ _ _ => O)) CompleteEx.st (is_id CompleteEx.s) [(Fin (zq (-8)), Fin (zq (-4)))] false ;;
   mapM (fun e => g2_locate (geom_at (sb_schosen sb) (fst e)) (footprint (AssemblyEx.plates (fst e)) (snd e)))
     [("s0", V3 (zq 5) (zq 2) (zq 2)); ("s0", V3 (zq 9) (zq 2) (zq 2)); ("s0", V3 (zq 5) (zq 9) (zq 2)); ("s1", V3 (zq 5) (zq 2) (zq 2))]%string) = Ok [1; -1; -1; -1]%Z.
Proof. vm_compute. reflexivity. Qed.
