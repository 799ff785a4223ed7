(** * What the drawing shows (to_mpatch, show2d, show_sheet): C133. *)
From Verif.Model Require Import Arrangement2d Draw.
From Verif.Spec Require Import Plane Region Area Path Fingers.
From Verif.Proofs Require Import PyP DictP PolyP WindingP WindingQ WindingR FlatP ArrSoundP Geom2dP Geom2dOps SheetplexP SheetbuildP HeuStepsP FingerP Geom1dP.
From Verif.Props Require Import LocateProps Geom1dProps Geom2dProps AreaProps SheetplexProps SheetbuildProps NeighbourProps.
From Coq Require Import String.

(** the loops to draw: outer rings go around clockwise, the holes are turned around *)
Definition loops (g : geom2d) : list (list point) := flat_map (fun s => outer s :: map (@rev point) (holes s)) g.
(** the path fills the region of [g]: off the boundary it winds once around the points inside and not around the others *)
Definition fills (m : mpath) (g : geom2d) : Prop := exists ls ss, strokes m ss /\ Forall2 closes ls ss /\
  (forall r, In r ls -> (exists q, ring_of g q /\ (r = q \/ r = rev q))) /\
  forall p, ~ on_bd g p -> exists n, winds ls p n /\ ((in_geom g p /\ n = (-1)%Z) \/ (~ in_geom g p /\ n = 0%Z)).
Definition shown (g : geom2d) (color : string) (l : list patch) : Prop := (g = [] /\ l = []) \/ exists m, l = [(color, m)] /\ fills m g.

Lemma strokes_app c1 v1 s1 c2 v2 s2 : strokes (c1, v1) s1 -> strokes (c2, v2) s2 -> strokes (c1 ++ c2, v1 ++ v2) (s1 ++ s2).
Proof.
  intros H. remember (c1, v1) as m eqn:E. revert c1 v1 E. induction H as [|v l codes verts rest H IH]; intros c1 v1 E T; apply pair_inv in E as (<- & <-); [exact T|].
  cbn [app]. rewrite <- !app_assoc. apply stroke. now apply IH.
Qed.
Lemma add_path_ok acc r : (1 < List.length r)%nat -> exists c vs s, add_path acc r = Ok (fst acc ++ c, snd acc ++ vs) /\ strokes (c, vs) [s] /\ closes r s.
Proof.
  intros L. destruct r as [|v l]; [cbn in L; lia|]. unfold add_path. apply Nat.ltb_lt in L. rewrite L. cbn [passert bind firstn app List.length].
  exists (MOVETO :: repeat LINETO (List.length (l ++ [v]) - 0)), (v :: l ++ [v]), (v :: l ++ [v]). split; [reflexivity|]. split; [|exists v, l; auto].
  replace (List.length (l ++ [v]) - 0)%nat with (List.length (l ++ [v])) by lia. pose proof (stroke v (l ++ [v]) [] [] [] no_stroke) as X. rewrite !app_nil_r in X. exact X.
Qed.
Lemma add_paths_ok rs : (forall r, In r rs -> (1 < List.length r)%nat) -> forall acc, exists c vs ss, foldM add_path rs acc = Ok (fst acc ++ c, snd acc ++ vs) /\ strokes (c, vs) ss /\ Forall2 closes rs ss.
Proof.
  induction rs as [|r rs IH]; intros H acc.
  - exists [], [], []. rewrite !app_nil_r. split; [destruct acc; reflexivity|]. split; constructor.
  - destruct (add_path_ok acc r) as (c & vs & s & E & S1 & C1); [apply H; now left|]. destruct (IH (fun q I => H q (or_intror I)) (fst acc ++ c, snd acc ++ vs)) as (c' & vs' & ss & E' & S2 & C2).
    exists (c ++ c'), (vs ++ vs'), (s :: ss). split; [|split; [exact (strokes_app _ _ _ _ _ _ S1 S2)|now constructor]]. cbn [foldM]. rewrite E. cbn [bind]. rewrite E'. cbn [fst snd]. now rewrite !app_assoc.
Qed.
Lemma add_polygons g : forall acc, foldM add_polygon (g2_polygons g) acc = foldM add_path (loops g) acc.
Proof.
  induction g as [|s g IH]; intros acc; [reflexivity|]. unfold loops. cbn [flat_map app]. fold (loops g). cbn [g2_polygons map foldM]. fold (g2_polygons g). unfold add_polygon at 1. cbn [g2_exterior g2_holes bind].
  destruct (add_path acc (outer s)) as [a|e]; [|reflexivity]. cbn [bind]. rewrite SheetplexP.foldM_app, SheetplexP.foldM_map. destruct (foldM (fun acc hole => add_path acc (rev hole)) (holes s) a) as [b|e]; [|reflexivity]. cbn [bind]. apply IH.
Qed.
Lemma ring_long r : ring_ok r -> (1 < List.length r)%nat.
Proof.
  intros (N & _ & E). destruct r as [|v [|w l]]; [congruence| |cbn; lia]. exfalso. apply (E (v, v)); [|reflexivity]. apply is_edge_iter. cbn. now left.
Qed.
Lemma loops_ring g r : In r (loops g) -> exists q, ring_of g q /\ (r = q \/ r = rev q).
Proof.
  intros I. apply in_flat_map in I as (s & I & [<-|J]); [exists (outer s); split; [exists s|]; auto|]. apply in_map_iff in J as (h & <- & J). exists h. split; [exists s|]; auto.
Qed.
Lemma wind_rev r p w : r <> [] -> ~ on_boundary r p -> winding_number r p w -> winding_number (rev r) p (- w).
Proof.
  intros N B W. apply (wind_wsum r p w N B) in W. apply wind_wsum; [intros E; apply N; apply (f_equal (@rev point)) in E; now rewrite rev_involutive in E|now rewrite on_boundary_rev|]. rewrite wsum_rev. lia.
Qed.
Lemma loops_wind g p : is_geom2d g -> ~ on_bd g p -> exists n, cover g p n /\ winds (loops g) p (- n).
Proof.
  intros G B. assert (X : forall r, ring_of g r -> r <> [] /\ ~ on_boundary r p) by (intros r R; split; [exact (proj1 (proj1 (is_geom2d_rings g) G r R))|intros X; apply B; exists r; auto]). clear G B.
  assert (HS : forall hs, (forall h, In h hs -> h <> [] /\ ~ on_boundary h p) -> exists hw, Forall2 (fun h v => winding_number h p v) hs hw /\ Forall2 (fun r w => winding_number r p w) (map (@rev point) hs) (map Z.opp hw)).
  { clear. induction hs as [|h hs IH]; intros H; [exists []; split; constructor|]. destruct IH as (hw & I1 & I2); [intros; apply H; now right|]. destruct (H h) as (N & B); [now left|]. destruct (locate_winding h p N B) as (w & W & _). exists (w :: hw). split; constructor; auto. now apply wind_rev. }
  assert (ZA : forall a b, zadd (a ++ b) = (zadd a + zadd b)%Z) by (intros a b; unfold zadd; induction a as [|x a IH]; cbn; lia). assert (ZO : forall a, zadd (map Z.opp a) = (- zadd a)%Z) by (intros a; unfold zadd; induction a as [|x a IH]; cbn; lia).
  induction g as [|s g IH].
  - exists 0%Z. split; [exists []; split; constructor|exists []; split; [constructor|reflexivity]].
  - destruct IH as (n & (ns & C1 & C2) & ws & W1 & W2); [intros r (t & T & R); apply X; exists t; split; auto; now right|]. destruct (X (outer s)) as (N & B); [exists s; split; [now left|auto]|]. destruct (locate_winding _ p N B) as (w & W & _).
    destruct (HS (holes s)) as (hw & H1 & H2); [intros h I; apply X; exists s; split; [now left|auto]|]. exists ((zadd hw - w) + n)%Z. split.
    + exists ((zadd hw - w)%Z :: ns). split; [constructor; auto; exists w, hw; auto|]. cbn [zadd fold_right]. fold (zadd ns). lia.
    + exists (w :: map Z.opp hw ++ ws). split; [unfold loops; cbn [flat_map app]; constructor; auto; now apply Forall2_app|]. cbn [zadd fold_right]. fold (zadd (map Z.opp hw ++ ws)). rewrite ZA, ZO. lia.
Qed.

(** to_mpatch draws every Geom2D; what is flat (C79: all results of the operations are) is filled exactly *)
Theorem mpatch_fills : forall g, is_geom2d g -> flat g -> (g = [] /\ to_mpatch g = Ok None) \/ exists m, to_mpatch g = Ok (Some m) /\ fills m g.
Proof.
  intros g G F. destruct g as [|s0 g0] eqn:E; [left; split; reflexivity|]. right. rewrite <- E in *. unfold to_mpatch. rewrite add_polygons.
  assert (LG : forall r, In r (loops g) -> (1 < List.length r)%nat). { intros r I. apply loops_ring in I as (q & Q & [-> | ->]); [|rewrite rev_length]; apply ring_long; now apply (proj1 (is_geom2d_rings g) G). }
  destruct (add_paths_ok (loops g) LG ([], [])) as (c & vs & ss & E1 & S1 & C1). rewrite E1. cbn [bind fst snd app]. destruct vs as [|v vs].
  - exfalso. inversion S1; subst. inversion C1.
  - exists (c, v :: vs). split; [reflexivity|]. exists (loops g), ss. split; [exact S1|]. split; [exact C1|]. split; [apply loops_ring|]. intros p B. destruct (loops_wind g p G B) as (n & C & W). exists (- n)%Z. split; [exact W|].
    destruct (F p n B C) as [(I & ->)|(I & ->)]; [left|right]; auto.
Qed.
Print Assumptions mpatch_fills.
Lemma show2d_shown g color l : is_geom2d g -> flat g -> show2d g color = Ok l -> shown g color l.
Proof.
  intros G F H. unfold show2d in H. destruct (mpatch_fills g G F) as [(-> & E)|(m & E & X)]; rewrite E in H; apply Ok_inv in H as <-; [left; auto|right; eauto].
Qed.
(** show_sheet: green what is ok, cyan what is chosen; on each side of the sheet, red the middle fifth of what the side has chosen and
    blue the middle two fifths of what is ok for it *)
Theorem sheet_shown : forall orc sp sb id l k c, plex_made sp -> legal sp sb -> dget String.eqb id (sb_sok sb) = Some k -> dget String.eqb id (sb_schosen sb) = Some c ->
  is_geom2d k -> flat k -> is_geom2d c -> flat c -> show_sheet (segment_arrangement orc) sp sb id = Ok l ->
  exists lk lc ls, l = lk ++ lc ++ List.concat ls /\ shown k "green" lk /\ shown c "cyan" lc /\
    Forall2 (fun s l => exists red blue lr lb, l = lr ++ lb /\ shown red "red" lr /\ shown blue "blue" lb /\
      (forall p, ~ on_bd red p -> (in_geom red p <-> in_band s (chosen_of sb (is_id s)) (qq 4 10) (qq 6 10) p)) /\
      (forall p, ~ on_bd blue p -> (in_geom blue p <-> in_band s (ok_of sb (is_id s)) (qq 3 10) (qq 7 10) p))) (sp_intersides sp (Some id)) ls.
Proof.
  intros orc sp sb id l k c M L K C Gk Fk Gc Fc H. set (A := segment_arrangement orc) in *. unfold show_sheet in H. apply bind_ok in H as (k' & Ek & H). apply dgetr_ok in Ek. assert (k' = k) by congruence. subst k'.
  apply bind_ok in H as (lk & SK & H). apply bind_ok in H as (c' & Ec & H). apply dgetr_ok in Ec. assert (c' = c) by congruence. subst c'. apply bind_ok in H as (lc & SC & H). apply bind_ok in H as (ls & SL & H). apply Ok_inv in H as <-.
  exists lk, lc, ls. split; [reflexivity|]. split; [now apply show2d_shown|]. split; [now apply show2d_shown|]. apply PyP.mapM_ok in SL.
  assert (SD : forall s, In s (sp_intersides sp (Some id)) -> side_of sp s) by (intros s I; exact (sides_in sp M (Some id) s I)).
  revert SD. induction SL as [|s x r xs SL1 SL IH]; intros SD; constructor; [|apply IH; intros; apply SD; now right]. specialize (SD s (or_introl eq_refl)). clear IH SL.
  unfold show_side in SL1. apply bind_ok in SL1 as (w & EW & T). apply bind_ok in T as (red & ER & T). apply bind_ok in T as (lr & SR & T). apply bind_ok in T as (w' & EW' & T). apply bind_ok in T as (blue & EB & T). apply bind_ok in T as (lb & SB & T). apply Ok_inv in T as <-.
  pose proof (legal_ich sp _ _ _ L EW) as N. pose proof (legal_iok sp _ _ _ L EW') as N'. apply dgetr_ok in EW, EW'. assert (E1 : chosen_of sb (is_id s) = w) by now apply opt_get. assert (E2 : ok_of sb (is_id s) = w') by now apply opt_get.
  assert (RO : rot_ok s) by exact (made_rot sp s M SD). assert (FL : forall v f0 f1 g, make_fingers A s v f0 f1 = Ok g -> is_geom1d v -> is_geom2d g /\ flat g /\ forall p, ~ on_bd g p -> (in_geom g p <-> in_band s v f0 f1 p)).
  { intros v f0 f1 g E V. destruct (fingers_any A s v f0 f1 g (arrangement_sound orc) RO (is_geom1d_normal _ V) E) as (G & _ & P). split; [exact G|]. split; [|exact P]. unfold make_fingers in E. apply bind_ok in E as (gs & MG & E).
    refine (proj1 (proj2 (proj2 (proj2 (proj2 (results_flat orc))))) gs g _ E). apply PyP.mapM_ok in MG. clear -MG RO. induction MG as [|i g v gs X MG IH]; constructor; auto. exact (proj1 (finger_frame _ _ _ _ _ RO X)). }
  destruct (FL _ _ _ _ ER N) as (G1 & F1 & P1). destruct (FL _ _ _ _ EB N') as (G2 & F2 & P2). exists red, blue, lr, lb. split; [reflexivity|]. split; [now apply show2d_shown|]. split; [now apply show2d_shown|]. rewrite E1, E2. auto.
Qed.
Print Assumptions sheet_shown.

(** Non-vacuity: a square with a hole, whose ring is turned around; and sheet s1 of the example of C132. *)
Module DrawEx.
Import NeighbourEx.
Definition z2 (x y : Z) : point := (zq x, zq y).
Definition framed : geom2d := [mkSpwh [z2 0 0; z2 0 9; z2 9 9; z2 9 0] [[z2 3 3; z2 3 6; z2 6 6; z2 6 3]]].
Definition A := segment_arrangement (fun _ _ _ => O).
Lemma sq_flat : is_geom2d sq /\ flat sq.
Proof.
  assert (E : rectangle (NInt 0) (NInt 0) (NInt 12) (NInt 12) = Ok sq) by (vm_compute; reflexivity). split; [constructor; [vm_compute; reflexivity|constructor]|].
  refine (rectangle_flat (NInt 0) (NInt 0) (NInt 12) (NInt 12) (zq 0) (zq 0) (zq 12) (zq 12) sq (exact_int 0) (exact_int 0) (exact_int 12) (exact_int 12) E).
Qed.
End DrawEx.
Example draw_ex :
  to_mpatch DrawEx.framed = Ok (Some ([MOVETO; LINETO; LINETO; LINETO; LINETO; MOVETO; LINETO; LINETO; LINETO; LINETO],
    [DrawEx.z2 0 0; DrawEx.z2 0 9; DrawEx.z2 9 9; DrawEx.z2 9 0; DrawEx.z2 0 0; DrawEx.z2 6 3; DrawEx.z2 6 6; DrawEx.z2 3 6; DrawEx.z2 3 3; DrawEx.z2 6 3])) /\
  plex_made NeighbourEx.sp /\ legal NeighbourEx.sp NeighbourEx.sb /\ is_geom2d NeighbourEx.sq /\ flat NeighbourEx.sq /\
  dget String.eqb "s1"%string (sb_sok NeighbourEx.sb) = Some NeighbourEx.sq /\ dget String.eqb "s1"%string (sb_schosen NeighbourEx.sb) = Some NeighbourEx.sq /\
  match show_sheet DrawEx.A NeighbourEx.sp NeighbourEx.sb "s1" with Ok l => map fst l = ["green"; "cyan"; "red"; "blue"]%string | Err _ => False end.
Proof.
  split; [vm_compute; reflexivity|]. destruct NeighbourEx.good as (G1 & G2 & _). destruct DrawEx.sq_flat as (S1 & S2). do 4 (split; [assumption|]). split; [vm_compute; reflexivity|]. split; [vm_compute; reflexivity|]. vm_compute. reflexivity.
Qed.
