(** * Chosen fingers are complete: inside the band of a chosen range all of sheet_ok is chosen *)
From Verif.Spec Require Import Plane Region PointSet1 Fingers Steps.
From Verif.Model Require Import Arrangement2d Geom2d Geom1d Sheetplex Sheetbuild Heuristics Canned.
From Verif.Proofs Require Import PyP PolyP PlanarP ExtOrd DictP Geom1dP NearP Geom2dP Geom2dOps ArrSoundP SheetplexP FingerP SheetbuildP CreateP BufferP HeuristicsP ClusterP HeuStepsP StepsP TrimP TrimQ.
From Verif.Props Require Import Geom1dProps SheetplexProps Geom2dProps SheetbuildProps JointProps FingerAreaProps.
From Coq Require Import String Permutation.
Open Scope Qc_scope.

(** the line across the band of [s] at coordinate [a] *)
Definition band_line (s : interside) (a : Qc) : segment := (Xs s (a, offset_at s 0), Xs s (a, offset_at s 1)).
Lemma on_band_line s p : frame_ok s -> strictly_between (offset_at s 0) (across s p) (offset_at s 1) -> on_seg (band_line s (along s p)) p.
Proof.
  intros F B. set (a := offset_at s 0) in *. set (b := offset_at s 1) in *. set (c := across s p) in *.
  assert (NE : b - a <> 0) by (intros E; destruct B as [(? & ?)|(? & ?)]; qlra). exists ((c - a) / (b - a)).
  assert (T : 0 <= (c - a) / (b - a) /\ (c - a) / (b - a) <= 1).
  { assert (E : (c - a) / (b - a) * (b - a) = c - a) by (field; exact NE). set (t := (c - a) / (b - a)) in *. clearbody t. clear F. unfold strictly_between in B.
    destruct (qltb_spec t 0) as [X|X]; [exfalso|destruct (qltb_spec 1 t) as [Y|Y]; [exfalso|split; qlra]].
    - destruct B as [(B1 & B2)|(B1 & B2)]; [assert (0 < (0 - t) * (b - a)) by (apply mpp; qlra)|assert (0 < (0 - t) * (a - b)) by (apply mpp; qlra)]; qlra.
    - destruct B as [(B1 & B2)|(B1 & B2)]; [assert (0 < (t - 1) * (b - a)) by (apply mpp; qlra)|assert (0 < (t - 1) * (a - b)) by (apply mpp; qlra)]; qlra. }
  split; [apply T|]. split; [apply T|]. rewrite <- (frame_pt s p F) at 1. fold c. unfold band_line, at_t, Xs. fold a b. cbn [fst snd]. clear T. unfold padd, pscale, vadd, vscale, vsub. cbn [fst snd].
  f_equal; field; exact NE.
Qed.
Definition ends_lines (s : interside) (w : geom1d) : list segment := map (fun i => match fst i with Fin a => band_line s a | _ => band_line s 0 end) w.
Lemma finger_band s w p : frame_ok s -> normal w -> pts w (along s p) -> strictly_between (offset_at s 0) (across s p) (offset_at s 1) -> off_segs (ends_lines s w) p -> in_band s w 0 1 p.
Proof.
  intros F N X B O. split; [|exact B]. destruct (inside_or_end w _ N X) as [I|(b & I)]; [exact I|]. exfalso. apply (O (band_line s (along s p))); [|now apply on_band_line].
  unfold ends_lines. apply in_map_iff. exists (Fin (along s p), b). auto.
Qed.

Lemma fingers_frame A s w g x : rot_ok s -> pts w x -> make_fingers01 A s w = Ok g -> frame_ok s.
Proof.
  intros R (i & I & _) H. unfold make_fingers01, make_fingers in H. apply bind_ok in H as (gs & H & _). apply PyP.mapM_ok in H. destruct (Forall2_in _ _ _ _ H I) as (g1 & _ & E). exact (proj1 (proj2 (finger_frame s 0 1 i g1 R E))).
Qed.

Section F.
Variable orc : list segment -> nat -> nat -> nat.
Let A := segment_arrangement orc.
Variable sp : sheetplex.
Hypothesis M : plex_made sp.
Hypothesis PG : plex_geoms sp.
Let SA : arr_sound A := arrangement_sound orc.

Definition full (sb : sbuild) : Prop := exists S, forall p, off_segs S p -> forall s, side_of sp s -> in_finger sb s p ->
  in_geom (geom_at (sb_sok sb) (is_sheet s)) p -> in_geom (geom_at (sb_schosen sb) (is_sheet s)) p.
Definition fstate (sb : sbuild) : Prop := legal sp sb /\ inv2 sb /\ full sb.

Lemma full_shrink a b : sb_schosen b = sb_schosen a -> sb_ichosen b = sb_ichosen a -> sheets_move a b -> full a -> full b.
Proof.
  intros E1 E2 (S2 & MV) (S1 & H). exists (S1 ++ S2). intros p Hp s Hs (F1 & F2) K. apply off_segs_app in Hp as (P1 & P2). rewrite E1. apply (H p P1 s Hs).
  - split; [|exact F2]. unfold chosen_of in *. now rewrite E2 in F1.
  - apply (MV p P2). exact K.
Qed.
Lemma fstate_shrink a b : sb_schosen b = sb_schosen a -> sb_ichosen b = sb_ichosen a -> ssteps A (geoms_of A) a b -> fstate a -> fstate b.
Proof.
  intros E1 E2 SS (L & I & F). destruct (ssteps_2d A sp a b SA M PG (iv_plex _ _ L) I SS) as (I' & MV & _). split; [exact (legal_steps A sp M _ _ L SS)|]. split; [exact I'|]. exact (full_shrink a b E1 E2 MV F).
Qed.
Lemma full_choose sb id v sb' : is_geom1d v -> choose_interside A sb id v false = Ok sb' -> fstate sb -> fstate sb'.
Proof.
  intros V H (L & I & (S0 & F)). split; [exact (legal_steps A sp M _ _ L (one_choose A (Kc:=geoms_of A) _ _ _ _ _ V H))|]. pose proof (iv_plex _ _ L) as P.
  apply choose_inv in H as (s & o & CD). destruct (choose_2d A sp sb id v false sb' s o SA M P I V CD) as (G' & S & fs & fo & Gs & _ & _ & Es & HS). split; [exact G'|].
  destruct CD as [C1 C2 C3 _ _ _ _ (r & Rr & RE) _]. rewrite P in *. destruct (made_interside _ _ _ M C1) as (Hs & <-). pose proof (is_geom1d_normal _ V) as NV.
  change (g_or (chosen_of sb (is_id s)) v = Ok r) in Rr. pose proof (proj1 (iv_normal _ _ L (is_id s))) as Nc. apply is_geom1d_normal in Nc. assert (OR : forall x, pts r x <-> pts (chosen_of sb (is_id s)) x \/ pts v x) by (intros x; exact (or_pts _ _ _ x Nc NV Rr)).
  destruct (fingers_any A s v 0 1 fs SA (made_rot _ _ M Hs) NV (Es eq_refl)) as (_ & _ & Pf).
  exists (S0 ++ S ++ all_segments fs ++ ends_lines s v). intros p Hp t Ht (F1 & F2) K. apply off_segs_app in Hp as (P0 & Hp). apply off_segs_app in Hp as (P1 & Hp). apply off_segs_app in Hp as (P2 & P3).
  destruct (HS p P1) as (HC & HK). apply HK in K as (K & _). apply HC. rewrite (chosen_dset _ _ _ _ (is_id t) RE) in F1.
  destruct (eqb_case _ id2_eqb_ok (is_id t) (is_id s)) as [(E & EQ)|(E & NE)].
  - rewrite E in F1. assert (t = s) by (apply (made_unique sp); auto). subst t. apply OR in F1 as [F1|F1].
    + left. apply (F p P0 s Hs); [split; auto|exact K].
    + right. split; [auto|]. split; [auto|]. split; [auto|]. apply Pf; [intros Y; apply on_bd_segments in Y as (e & Ee & Y); exact (P2 e Ee Y)|].
      assert (FR : frame_ok s) by exact (fingers_frame A s v fs _ (made_rot _ _ M Hs) F1 (Es eq_refl)). exact (finger_band s v p FR NV F1 F2 P3).
  - rewrite E in F1. left. apply (F p P0 t Ht); [split; auto|exact K].
Qed.
Lemma full_unchoose sb id v sb' : is_geom1d v -> unchoose_interside sb id v = Ok sb' -> fstate sb -> fstate sb'.
Proof.
  intros V H F. pose proof (one_unchoose A (Kc:=geoms_of A) _ _ _ _ V H) as SS. apply unchoose_inv in H as (u & [C1 C2 _ C4 C5 C6 _]). exact (fstate_shrink sb sb' C4 C6 SS F).
Qed.
Lemma fold_full {X} (f : sbuild -> X -> result sbuild) l : (forall sb x sb', In x l -> fstate sb -> f sb x = Ok sb' -> fstate sb') -> forall sb sb', fstate sb -> foldM f l sb = Ok sb' -> fstate sb'.
Proof.
  induction l as [|x l IH]; intros F sb sb' L H; cbn [foldM] in H; [now apply Ok_inv in H as <-|]. apply bind_ok in H as (s1 & H1 & H).
  exact (IH (fun a b c I => F a b c (or_intror I)) s1 sb' (F sb x s1 (or_introl eq_refl) L H1) H).
Qed.
Lemma fold_hfull {X} (f : hstate -> X -> result hstate) l : (forall st x st', In x l -> fstate (fst st) -> f st x = Ok st' -> fstate (fst st')) -> forall st st', fstate (fst st) -> foldM f l st = Ok st' -> fstate (fst st').
Proof.
  induction l as [|x l IH]; intros F sb sb' L H; cbn [foldM] in H; [now apply Ok_inv in H as <-|]. apply bind_ok in H as (s1 & H1 & H).
  exact (IH (fun a b c I => F a b c (or_intror I)) s1 sb' (F sb x s1 (or_introl eq_refl) L H1) H).
Qed.
Lemma only_ok_full st st' : fstate (fst st) -> choose_the_ok_side A st = Ok st' -> fstate (fst st').
Proof.
  intros L H. unfold choose_the_ok_side in H. apply bind_ok in H as (st1 & H1 & H). apply hcheck_ok in H1. rewrite <- H1 in *.
  refine (fold_hfull _ _ _ _ _ L H). intros (sb & ci) s s' _ Fs Hs. cbn [fst] in *. unfold choose_only_ok in Hs. pose proof (proj1 Fs) as Ls.
  apply bind_ok in Hs as (k & K & Hs). apply bind_ok in Hs as (c & C & Hs). apply bind_ok in Hs as (t & T & Hs). apply bind_ok in Hs as (o & _ & Hs). apply bind_ok in Hs as (ko & KO & Hs).
  apply bind_ok in Hs as (t2 & T2 & Hs). apply bind_ok in Hs as (co & CO & Hs). apply bind_ok in Hs as (t3 & T3 & Hs). apply bind_ok in Hs as (t4 & T4 & Hs). apply bind_ok in Hs as (t5 & T5 & Hs).
  apply bind_ok in Hs as (sm & SM & Hs). apply bind_ok in Hs as (sb1 & S1 & Hs). apply bind_ok in Hs as (sb2 & S2 & Hs). apply hcheck_ok in Hs. rewrite Hs. cbn [fst].
  assert (G3 : is_geom1d t3) by exact (is_geom1d_sub _ _ _ (is_geom1d_sub _ _ _ (is_geom1d_sub _ _ _ (legal_iok sp _ _ _ Ls K) (legal_ich sp _ _ _ Ls C) T) (legal_iok sp _ _ _ Ls KO) T2) (legal_ich sp _ _ _ Ls CO) T3).
  assert (G5 : is_geom1d t5) by exact (is_geom1d_buffer _ _ _ (is_geom1d_buffer _ _ _ G3 T4) T5).
  exact (full_unchoose _ _ _ _ (is_geom1d_sub _ _ _ G3 G5 SM) S2 (full_choose _ _ _ _ G5 S1 Fs)).
Qed.
Lemma random_full fl R mn mx st st' : fstate (fst st) -> single_fingers_random A fl R mn mx st = Ok st' -> fstate (fst st').
Proof.
  intros L H. unfold single_fingers_random in H. apply bind_ok in H as ((sb & ci) & H1 & H). apply hcheck_ok in H1. cbn [fst] in H1. subst sb.
  apply bind_ok in H as ((sb & k) & H2 & H). apply Ok_inv in H as <-. cbn [fst].
  assert (F : forall l (s : sbuild * nat) s', fstate (fst s) -> foldM (fingers_inter A fl R mn mx) l s = Ok s' -> fstate (fst s')).
  { clear H2 L sb. induction l as [|it l IH]; intros s s' Ls H; cbn [foldM] in H; [now apply Ok_inv in H as <-|]. apply bind_ok in H as (s1 & H1 & H). refine (IH s1 s' _ H). clear H IH.
    unfold fingers_inter in H1. destruct (it_sides it) as [|s0 [|s2 [|]]]; try discriminate. repeat (apply bind_ok in H1 as (? & ? & H1)). clear -H1 Ls M PG SA.
    revert s Ls H1. generalize x3 as ivs. intros ivs. induction ivs as [|i ivs IH]; intros s Ls H1; cbn [foldM] in H1; [now apply Ok_inv in H1 as <-|]. apply bind_ok in H1 as (s' & H & H1). refine (IH s' _ H1). clear H1 IH.
    destruct s as [sb kk]. unfold fingers_range in H. destruct i as [[|a|] [|b|]]; try discriminate. cbn [fst] in *.
    apply bind_ok in H as (g & G & H). apply is_geom1d_new in G. apply bind_ok in H as (on0 & _ & H). apply bind_ok in H as (on1 & _ & H). apply bind_ok in H as ((pl & k') & PL & H).
    destruct pl as [(f0 & f1)|].
    - apply bind_ok in H as (sb1 & C1 & H). apply bind_ok in H as (sb2 & C2 & H). apply Ok_inv in H as <-. cbn [fst].
      destruct (plan_geom _ _ _ _ _ _ _ _ _ _ _ _ PL) as (G0 & G1). exact (full_choose _ _ _ _ G1 C2 (full_choose _ _ _ _ G0 C1 Ls)).
    - apply bind_ok in H as (sb' & H & H'). apply Ok_inv in H' as <-. exact (full_choose _ _ _ _ G H Ls). }
  exact (F _ (fst st, O) (sb, k) L H2).
Qed.
Section Dec.
Variable fsqrt : Qc -> Qc.
Variable ord : dict string geom1d -> dict string geom1d.
Variable sord : list string -> list string.
Hypothesis ORD : forall c, Permutation c (ord c).
Lemma decide_full st cl st' : fstate (fst st) -> cgeom cl -> decide_cluster A fsqrt ord sord st cl = Ok st' -> fstate (fst st').
Proof.
  intros L G H. destruct st as [sb ci]. unfold decide_cluster in H. cbn [fst] in *. apply bind_ok in H as (its & _ & H). apply bind_ok in H as (shs & _ & H). apply bind_ok in H as (off & _ & H). apply bind_ok in H as (ch & _ & H).
  destruct (nth_error shs ch) as [sh|]; [|discriminate]. destruct (nth_error off ch) as [(a & ne)|]; [|discriminate]. apply bind_ok in H as (cl' & H1 & H).
  assert (G' : cgeom cl'). { destruct ne; [|now apply Ok_inv in H1 as <-]. apply bind_ok in H1 as ([c|] & H1 & H2); [|discriminate]. apply Ok_inv in H2 as <-. exact (extra_geom sp _ _ _ _ (proj1 L) G H1). }
  clear H1. apply bind_ok in H as ((sb0 & ci0) & H1 & H). apply hcheck_ok in H1. cbn [fst] in H1. subst sb0. apply bind_ok in H as (sb1 & H1 & H). apply bind_ok in H as (sb2 & H2 & H). apply hcheck_ok in H. rewrite H. cbn [fst].
  assert (S1 : fstate sb1).
  { refine (fold_full _ _ _ _ _ L H1). intros s x s' _ Ls Hs. unfold choose_side in Hs. apply bind_ok in Hs as (c & C & Hs). apply bind_ok in Hs as (k & K & Hs). apply bind_ok in Hs as (r & R & Hs).
    exact (full_choose _ _ _ _ (is_geom1d_and _ _ _ (cgeom_get _ _ _ G' C) (legal_iok sp _ _ _ (proj1 Ls) K) R) Hs Ls). }
  refine (fold_full _ _ _ _ _ S1 H2). intros s (j & r) s' I Ls Hs. apply (Permutation_in _ (Permutation_sym (ORD cl'))) in I.
  unfold unchoose_others in Hs. apply bind_ok in Hs as (it & _ & Hs). refine (fold_full _ _ _ _ _ Ls Hs). intros t x t' _ Lt Ht. cbn beta in Ht. destruct (String.eqb _ _); [now apply Ok_inv in Ht as <-|].
  exact (full_unchoose _ _ _ _ (G' _ _ I) Ht Lt).
Qed.
Lemma multi_full st st' : fstate (fst st) -> heuristic_multi_inter_single_decisions A fsqrt ord sord st = Ok st' -> fstate (fst st').
Proof.
  intros L H. unfold heuristic_multi_inter_single_decisions in H. apply bind_ok in H as (ia & H1 & H). apply bind_ok in H as (m & H2 & H). apply bind_ok in H as (u & _ & H).
  rewrite (iv_plex sp _ (proj1 L)) in H2. pose proof (clusters_geom _ _ _ (interactions_geom _ _ _ H1) H2) as G. refine (fold_hfull _ _ _ _ _ L H). intros s c s' I Ls Hs.
  apply in_map_iff in I as ((k & c') & <- & I). exact (decide_full _ _ _ Ls (G _ _ I) Hs).
Qed.
End Dec.
End F.
