(** * Properties of SheetBuild: C49-C53. *)
From Verif.Spec Require Import Plane Region PointSet1 Fingers.
From Verif.Model Require Import Sheetbuild.
From Verif.Proofs Require Import PyP ExtOrd DictP Geom1dP Geom1dM Geom2dP NearP Geom2dOps SheetplexP FingerP SheetbuildP.
From Verif.Props Require Import Geom1dProps Primitive2dProps SheetplexProps.
From Coq Require Import String.
Open Scope Qc_scope.

(** a joint: the two sides of one intersection *)
Definition joint (sp : sheetplex) (s o : interside) : Prop := side_of sp s /\ opposite s sp = Ok o.

(** ** C49 *)
Theorem chosen_disjoint_from_opposite_ok : forall A fsqrt sp rad sb0 ops sb, plex_made sp ->
  create_sheetbuild A fsqrt sp rad = Ok sb0 -> Forall sop_ok ops -> sruns A ops sb0 = Ok sb ->
  forall s o, joint sp s o -> exists c k,
    dget id2_eqb (is_id s) (sb_ichosen sb) = Some c /\ dget id2_eqb (is_id o) (sb_iok sb) = Some k /\
    (forall x, ~ (pts c x /\ pts k x)) /\ g_and c k = Ok [].
Proof.
  intros A fsqrt sp rad sb0 ops sb M C F R s o (Hs & Ho). destruct (create_inv1 _ _ _ _ _ M C) as (I0 & _).
  pose proof (inv1_steps A _ sp sb0 sb M I0 (sruns_steps _ _ _ _ F R)) as [P Hh N D].
  destruct (made_opp _ _ M Hs) as (o' & O1 & O2 & Hso & _). rewrite Ho in O1. apply Ok_inv in O1 as <-.
  destruct (Hh s Hs) as (K1 & _). destruct (Hh o Hso) as (_ & K2). apply (dget_some _ id2_eqb_ok) in K1 as (c & K1). apply (dget_some _ id2_eqb_ok) in K2 as (k & K2).
  assert (E1 : chosen_of sb (is_id s) = c) by now apply opt_get. assert (E2 : ok_of sb (is_id o) = k) by now apply opt_get.
  exists c, k. split; auto. split; auto. assert (DJ : forall x, ~ (pts c x /\ pts k x)) by (intros x (X & Y); rewrite <- E1 in X; rewrite <- E2 in Y; exact (D s o x Hs Ho X Y)).
  split; auto. destruct (N (is_id s)) as (Nc & _). destruct (N (is_id o)) as (_ & Nk). rewrite E1 in Nc. rewrite E2 in Nk. apply is_geom1d_normal in Nc, Nk.
  rewrite g_and_ok by auto. f_equal. apply normal_nil_pts; [now apply and_normal|]. intros x X. apply (and_pts c k _ x Nc Nk) in X; [exact (DJ x X)|now apply g_and_ok].
Qed.
Print Assumptions chosen_disjoint_from_opposite_ok.

(** ** C50: n_choices counts the choose_interside calls on the joint *)
Theorem chosen_within_ok_slack : forall A fsqrt sp rad sb0 ops sb, plex_made sp ->
  create_sheetbuild A fsqrt sp rad = Ok sb0 -> Forall sop_ok ops -> sruns A ops sb0 = Ok sb ->
  forall s o, joint sp s o -> exists c k c' d m e m',
    dget id2_eqb (is_id s) (sb_ichosen sb) = Some c /\ dget id2_eqb (is_id s) (sb_iok sb) = Some k /\ dget id2_eqb (is_id o) (sb_ichosen sb) = Some c' /\
    g_sub c k = Ok d /\ measure1d d = Some (Fin m) /\ m <= zq (Z.of_nat (n_choices (is_inter s) ops)) * e6 /\
    g_and c c' = Ok e /\ measure1d e = Some (Fin m') /\ m' <= zq (Z.of_nat (n_choices (is_inter s) ops)) * e6.
Proof.
  intros A fsqrt sp rad sb0 ops sb M C F R s o (Hs & Ho). destruct (create_inv1 _ _ _ _ _ M C) as (I0 & C0).
  pose proof (inv1_steps A _ sp sb0 sb M I0 (sruns_steps _ _ _ _ F R)) as I. pose proof I as [P Hh N D].
  destruct (made_opp _ _ M Hs) as (o' & O1 & O2 & Hso & _). rewrite Ho in O1. apply Ok_inv in O1 as <-.
  destruct (Hh s Hs) as (K1 & K2). destruct (Hh o Hso) as (K3 & _). apply (dget_some _ id2_eqb_ok) in K1 as (c & K1), K2 as (k & K2), K3 as (c' & K3).
  assert (E1 : chosen_of sb (is_id s) = c) by now apply opt_get. assert (E2 : ok_of sb (is_id s) = k) by now apply opt_get. assert (E3 : chosen_of sb (is_id o) = c') by now apply opt_get.
  destruct (N (is_id s)) as (Nc & Nk). destruct (N (is_id o)) as (Nc' & _). apply is_geom1d_normal in Nc, Nk, Nc'.
  assert (Z0 : mes (exc sb0 (is_id s)) = Fin 0).
  { apply mes_zero; [now apply (exc_normal sp)|]. apply normal_nil_pts; [now apply (exc_normal sp)|]. intros x X. apply (exc_pts sp) in X as (X & _); auto. rewrite C0 in X. destruct X as (? & [] & _). }
  destruct (exc_runs A sp s ops sb0 sb 0 M I0 F R Hs Z0) as (m & Em & Lm).
  assert (Nd : normal (exc sb (is_id s))) by now apply (exc_normal sp).
  pose proof (mes_mono (and_pure (chosen_of sb (is_id s)) (chosen_of sb (is_id o))) (exc sb (is_id s)) (and_normal _ _ Nc Nc') Nd) as ML.
  assert (SUB : forall x, pts (and_pure (chosen_of sb (is_id s)) (chosen_of sb (is_id o))) x -> pts (exc sb (is_id s)) x).
  { intros x X. apply (and_pts _ _ _ x Nc Nc' (g_and_ok _ _ Nc Nc')) in X as (X & Y). apply (exc_pts sp); auto. split; auto. exact (D o s x Hso O2 Y). }
  specialize (ML SUB). rewrite Em in ML. pose proof (mes_nneg (and_pure (chosen_of sb (is_id s)) (chosen_of sb (is_id o)))) as NN. unfold nneg in NN.
  destruct (mes (and_pure _ _)) as [|m'|] eqn:Em' in ML, NN; unfold ele in ML, NN; try tauto.
  exists c, k, c', (exc sb (is_id s)), m, (and_pure (chosen_of sb (is_id s)) (chosen_of sb (is_id o))), m'.
  split; auto. split; auto. split; auto. split; [rewrite <- E1, <- E2; now apply g_sub_ok|]. split; [rewrite measure_mes by auto; now rewrite Em|]. split; [qlra|].
  split; [rewrite <- E1, <- E3; now apply g_and_ok|]. split; [rewrite measure_mes by (now apply and_normal); now rewrite Em'|]. qlra.
Qed.
Print Assumptions chosen_within_ok_slack.

(** ** C51 *)
Definition legal1 (sb : sbuild) : Prop := forall id, is_geom1d (chosen_of sb id) /\ is_geom1d (ok_of sb id).
(** [m'] differs from [m] at most at the key [k] *)
Definition only_at {K V} (eqb : K -> K -> bool) (k : K) (m m' : dict K V) : Prop := forall j, j <> k -> dget eqb j m' = dget eqb j m.
Lemma only_dset_id k v (m : dict id2 geom1d) : only_at id2_eqb k m (dset id2_eqb k v m).
Proof. intros j NJ. apply (dget_other _ id2_eqb_ok). auto. Qed.
Lemma only_dset_st {V} k v (m : dict string V) : only_at String.eqb k m (dset String.eqb k v m).
Proof. intros j NJ. apply (dget_other _ string_eqb_ok). auto. Qed.
Theorem choose_local : forall A sb id v t sb', plex_made (sb_plex sb) -> legal1 sb -> is_geom1d v ->
  choose_interside A sb id v t = Ok sb' -> exists s o, joint (sb_plex sb) s o /\ is_id s = id /\
    sb_plex sb' = sb_plex sb /\
    only_at id2_eqb id (sb_ichosen sb) (sb_ichosen sb') /\
    (forall x, pts (chosen_of sb' id) x <-> pts (chosen_of sb id) x \/ pts v x) /\
    only_at id2_eqb (is_id o) (sb_iok sb) (sb_iok sb') /\
    (forall x, pts (ok_of sb' (is_id o)) x <-> pts (ok_of sb (is_id o)) x /\ ~ pts v x) /\
    only_at String.eqb (is_sheet s) (sb_schosen sb) (sb_schosen sb') /\ (t = true -> sb_schosen sb' = sb_schosen sb) /\
    only_at String.eqb (is_sheet o) (sb_sok sb) (sb_sok sb').
Proof.
  intros A sb id v t sb' M L V H. apply choose_inv in H as (s & o & [C1 C2 C3 _ _ (T1 & T2) (f & k2 & r2 & _ & _ & _ & E2) (r & R & RE) (k' & r' & K' & R' & RE')]).
  destruct (made_interside _ _ _ M C1) as (Hs & <-). exists s, o. split; [split; auto|]. split; auto. split; auto.
  destruct (L (is_id s)) as (Nc & _). destruct (L (is_id o)) as (_ & Nk). apply is_geom1d_normal in Nc, Nk, V.
  assert (Kk' : ok_of sb (is_id o) = k') by now apply opt_get. rewrite <- Kk' in R'.
  split; [rewrite RE; apply only_dset_id|]. split; [intros x; rewrite (chosen_dset _ _ _ _ (is_id s) RE), (DictP.eqb_refl _ id2_eqb_ok); now apply or_pts|].
  split; [rewrite RE'; apply only_dset_id|]. split; [intros x; rewrite (ok_dset _ _ _ _ (is_id o) RE'), (DictP.eqb_refl _ id2_eqb_ok); now apply sub_pts|].
  split; [|split; [exact T1|rewrite E2; apply only_dset_st]].
  destruct t; [rewrite (T1 eq_refl); intros j _; reflexivity|]. destruct (T2 eq_refl) as (? & ? & ? & ? & _ & _ & _ & _ & ->). apply only_dset_st.
Qed.
Print Assumptions choose_local.
Theorem unchoose_local : forall sb id v sb', plex_made (sb_plex sb) -> legal1 sb -> is_geom1d v ->
  unchoose_interside sb id v = Ok sb' ->
    sb_plex sb' = sb_plex sb /\ sb_ichosen sb' = sb_ichosen sb /\ sb_schosen sb' = sb_schosen sb /\ sb_sok sb' = sb_sok sb /\
    (forall x, ~ (pts (chosen_of sb id) x /\ pts v x)) /\
    only_at id2_eqb id (sb_iok sb) (sb_iok sb') /\
    (forall x, pts (ok_of sb' id) x <-> pts (ok_of sb id) x /\ ~ pts v x).
Proof.
  intros sb id v sb' M L V H. apply unchoose_inv in H as (s & [C1 C2 (c & Dc & F) C4 C5 C6 (k & r & K & R & RE)]).
  destruct (made_interside _ _ _ M C1) as (Hs & <-). destruct (L (is_id s)) as (Nc & Nk). apply is_geom1d_normal in Nc, Nk, V.
  assert (Kk : ok_of sb (is_id s) = k) by now apply opt_get. rewrite <- Kk in R. assert (Kc : chosen_of sb (is_id s) = c) by now apply opt_get. rewrite <- Kc in F.
  repeat (split; [assumption|]). split; [intros x (X & Y); assert (B : pts [] x) by (apply (and_pts _ _ _ x Nc V F); auto); destruct B as (? & [] & _)|].
  split; [rewrite RE; apply only_dset_id|]. intros x. rewrite (ok_dset _ _ _ _ (is_id s) RE), (DictP.eqb_refl _ id2_eqb_ok). now apply sub_pts.
Qed.
Print Assumptions unchoose_local.
(** on the sheets, up to finitely many segments (their edges): nothing chosen is lost, nothing not
    ok is added, nothing becomes ok.  Missing: that the arrangement code of the project is sound. *)
Theorem sheets_monotone_rel : forall A sb ops sb', arr_sound A -> plex_made (sb_plex sb) -> inv2 sb -> Forall sop_ok ops ->
  sruns A ops sb = Ok sb' -> exists S, forall p, off_segs S p -> forall k,
    (in_geom (geom_at (sb_schosen sb) k) p -> in_geom (geom_at (sb_schosen sb') k) p) /\
    (in_geom (geom_at (sb_schosen sb') k) p -> in_geom (geom_at (sb_schosen sb) k) p \/ in_geom (geom_at (sb_sok sb) k) p) /\
    (in_geom (geom_at (sb_sok sb') k) p -> in_geom (geom_at (sb_sok sb) k) p).
Proof.
  intros A sb ops sb' SA M G F R. destruct (sruns_2d A _ ops sb sb' SA M eq_refl G F R) as (_ & (S & H) & _). exists S. intros p Hp k. destruct (H p Hp k) as (? & ? & ?). auto.
Qed.
Print Assumptions sheets_monotone_rel.

(** ** C52 *)
Fixpoint check_runs (forces : list bool) (ci : Z) : list bool :=
  match forces with [] => [] | f :: r => let '(b, ci) := check_step f ci in b :: check_runs r ci end.
Lemma check_runs_length fs : forall ci, List.length (check_runs fs ci) = List.length fs.
Proof. induction fs as [|f fs IH]; intros ci; cbn [check_runs]; auto. destruct (check_step f ci) as [b c]. cbn. now rewrite IH. Qed.
Theorem check_forced : forall fs i, nth_error fs i = Some true -> nth_error (check_runs fs 0) i = Some true.
Proof.
  intros fs. generalize 0%Z. induction fs as [|f fs IH]; intros ci [|i] H; cbn [check_runs]; try discriminate.
  - cbn in H. injection H as ->. reflexivity.
  - destruct (check_step f ci) as [b c]. cbn [nth_error] in *. now apply IH.
Qed.
Print Assumptions check_forced.
(** among any check_interval + 1 consecutive calls one really checks *)
Lemma check_window fs : forall ci, (0 <= ci <= check_interval)%Z -> (check_interval - ci < Z.of_nat (List.length fs))%Z -> In true (check_runs fs ci).
Proof.
  induction fs as [|f fs IH]; intros ci B L; cbn [List.length] in L; [lia|]. cbn [check_runs]. unfold check_step.
  destruct f; cbn [orb]; [left; auto|]. destruct (Z.ltb_spec check_interval (ci + 1)) as [E|E]; [left; auto|]. right. apply IH; [|]; unfold check_interval in *; lia.
Qed.
Lemma check_counter fs : forall ci, (0 <= ci <= check_interval)%Z -> forall l1 l2, fs = l1 ++ l2 -> exists c, (0 <= c <= check_interval)%Z /\ check_runs fs ci = check_runs l1 ci ++ check_runs l2 c.
Proof.
  induction fs as [|f fs IH]; intros ci B [|g l1] l2 E; try discriminate; cbn in E.
  - subst. exists ci. auto.
  - subst. exists ci. auto.
  - injection E as <- E. cbn [check_runs]. unfold check_step. destruct (f || _) eqn:Q.
    + destruct (IH 0%Z ltac:(unfold check_interval; lia) l1 l2 E) as (c & H & ->). exists c. auto.
    + apply Bool.orb_false_iff in Q as (_ & Q). apply Z.ltb_ge in Q. destruct (IH (ci + 1)%Z ltac:(lia) l1 l2 E) as (c & H & ->). exists c. auto.
Qed.
Theorem check_not_elided : forall before window after, Z.of_nat (List.length window) = (check_interval + 1)%Z ->
  exists r1 r2 r3, check_runs (before ++ window ++ after) 0 = r1 ++ r2 ++ r3 /\
    List.length r1 = List.length before /\ List.length r2 = List.length window /\ In true r2.
Proof.
  intros b w a L. assert (B : (0 <= 0 <= check_interval)%Z) by (unfold check_interval; lia).
  destruct (check_counter _ 0%Z B b (w ++ a) eq_refl) as (c1 & H1 & ->). destruct (check_counter _ c1 H1 w a eq_refl) as (c2 & H2 & ->).
  exists (check_runs b 0), (check_runs w c1), (check_runs a c2). rewrite !check_runs_length. repeat split; auto. apply check_window; auto. lia.
Qed.
Print Assumptions check_not_elided.
(** the bound is sharp, and a check that really runs accepts only states that satisfy the invariants *)
Example check_sharp : check_runs (repeat false 302) 0 = repeat false 150 ++ [true] ++ repeat false 150 ++ [true] /\ nth_error (check_runs [false; true; false] 7) 1 = Some true.
Proof. vm_compute. auto. Qed.
Theorem check_now_sound : forall A sb, plex_made (sb_plex sb) -> check_now A sb = Ok tt ->
  forall s o, joint (sb_plex sb) s o -> exists c k ko d x,
    dget id2_eqb (is_id s) (sb_ichosen sb) = Some c /\ dget id2_eqb (is_id s) (sb_iok sb) = Some k /\ dget id2_eqb (is_id o) (sb_iok sb) = Some ko /\
    g_sub c k = Ok d /\ measure_lt d e7 = true /\ g_and c ko = Ok [] /\
    (f <- make_fingers01 A s ko ;; g2_and A (geom_at (sb_schosen sb) (is_sheet s)) f) = Ok x /\ area_lt x e3 = Ok true.
Proof.
  intros A sb M H s o (Hs & Ho). unfold check_now in H. apply bind_ok in H as (u1 & _ & H). apply bind_ok in H as (u2 & H & _).
  apply mapM_unit in H as (H & _). rewrite Forall_forall in H. specialize (H s (proj2 (made_list _ _ M) Hs)). unfold check_side in H.
  rewrite Ho in H. cbn [bind] in H. apply bind_ok in H as (c & H1 & H). apply bind_ok in H as (k & H2 & H). apply bind_ok in H as (d & H3 & H). apply bind_ok in H as (u & H4 & H).
  apply bind_ok in H as (ko & H5 & H). apply bind_ok in H as (ck & H6 & H). apply bind_ok in H as (u' & H7 & H). apply bind_ok in H as (sc & H8 & H). apply bind_ok in H as (f & H9 & H).
  apply bind_ok in H as (x & H10 & H). apply passert_ok in H4, H7. unfold iget, sget in *. apply dgetr_ok in H1, H2, H5, H8. apply bind_ok in H as (bb & H11 & H12). destruct bb; [clear H12|apply bind_ok in H12 as (co & _ & H12); discriminate H12].
  exists c, k, ko, d, x. destruct ck; [|discriminate]. rewrite H9. cbn [bind]. rewrite (geom_at_get _ _ _ H8). repeat (split; [assumption|]). assumption.
Qed.
Print Assumptions check_now_sound.

(** ** C53.  Missing: that the arrangement code of the project is sound. *)
(** what one choice does to the sheets, at every point not on an edge involved *)
Theorem choose_adds_only_ok_rel : forall A sb id v t sb', arr_sound A -> plex_made (sb_plex sb) -> inv2 sb -> is_geom1d v ->
  choose_interside A sb id v t = Ok sb' -> exists s o, joint (sb_plex sb) s o /\ is_id s = id /\ inv2 sb' /\ exists S, forall p, off_segs S p -> forall k,
    (in_geom (geom_at (sb_schosen sb') k) p <->
       in_geom (geom_at (sb_schosen sb) k) p \/ (t = false /\ k = is_sheet s /\ in_geom (geom_at (sb_sok sb) k) p /\ in_band s v 0 1 p)) /\
    (in_geom (geom_at (sb_sok sb') k) p <-> in_geom (geom_at (sb_sok sb) k) p /\ ~ (k = is_sheet o /\ in_band o v 0 1 p)).
Proof.
  intros A sb id v t sb' SA M G V H. apply choose_inv in H as (s & o & CD). pose proof CD as [C1 C2 _ _ _ _ _ _ _]. destruct (made_interside _ _ _ M C1) as (Hs & Ei).
  exists s, o. split; [split; auto|]. split; auto. destruct (choose_2d A _ _ _ _ _ _ _ _ SA M eq_refl G V CD) as (G' & S & fs & fo & Gs & Go & Ef & Es & H).
  split; auto. exists (S ++ all_segments fs ++ all_segments fo). intros p Hp k. apply off_segs_app in Hp as (P1 & Hp). apply off_segs_app in Hp as (P2 & P3).
  destruct (made_opp _ _ M Hs) as (o' & O1 & O2 & Ho & _). rewrite C2 in O1. apply Ok_inv in O1 as <-. apply is_geom1d_normal in V.
  assert (B : forall g, off_segs (all_segments g) p -> ~ on_bd g p). { intros g Hg B. apply on_bd_segments in B as (e & He & B). exact (Hg e He B). }
  destruct (fingers_any A o v 0 1 fo SA (made_rot _ _ M Ho) V Ef) as (_ & _ & Q). rewrite <- (Q p (B _ P3)).
  destruct (H p P1) as (H1 & H2). split; [|apply H2]. rewrite H1. destruct t; [split; intros [X|X]; auto; destruct X as (X & _); discriminate|].
  destruct (fingers_any A s v 0 1 fs SA (made_rot _ _ M Hs) V (Es eq_refl)) as (_ & _ & Qs). rewrite <- (Qs p (B _ P2)). tauto.
Qed.
Print Assumptions choose_adds_only_ok_rel.
(** after a choice, no sequence of operations puts material where the opposite side's fingers were
    removed *)
Theorem removed_stays_removed_rel : forall A sb id v t sb1 ops sb2, arr_sound A -> plex_made (sb_plex sb) -> inv2 sb -> is_geom1d v -> Forall sop_ok ops ->
  choose_interside A sb id v t = Ok sb1 -> sruns A ops sb1 = Ok sb2 -> exists s o, joint (sb_plex sb) s o /\ is_id s = id /\
    forall p, in_band o v 0 1 p -> ~ on_bd (geom_at (sb_schosen sb1) (is_sheet o)) p -> ~ on_bd (geom_at (sb_schosen sb2) (is_sheet o)) p ->
      in_geom (geom_at (sb_schosen sb2) (is_sheet o)) p -> in_geom (geom_at (sb_schosen sb1) (is_sheet o)) p.
Proof.
  intros A sb id v t sb1 ops sb2 SA M G V F H R. pose proof H as H'. apply choose_inv in H' as (s & o & CD). pose proof CD as [C1 C2 C3 _ _ _ _ _ _]. destruct (made_interside _ _ _ M C1) as (Hs & Ei).
  exists s, o. split; [split; auto|]. split; auto. destruct (choose_2d A _ _ _ _ _ _ _ _ SA M eq_refl G V CD) as (G1 & S & fs & fo & Gs & Go & Ef & _ & Q).
  destruct (sruns_2d A _ ops sb1 sb2 SA M C3 G1 F R) as (G2 & (S' & Q') & _).
  intros p Bp N1 N2 I2. destruct (made_opp _ _ M Hs) as (o' & O1 & O2 & Ho & _). rewrite C2 in O1. apply Ok_inv in O1 as <-. apply is_geom1d_normal in V.
  destruct (fingers_any A o v 0 1 fo SA (made_rot _ _ M Ho) V Ef) as (_ & P1 & _). destruct (P1 p Bp) as (N3 & I3).
  destruct (near_point p [geom_at (sb_schosen sb1) (is_sheet o); geom_at (sb_schosen sb2) (is_sheet o); fo] (S ++ S')) as (q & Qs & Qg).
  - repeat constructor; auto; [apply G1|apply G2].
  - intros g [<-|[<-|[<-|[]]]]; auto.
  - apply off_segs_app in Qs as (Q1 & Q2). destruct (Qg (geom_at (sb_schosen sb1) (is_sheet o))) as (_ & E1); [cbn; auto|]. destruct (Qg (geom_at (sb_schosen sb2) (is_sheet o))) as (_ & E2); [cbn; auto|].
    destruct (Qg fo) as (_ & E3); [cbn; auto|]. rewrite E1. rewrite E2 in I2. rewrite E3 in I3. destruct (Q' q Q2 (is_sheet o)) as (_ & _ & A3). destruct (A3 I2) as [X|X]; auto.
    apply (proj2 (Q q Q1)) in X as (_ & X). exfalso. apply X. auto.
Qed.
Print Assumptions removed_stays_removed_rel.

(** ** Non-vacuity: two sheets joined at a right angle, on a trivial arrangement code *)
Section Ex.
Let A0 : arr_impl := mkArr unit unit (fun _ => Ok tt) (fun _ => Ok []) (fun _ _ => Ok []).
Let sq : geom2d := [mkSpwh [(0, 0); (0, zq 9); (zq 9, zq 9); (zq 9, 0)] []].
Let sh n := mkSheet n sq sq sq.
Let sp0 := mkPlex [("s0", sh "s0"); ("s1", sh "s1")]%string [].
Let fr : frames := fun _ _ => Ok (Some (((1, 0), ((0, 0), [(0, zq 6)])), ((1, 0), ((0, 0), [(0, zq 6)])))).
Let id0 : id2 := ("s0,s1", "s0")%string.
Let id1 : id2 := ("s0,s1", "s1")%string.
Let iv (a b : Z) : geom1d := [(Fin (zq a), Fin (zq b))].
Let start (sp : sheetplex) : sbuild := mkSB sp [("s0", sq); ("s1", sq)]%string [("s0", sq); ("s1", sq)]%string [(id0, []); (id1, [])] [(id0, iv 0 9); (id1, iv 0 9)].
Example sheetbuild_ex : fresh_plex sp0 /\
  match create_intersections fr sp0 with
  | Ok sp =>
      match create_sheetbuild A0 (fun q => q) sp (NInt 12) with Ok sb => List.length (sb_iok sb) = 2%nat | Err _ => False end /\
      match sruns A0 [Choose id0 (iv 1 2) false; Unchoose id0 (iv 4 5); Choose id1 (iv 4 6) true; UnchooseArea "s0"%string sq] (start sp) with
      | Ok sb => map snd (sb_iok sb) = [[(Fin (zq 0), Fin (zq 4)); (Fin (zq 6), Fin (zq 9))]; [(Fin (zq 0), Fin (zq 1)); (Fin (zq 2), Fin (zq 9))]]
      | Err _ => False end /\
      sruns A0 [Choose id0 (iv 1 2) false; Choose id1 (iv 1 2) false] (start sp) = Err AssertionError /\
      sruns A0 [Choose id0 (iv 1 2) false; Unchoose id0 (iv 1 2)] (start sp) = Err AttributeError /\
      check A0 (start sp) true 3 = Ok 0%Z
  | Err _ => False
  end.
Proof.
  split; [|vm_compute; auto 8]. split; [reflexivity|]. split.
  - repeat constructor; cbn; intuition discriminate.
  - intros k s [E|[E|[]]]; apply pair_inv in E as (<- & <-); (split; [reflexivity|]); intros K; vm_compute in K; intuition discriminate.
Qed.
End Ex.
