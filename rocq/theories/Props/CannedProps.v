(** * Properties of canned_1 and of the command line: C59, C60, C67. *)
From Verif.Spec Require Import PointSet1.
From Verif.Model Require Import Canned.
From Verif.Proofs Require Import PyP ExtOrd DictP Geom1dP Geom1dM SheetplexP FingerP SheetbuildP HeuristicsP ClusterP HeuStepsP.
From Verif.Props Require Import Geom1dProps SheetplexProps SheetbuildProps.
From Coq Require Import String Permutation.
Open Scope Qc_scope.

Section P.
Variable A : arr_impl.
Variable fsqrt fl : Qc -> Qc.
Variable R : rng.
Variable mn mx : Qc.
Variable ord : dict string geom1d -> dict string geom1d.
Variable sord : list string -> list string.
Variable pord : dict string geom2d -> dict string geom2d.
Local Notation steps := (canned_steps A fsqrt fl R mn mx ord sord).
Local Notation canned1 := (canned_1 A fsqrt fl R mn mx ord sord).
Local Notation main' := (main A fsqrt fl R mn mx ord sord pord).

(** running operations one after the other without exception *)
Fixpoint runs_to (ops : list (hstate -> result hstate)) (st st' : hstate) : Prop :=
  match ops with [] => st = st' | op :: r => exists st1, op st = Ok st1 /\ runs_to r st1 st' end.
Lemma run_ok ops : forall st log st' log', run_steps A false ops st log = (st', log', None) ->
  exists st1 ci, runs_to ops st st1 /\ check A (fst st1) true (snd st1) = Ok ci /\ st' = (fst st1, ci).
Proof.
  induction ops as [|op ops IH]; intros st log st' log' H; cbn [run_steps] in H.
  - destruct (check A (fst st) true (snd st)) as [ci|e] eqn:E; [|discriminate]. injection H as <- _. exists st, ci. cbn. auto.
  - destruct (op st) as [st1|e] eqn:E; [|discriminate]. destruct (IH _ _ _ _ H) as (st2 & ci & H1 & H2 & H3). exists st2, ci. split; auto. exists st1. auto.
Qed.
Lemma run_ok_back ops : forall st log st1 ci, runs_to ops st st1 -> check A (fst st1) true (snd st1) = Ok ci -> exists log', run_steps A false ops st log = ((fst st1, ci), log', None).
Proof.
  induction ops as [|op ops IH]; intros st log st1 ci H C; cbn [run_steps runs_to] in *; [subst; rewrite C; eauto|]. destruct H as (st2 & E & H). rewrite E. exact (IH _ _ _ _ H C).
Qed.
Lemma run_err show ops : forall st log st' log' e, run_steps A show ops st log = (st', log', Some e) ->
  exists n, (n <= List.length ops)%nat /\ runs_to (firstn n ops) st st' /\
    ((exists op, nth_error ops n = Some op /\ op st' = Err e) \/ (n = List.length ops /\ check A (fst st') true (snd st') = Err e) \/ (show = true /\ e = TypeError)).
Proof.
  induction ops as [|op ops IH]; intros st log st' log' e H; cbn [run_steps] in H.
  - destruct (check A (fst st) true (snd st)) as [ci|e'] eqn:E; [discriminate|]. injection H as <- _ <-. exists O. split; [auto|]. split; [reflexivity|]. right; left. auto.
  - destruct (op st) as [st1|e'] eqn:E.
    + destruct show; [injection H as <- _ <-; exists 1%nat; split; [cbn; lia|]; split; [exists st1; split; auto; reflexivity|auto]|].
      destruct (IH _ _ _ _ _ H) as (n & L & H1 & H2). exists (S n). split; [cbn; lia|]. split; [exists st1; auto|]. cbn [nth_error List.length]. destruct H2 as [H2|[(-> & H2)|H2]]; auto.
    + injection H as <- _ <-. exists O. split; [lia|]. split; [reflexivity|]. left. exists op. auto.
Qed.

(** ** C59 *)
Theorem canned_ok_iff : forall rof sp rad ci sb,
  (exists h, canned1 None rof sp rad ci = Ok (mkCanned true sb h)) <->
  exists sb0 ci0 s1 s2 s3 s4 s5 s6 s7 s8 s9 s10 s11 s12 ci',
    create_sheetbuild A fsqrt sp rad = Ok sb0 /\ check A sb0 false ci = Ok ci0 /\
    choose_obviously_irrelevant A fsqrt (sb0, ci0) = Ok s1 /\
    remove_loose A s1 = Ok s2 /\
    update_intersection_ok A s2 = Ok s3 /\
    update_sheet_ok A fsqrt s3 = Ok s4 /\
    update_intersection_ok A s4 = Ok s5 /\
    remove_loose A s5 = Ok s6 /\
    update_intersection_ok A s6 = Ok s7 /\
    heuristic_multi_inter_single_decisions A fsqrt ord sord s7 = Ok s8 /\
    update_intersection_ok A s8 = Ok s9 /\
    choose_the_ok_side A s9 = Ok s10 /\
    single_fingers_random A fl R mn mx s10 = Ok s11 /\
    clean_up_thin_ok_parts A fsqrt s11 = Ok s12 /\
    check A (fst s12) true (snd s12) = Ok ci' /\ sb = fst s12.
Proof.
  intros rof sp rad ci sb. unfold canned_1. split.
  - intros (h & H). destruct (create_sheetbuild A fsqrt sp rad) as [sb0|e]; [|destruct rof as [[|]|]; discriminate]. destruct (check A sb0 false ci) as [ci0|e] eqn:EC; [|destruct rof as [[|]|]; discriminate].
    destruct (run_steps A false steps (sb0, ci0) [sb0]) as [[st log] [e|]] eqn:ER; [destruct rof as [[|]|]; discriminate|]. apply Ok_inv in H. injection H as H _. subst sb.
    destruct (run_ok _ _ _ _ _ ER) as (st1 & ci' & RT & CK & ->). cbn [canned_steps runs_to] in RT.
    destruct RT as (s1 & H1 & s2 & H2 & s3 & H3 & s4 & H4 & s5 & H5 & s6 & H6 & s7 & H7 & s8 & H8 & s9 & H9 & s10 & H10 & s11 & H11 & s12 & H12 & <-).
    exists sb0, ci0, s1, s2, s3, s4, s5, s6, s7, s8, s9, s10, s11, s12, ci'. split; [reflexivity|]. split; [exact EC|]. do 12 (split; [assumption|]). split; [exact CK|reflexivity].
  - intros (sb0 & ci0 & s1 & s2 & s3 & s4 & s5 & s6 & s7 & s8 & s9 & s10 & s11 & s12 & ci' & HC & CK0 & H1 & H2 & H3 & H4 & H5 & H6 & H7 & H8 & H9 & H10 & H11 & H12 & CK & ->).
    rewrite HC, CK0. assert (RT : runs_to steps (sb0, ci0) s12).
    { cbn [canned_steps runs_to]. exists s1. split; auto. exists s2. split; auto. exists s3. split; auto. exists s4. split; auto. exists s5. split; auto. exists s6. split; auto. exists s7. split; auto.
      exists s8. split; auto. exists s9. split; auto. exists s10. split; auto. exists s11. split; auto. exists s12. split; auto. }
    destruct (run_ok_back _ _ [sb0] _ _ RT CK) as (log & E). rewrite E. eauto.
Qed.
(** a result with ok=False: the state after the last step that succeeded *)
Theorem canned_failed_state : forall show rof sp rad ci sb h, canned1 show rof sp rad ci = Ok (mkCanned false sb h) ->
  rof = Some true /\ exists sb0, create_sheetbuild A fsqrt sp rad = Ok sb0 /\
    (sb = sb0 \/ exists ci0 n ci', (n <= 12)%nat /\ check A sb0 false ci = Ok ci0 /\ runs_to (firstn n steps) (sb0, ci0) (sb, ci') /\
       (show = None -> (exists op e, nth_error steps n = Some op /\ op (sb, ci') = Err e) \/ (n = 12%nat /\ exists e, check A sb true ci' = Err e))).
Proof.
  intros show rof sp rad ci sb h H. unfold canned_1 in H. destruct (create_sheetbuild A fsqrt sp rad) as [sb0|e]; [|destruct rof as [[|]|]; discriminate].
  destruct (check A sb0 false ci) as [ci0|e] eqn:EC; [|destruct rof as [[|]|]; try discriminate; apply Ok_inv in H; injection H as <- _; split; auto; exists sb0; auto].
  destruct (match show with None => Ok tt | Some d => d sb0 end) as [u|e]; [|destruct rof as [[|]|]; try discriminate; apply Ok_inv in H; injection H as <- _; split; auto; exists sb0; auto].
  destruct (run_steps A _ steps (sb0, ci0) [sb0]) as [[st log] [e|]] eqn:ER; [|discriminate]. destruct rof as [[|]|]; try discriminate. apply Ok_inv in H. injection H as <- _. split; auto. exists sb0. split; auto. right.
  destruct (run_err _ _ _ _ _ _ _ ER) as (n & L & H1 & H2). exists ci0, n, (snd st). split; [exact L|]. split; [exact EC|]. destruct st as [sb ci']. cbn [fst snd] in *. split; [exact H1|].
  intros ->. destruct H2 as [(op & I & E)|[(-> & E)|(K & _)]]; [left; eauto|right; split; [reflexivity|eauto]|discriminate].
Qed.
(** otherwise it raises *)
Theorem canned_raises : forall sp rad ci e, canned1 None (Some false) sp rad ci = Err e ->
  create_sheetbuild A fsqrt sp rad = Err e \/
  exists sb0, create_sheetbuild A fsqrt sp rad = Ok sb0 /\ (check A sb0 false ci = Err e \/
    exists ci0 n st, check A sb0 false ci = Ok ci0 /\ runs_to (firstn n steps) (sb0, ci0) st /\
      ((exists op, nth_error steps n = Some op /\ op st = Err e) \/ (n = 12%nat /\ check A (fst st) true (snd st) = Err e))).
Proof.
  intros sp rad ci e H. unfold canned_1 in H. destruct (create_sheetbuild A fsqrt sp rad) as [sb0|e0]; [|left; cbn in H; congruence]. right. exists sb0. split; auto.
  destruct (check A sb0 false ci) as [ci0|e0] eqn:EC; [|left; cbn in H; congruence]. right.
  destruct (run_steps A false steps (sb0, ci0) [sb0]) as [[st log] [e1|]] eqn:ER; [|discriminate]. cbn in H. injection H as ->. destruct (run_err _ _ _ _ _ _ _ ER) as (n & L & H1 & H2).
  exists ci0, n, st. split; auto. split; auto. destruct H2 as [H2|[H2|(K & _)]]; auto. discriminate.
Qed.
(** two departures from the property: with return_on_failure a failing creation raises
    UnboundLocalError; with show=True the first step is followed by TypeError *)
Theorem canned_creation_failure_refuted : forall show sp rad ci e, create_sheetbuild A fsqrt sp rad = Err e ->
  canned1 show (Some true) sp rad ci = Err UnboundLocalError.
Proof. intros show sp rad ci e H. unfold canned_1. now rewrite H. Qed.
Theorem canned_show_refuted : forall d rof sp rad ci sb h, canned1 (Some d) rof sp rad ci <> Ok (mkCanned true sb h).
Proof.
  intros d rof sp rad ci sb h H. unfold canned_1 in H. destruct (create_sheetbuild A fsqrt sp rad) as [sb0|e]; [|destruct rof as [[|]|]; discriminate].
  destruct (check A sb0 false ci) as [ci0|e] eqn:EC; [|destruct rof as [[|]|]; discriminate]. destruct (d sb0) as [u|e]; [|destruct rof as [[|]|]; discriminate].
  change steps with (choose_obviously_irrelevant A fsqrt :: tl steps) in H. cbn [run_steps] in H. destruct (choose_obviously_irrelevant A fsqrt (sb0, ci0)); destruct rof as [[|]|]; discriminate.
Qed.

(** ** C60 *)
Theorem cli_writes_only_checked : forall load rad dil out, main' load rad dil = Ok out ->
  exists sp sb h dilated, load = Ok sp /\ sp_sheets sp <> [] /\ canned1 None None sp rad 0 = Ok (mkCanned true sb h) /\
    mapM (dilate A fsqrt dil) (pord (sb_schosen sb)) = Ok dilated /\ out = write_dxf dilated.
Proof.
  intros load rad dil out H. unfold main in H. apply bind_ok in H as (sp & HL & H). apply bind_ok in H as (u & HS & H). apply bind_ok in H as (r & HC & H). apply bind_ok in H as (d & HD & H). apply Ok_inv in H as <-.
  destruct r as [ok sb h]. destruct ok; [|destruct (canned_failed_state _ _ _ _ _ _ _ HC) as (K & _); discriminate]. exists sp, sb, h, d. split; auto. split; [intros E; rewrite E in HS; discriminate|]. auto.
Qed.
(** every failure inside canned_1 surfaces as KeyError: the failing step's exception is masked *)
Theorem cli_failure_is_key_error : forall sp rad ci e, canned1 None None sp rad ci = Err e -> e = KeyError.
Proof.
  intros sp rad ci e H. unfold canned_1 in H. destruct (create_sheetbuild A fsqrt sp rad) as [sb0|e0]; [|cbn in H; congruence]. destruct (check A sb0 false ci) as [ci0|e0] eqn:EC; [|cbn in H; congruence].
  destruct (run_steps A false steps (sb0, ci0) [sb0]) as [[st log] [e1|]] eqn:ER; cbn in H; congruence.
Qed.

(** ** C67: the final state *)
(** the steps before the last one are sequences of elementary steps *)
Lemma steps_ssteps Kc sp st op st' : op_closed A fsqrt Kc -> plex_made sp -> (forall c, Permutation c (ord c)) -> legal sp (fst st) -> In op (firstn 11 steps) -> op st = Ok st' -> ssteps A Kc (fst st) (fst st').
Proof.
  intros OC M O L I H. cbn [canned_steps firstn In] in I. decompose [or] I; subst; try tauto.
  - eapply irrelevant_steps; eauto.
  - eapply loose_steps; eauto.
  - eapply update_iok_steps; eauto.
  - eapply update_sok_steps; eauto.
  - eapply update_iok_steps; eauto.
  - eapply loose_steps; eauto.
  - eapply update_iok_steps; eauto.
  - eapply multi_steps; eauto.
  - eapply update_iok_steps; eauto.
  - eapply only_ok_steps; eauto.
  - eapply random_steps; eauto.
Qed.
Lemma steps_legal sp st op st' : plex_made sp -> (forall c, Permutation c (ord c)) -> legal sp (fst st) -> In op steps -> op st = Ok st' -> legal sp (fst st').
Proof.
  intros M O L I H. change steps with (firstn 11 steps ++ [clean_up_thin_ok_parts A fsqrt]) in I. apply in_app_iff in I as [I|[<-|[]]].
  - exact (legal_steps A sp M _ _ L (steps_ssteps _ sp st op st' (geoms_closed A fsqrt) M O L I H)).
  - exact (clean_legal A fsqrt sp _ _ L H).
Qed.
Lemma runs_legal sp ops : plex_made sp -> (forall c, Permutation c (ord c)) -> (forall op, In op ops -> In op steps) ->
  forall st st', legal sp (fst st) -> runs_to ops st st' -> legal sp (fst st').
Proof.
  intros M O. induction ops as [|op ops IH]; intros S st st' L H; cbn [runs_to] in H; [now subst|]. destruct H as (st1 & E & H).
  apply (IH (fun o I => S o (or_intror I)) st1 st'); auto. exact (steps_legal sp st op st1 M O L (S op (or_introl eq_refl)) E).
Qed.
Lemma runs_ssteps Kc sp ops : op_closed A fsqrt Kc -> plex_made sp -> (forall c, Permutation c (ord c)) -> (forall op, In op ops -> In op (firstn 11 steps)) ->
  forall st st', legal sp (fst st) -> runs_to ops st st' -> ssteps A Kc (fst st) (fst st').
Proof.
  intros OC M O. induction ops as [|op ops IH]; intros S st st' L H; cbn [runs_to] in H; [subst; constructor|]. destruct H as (st1 & E & H).
  pose proof (steps_ssteps Kc sp st op st1 OC M O L (S op (or_introl eq_refl)) E) as S1.
  exact (ss_trans A _ _ _ _ S1 (IH (fun o I => S o (or_intror I)) st1 st' (legal_steps A sp M _ _ L S1) H)).
Qed.
Lemma runs_app l1 : forall l2 st st', runs_to (l1 ++ l2) st st' -> exists st1, runs_to l1 st st1 /\ runs_to l2 st1 st'.
Proof.
  induction l1 as [|op l1 IH]; intros l2 st st' H; cbn [app runs_to] in *; [exists st; auto|]. destruct H as (st1 & E & H). destruct (IH _ _ _ H) as (st2 & H1 & H2).
  exists st2. split; auto. exists st1. auto.
Qed.
(** every returned state: elementary steps, then possibly a replaced sheet_ok *)
Lemma canned_reaches Kc show rof sp rad ci ok sb h : op_closed A fsqrt Kc -> plex_made sp -> (forall c, Permutation c (ord c)) -> canned1 show rof sp rad ci = Ok (mkCanned ok sb h) ->
  exists sb0 sb1, create_sheetbuild A fsqrt sp rad = Ok sb0 /\ ssteps A Kc sb0 sb1 /\ exists sok, sb = with_sok sb1 sok /\
    (sok = sb_sok sb1 \/ exists ci1 ci2, clean_up_thin_ok_parts A fsqrt (sb1, ci1) = Ok (sb, ci2)).
Proof.
  intros OC M O H. assert (T : exists sb0 n st, create_sheetbuild A fsqrt sp rad = Ok sb0 /\ (exists ci0, runs_to (firstn n steps) (sb0, ci0) st) /\ sb = fst st).
  { destruct ok.
    - destruct show as [d|]; [destruct (canned_show_refuted _ _ _ _ _ _ _ H)|]. unfold canned_1 in H. destruct (create_sheetbuild A fsqrt sp rad) as [sb0|e] eqn:EB; [|destruct rof as [[|]|]; discriminate].
      destruct (check A sb0 false ci) as [ci0|e] eqn:EC; [|destruct rof as [[|]|]; discriminate]. destruct (run_steps A false steps (sb0, ci0) [sb0]) as [[st log] [e|]] eqn:ER; [destruct rof as [[|]|]; discriminate|].
      apply Ok_inv in H. injection H as H _. subst sb. destruct (run_ok _ _ _ _ _ ER) as (st1 & ci' & RT & _ & ->). exists sb0, 12%nat, st1. split; auto. split; [exists ci0; exact RT|reflexivity].
    - destruct (canned_failed_state _ _ _ _ _ _ _ H) as (_ & sb0 & EB & [->|(ci0 & n & ci' & _ & _ & RT & _)]).
      + exists sb0, 0%nat, (sb0, 0%Z). split; auto. split; [exists 0%Z; reflexivity|reflexivity].
      + exists sb0, n, (sb, ci'). split; auto. split; [exists ci0; exact RT|reflexivity]. }
  destruct T as (sb0 & n & st & EB & (ci0 & RT) & ->). pose proof (proj1 (create_inv1 _ _ _ _ _ M EB)) as L.
  destruct (Nat.le_gt_cases n 11) as [LE|GT].
  - exists sb0, (fst st). split; auto. split; [|exists (sb_sok (fst st)); split; [now destruct (fst st)|auto]].
    refine (runs_ssteps Kc sp (firstn n steps) OC M O _ (sb0, ci0) st L RT). intros op I. assert (E : firstn n steps = firstn n (firstn 11 steps)) by (rewrite firstn_firstn; f_equal; lia).
    rewrite E in I. rewrite <- (firstn_skipn n (firstn 11 steps)). apply in_app_iff. auto.
  - assert (E : firstn n steps = firstn 11 steps ++ [clean_up_thin_ok_parts A fsqrt]) by (destruct n as [|n]; [lia|]; do 11 (destruct n as [|n]; [lia|]); cbn [canned_steps firstn app]; destruct n; reflexivity).
    rewrite E in RT. apply runs_app in RT as (st1 & R1 & st2 & C & R2). cbn [runs_to] in R2. subst st2. exists sb0, (fst st1). split; auto. split; [exact (runs_ssteps Kc sp (firstn 11 steps) OC M O (fun _ I => I) (sb0, ci0) st1 L R1)|].
    destruct (clean_frame _ _ _ _ C) as (sok & E'). exists sok. split; auto. right. destruct st1 as [sb1 ci1], st as [sb2 ci2]. eauto.
Qed.
(** whatever canned_1 returns, no range of a joint is chosen by one side and still free for the other *)
Theorem canned_result_disjoint : forall show rof sp rad ci ok sb h, plex_made sp -> (forall c, Permutation c (ord c)) ->
  canned1 show rof sp rad ci = Ok (mkCanned ok sb h) -> forall s o, joint sp s o -> exists c k,
    dget id2_eqb (is_id s) (sb_ichosen sb) = Some c /\ dget id2_eqb (is_id o) (sb_iok sb) = Some k /\ forall x, ~ (pts c x /\ pts k x).
Proof.
  intros show rof sp rad ci ok sb h M O H. assert (L : legal sp sb).
  { destruct ok.
    - destruct show as [d|]; [destruct (canned_show_refuted _ _ _ _ _ _ _ H)|]. unfold canned_1 in H. destruct (create_sheetbuild A fsqrt sp rad) as [sb0|e] eqn:EB; [|destruct rof as [[|]|]; discriminate].
      destruct (check A sb0 false ci) as [ci0|e] eqn:EC; [|destruct rof as [[|]|]; discriminate]. destruct (run_steps A false steps (sb0, ci0) [sb0]) as [[st log] [e|]] eqn:ER; [destruct rof as [[|]|]; discriminate|].
      apply Ok_inv in H. injection H as H _. subst sb. destruct (run_ok _ _ _ _ _ ER) as (st1 & ci' & RT & _ & ->). cbn [fst]. apply (runs_legal sp steps M O (fun _ I => I) (sb0, ci0) st1); auto. cbn [fst]. exact (proj1 (create_inv1 _ _ _ _ _ M EB)).
    - destruct (canned_failed_state _ _ _ _ _ _ _ H) as (_ & sb0 & EB & [->|(ci0 & n & ci' & _ & _ & RT & _)]); [exact (proj1 (create_inv1 _ _ _ _ _ M EB))|].
      apply (runs_legal sp (firstn n steps) M O) with (st := (sb0, ci0)) (st' := (sb, ci')); auto; [|exact (proj1 (create_inv1 _ _ _ _ _ M EB))].
      intros op I. rewrite <- (firstn_skipn n steps). apply in_app_iff. auto. }
  intros s o (Hs & Ho). pose proof L as [P Hh N D]. destruct (made_opp _ _ M Hs) as (o' & O1 & O2 & Hso & _). rewrite Ho in O1. apply Ok_inv in O1 as <-.
  destruct (Hh s Hs) as (K1 & _). destruct (Hh o Hso) as (_ & K2). apply (dget_some _ id2_eqb_ok) in K1 as (c & K1). apply (dget_some _ id2_eqb_ok) in K2 as (k & K2).
  assert (E1 : chosen_of sb (is_id s) = c) by now apply opt_get. assert (E2 : ok_of sb (is_id o) = k) by now apply opt_get. exists c, k. split; auto. split; auto.
  intros x (X & Y). rewrite <- E1 in X. rewrite <- E2 in Y. exact (D s o x Hs Ho X Y).
Qed.
(** a result with ok=True: the choices of the two sides of a joint overlap by less than 1e-7, each is
    within what is ok for it up to 1e-7, and the forced check has accepted the state *)
Theorem canned_ok_choices : forall rof sp rad ci sb h, plex_made sp -> (forall c, Permutation c (ord c)) ->
  canned1 None rof sp rad ci = Ok (mkCanned true sb h) -> check_now A sb = Ok tt /\
  forall s o, joint sp s o -> exists c k c' d e m m',
    dget id2_eqb (is_id s) (sb_ichosen sb) = Some c /\ dget id2_eqb (is_id s) (sb_iok sb) = Some k /\ dget id2_eqb (is_id o) (sb_ichosen sb) = Some c' /\
    g_sub c k = Ok d /\ measure1d d = Some (Fin m) /\ m < e7 /\ g_and c c' = Ok e /\ measure1d e = Some (Fin m') /\ m' < e7.
Proof.
  intros rof sp rad ci sb h M O H. assert (CN : check_now A sb = Ok tt /\ legal sp sb).
  { unfold canned_1 in H. destruct (create_sheetbuild A fsqrt sp rad) as [sb0|e] eqn:EB; [|destruct rof as [[|]|]; discriminate].
    destruct (check A sb0 false ci) as [ci0|e] eqn:EC; [|destruct rof as [[|]|]; discriminate]. destruct (run_steps A false steps (sb0, ci0) [sb0]) as [[st log] [e|]] eqn:ER; [destruct rof as [[|]|]; discriminate|].
    apply Ok_inv in H. injection H as H _. subst sb. destruct (run_ok _ _ _ _ _ ER) as (st1 & ci' & RT & CK & ->). cbn [fst]. split.
    - unfold check, check_step in CK. cbn [orb] in CK. apply bind_ok in CK as (u & CK & _). now destruct u.
    - apply (runs_legal sp steps M O (fun _ I => I) (sb0, ci0) st1); auto. cbn [fst]. exact (proj1 (create_inv1 _ _ _ _ _ M EB)). }
  destruct CN as (CN & L). split; auto. intros s o J. pose proof L as [P Hh N D]. rewrite <- P in J. destruct (check_now_sound A sb ltac:(rewrite P; exact M) CN s o J) as (c & k & ko & d & x & K1 & K2 & K3 & HD & ML & _).
  rewrite P in J. destruct J as (Hs & Ho). destruct (made_opp _ _ M Hs) as (o' & O1 & O2 & Hso & _). rewrite Ho in O1. apply Ok_inv in O1 as <-.
  destruct (Hh o Hso) as (K4 & _). apply (dget_some _ id2_eqb_ok) in K4 as (c' & K4).
  assert (E1 : chosen_of sb (is_id s) = c) by now apply opt_get. assert (E2 : ok_of sb (is_id s) = k) by now apply opt_get. assert (E3 : chosen_of sb (is_id o) = c') by now apply opt_get.
  destruct (N (is_id s)) as (Nc & Nk). destruct (N (is_id o)) as (Nc' & _). apply is_geom1d_normal in Nc, Nk, Nc'. rewrite E1 in Nc. rewrite E2 in Nk. rewrite E3 in Nc'.
  pose proof (g_sub_ok _ _ Nc Nk) as HD'. rewrite HD in HD'. apply Ok_inv in HD'. assert (Nd : normal d) by (rewrite HD'; now apply sub_normal).
  pose proof (g_and_ok _ _ Nc Nc') as HE. set (e := and_pure c c') in *. assert (Ne : normal e) by now apply and_normal.
  unfold measure_lt in ML. pose proof (measure_mes d Nd) as MD. rewrite MD in ML. destruct (mes d) as [|m|] eqn:Em; try discriminate.
  { pose proof (mes_nneg d) as NN. rewrite Em in NN. destruct NN. }
  assert (ML' : m < e7) by (revert ML; change (eltb (Fin m) (Fin e7)) with (qltb m e7); destruct (qltb_spec m e7); auto; discriminate).
  assert (SUB : forall x, pts e x -> pts d x).
  { intros y Y. apply (and_pts c c' e y Nc Nc' HE) in Y as (Y1 & Y2). apply (sub_pts c k d y Nc Nk HD). split; auto. intros Y3. rewrite <- E2 in Y3. rewrite <- E3 in Y2. exact (D o s y Hso O2 Y2 Y3). }
  pose proof (mes_mono e d Ne Nd SUB) as MM. rewrite Em in MM. pose proof (mes_nneg e) as NN. unfold nneg in NN. destruct (mes e) as [|m'|] eqn:Em'; unfold ele in MM, NN; try tauto.
  exists c, k, c', d, e, m, m'. do 4 (split; [assumption|]). split; [exact MD|]. split; [exact ML'|]. split; [exact HE|]. split; [rewrite measure_mes by auto; now rewrite Em'|]. qlra.
Qed.
End P.
Print Assumptions canned_ok_iff.
Print Assumptions canned_failed_state.
Print Assumptions canned_raises.
Print Assumptions canned_creation_failure_refuted.
Print Assumptions canned_show_refuted.
Print Assumptions cli_writes_only_checked.
Print Assumptions cli_failure_is_key_error.
Print Assumptions canned_result_disjoint.
Print Assumptions canned_ok_choices.
(** ** Non-vacuity: two sheets joined at a right angle, on a trivial arrangement code, and the same
    job when the arrangement code fails *)
Section Ex.
Let A0 : arr_impl := mkArr unit unit (fun _ => Ok tt) (fun _ => Ok []) (fun _ _ => Ok []).
Let A1 : arr_impl := mkArr unit unit (fun _ => Err AssertionError) (fun _ => Ok []) (fun _ _ => Ok []).
Let R : rng := mkRng (fun _ l => rev l) (fun _ lo hi => (lo + hi) / zq 2) (fun _ lo _ => lo).
Let sq : geom2d := [mkSpwh [(0, 0); (0, zq 9); (zq 9, zq 9); (zq 9, 0)] []].
Let sh n := mkSheet n sq sq sq.
Let sp0 := mkPlex [("s0", sh "s0"); ("s1", sh "s1")]%string [].
Let fr : frames := fun _ _ => Ok (Some (((1, 0), ((0, 0), [(0, zq 6)])), ((1, 0), ((0, 0), [(0, zq 6)])))).
Let run A show rof sp := canned_1 A (fun q => q) (fun q => q) R (zq 3) (zq 5) (fun c => c) (fun l => l) show rof sp (NInt 12) 0.
Example canned_ex :
  match create_intersections fr sp0 with
  | Ok sp =>
      match run A0 None None sp with Ok r => cn_ok r = true /\ List.length (cn_history r) = 14%nat | Err _ => False end /\
      run A0 (Some (fun _ => Ok tt)) (Some false) sp = Err TypeError /\
      match run A0 (Some (fun _ => Ok tt)) (Some true) sp with Ok r => cn_ok r = false | Err _ => False end /\
      run A1 None (Some false) sp = Err AssertionError /\ run A1 None (Some true) sp = Err UnboundLocalError /\ run A1 None None sp = Err KeyError
  | Err _ => False
  end.
Proof. vm_compute. repeat split; reflexivity. Qed.
End Ex.
