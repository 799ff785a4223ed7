(** * Properties C90 - C94: what choose_the_ok_side and heuristic_multi_inter_single_decisions decide, and
      that no range of a joint is left open in a result with ok=True *)
From Verif.Spec Require Import PointSet1 Steps.
From Verif.Model Require Import Canned Arrangement2d.
From Verif.Proofs Require Import PyP ExtOrd DictP Geom1dP Geom1dM SheetplexP FingerP SheetbuildP HeuristicsP ClusterP HeuStepsP StepsP.
From Verif.Props Require Import Geom1dProps SheetplexProps SheetbuildProps AssignProps CannedProps.
From Coq Require Import String Permutation.
Open Scope Qc_scope.

(** ** C90: choose_the_ok_side.  A side takes the intervals longer than 1/50 that are ok for it alone and
    gives up the shorter ones; nothing else changes. *)
Theorem ok_side_chosen : forall A sp st st', plex_made sp -> legal sp (fst st) -> choose_the_ok_side A st = Ok st' ->
  forall s o, joint sp s o -> forall x,
    (pts (chosen_of (fst st') (is_id s)) x <->
       pts (chosen_of (fst st) (is_id s)) x \/ in_long (qq 1 50) (one_sided (fst st) (is_id s) (is_id o)) x) /\
    (pts (ok_of (fst st') (is_id s)) x <->
       pts (ok_of (fst st) (is_id s)) x /\
       ~ (one_sided (fst st) (is_id s) (is_id o) x /\ ~ in_long (qq 1 50) (one_sided (fst st) (is_id s) (is_id o)) x)).
Proof.
  intros A sp st st' M L H s o J x. unfold choose_the_ok_side in H. apply bind_ok in H as (st1 & H1 & H). apply hcheck_ok in H1. rewrite <- H1 in *. clear H1 st. rename st1 into st.
  rewrite (iv_plex sp _ L) in H. set (l := flat_map it_sides (values (sp_inters sp))) in *.
  assert (LS : forall s, In s l <-> side_of sp s). { intros t. rewrite <- (made_list sp t M). unfold sp_intersides, l. rewrite filter_In. tauto. }
  destruct (dealt_all A sp M (fst st) l [] st st' L (fun t I => proj1 (LS t) I) (dealt_nil sp (fst st)) H) as (_ & D). destruct (D s o J x) as (D1 & D2). rewrite D1, D2. rewrite app_nil_r.
  assert (I : In (is_id s) (rev (map is_id l))) by (apply in_rev; rewrite rev_involutive; apply in_map; apply LS; apply J). tauto.
Qed.
Print Assumptions ok_side_chosen.
(** afterwards no range is open for one side alone *)
Corollary no_one_sided_left : forall A sp st st', plex_made sp -> legal sp (fst st) -> choose_the_ok_side A st = Ok st' ->
  forall s o x, joint sp s o -> ~ one_sided (fst st') (is_id s) (is_id o) x.
Proof.
  intros A sp st st' M L H s o x J (X1 & X2 & X3 & X4). destruct (ok_side_chosen A sp st st' M L H s o J x) as (C1 & K1). destruct (ok_side_chosen A sp st st' M L H o s (joint_sym sp M s o J) x) as (C2 & K2).
  rewrite C1 in X2. rewrite K1 in X1. rewrite K2 in X3. rewrite C2 in X4. destruct X1 as (X1 & X1'). assert (N : ~ one_sided (fst st) (is_id o) (is_id s) x) by (intros (_ & _ & N & _); auto).
  apply X1'. split; [|tauto]. unfold one_sided. tauto.
Qed.
Print Assumptions no_one_sided_left.

(** ** C91: heuristic_multi_inter_single_decisions.  Where the fingers of two joints meet on a sheet, one
    sheet is given everything: what is left ok in the two ranges belongs to it and is chosen. *)
Theorem interactions_settled : forall A fsqrt sp ord sord st st', plex_made sp -> (forall c, Permutation c (ord c)) -> legal sp (fst st) ->
  heuristic_multi_inter_single_decisions A fsqrt ord sord st = Ok st' ->
  forall sh i j, In sh (values (sp_sheets sp)) -> before (sp_intersides sp (Some (sh_id sh))) i j -> is_id i <> is_id j ->
  exists fi fj double,
    make_fingers01 A i (ok_of (fst st) (is_id i)) = Ok fi /\ make_fingers01 A j (ok_of (fst st) (is_id j)) = Ok fj /\ g2_and A fi fj = Ok double /\
    (g2_is_empty double = false -> exists di dj C,
       is_project_to_1d i double = Ok di /\ is_project_to_1d j double = Ok dj /\
       forall s x, side_of sp s -> (is_inter s = is_inter i /\ pts di x) \/ (is_inter s = is_inter j /\ pts dj x) ->
         pts (ok_of (fst st') (is_id s)) x -> is_sheet s = C /\ pts (chosen_of (fst st') (is_id s)) x).
Proof.
  intros A fsqrt sp ord sord st st' M O L H sh i j ISH (l1 & l2 & l3 & E) NE. apply (multi_settles A fsqrt sp M ord sord O st st' sh l1 i (l2 ++ j :: l3) j L H ISH E); [apply in_app_iff; right; now left|].
  intros EI. apply NE. assert (Hi : In i (sp_intersides sp (Some (sh_id sh)))) by (rewrite E; apply in_app_iff; right; now left).
  assert (Hj : In j (sp_intersides sp (Some (sh_id sh)))) by (rewrite E; apply in_app_iff; right; right; apply in_app_iff; right; now left).
  pose proof (sides_in sp M _ _ Hi) as (k1 & t1 & I1 & S1). pose proof (sides_in sp M _ _ Hj) as (k2 & t2 & I2 & S2). destruct (made_sides sp k1 t1 i M I1 S1) as (E1 & F1). destruct (made_sides sp k2 t2 j M I2 S2) as (E2 & F2).
  unfold sp_intersides in Hi, Hj. apply filter_In in Hi as (_ & Hi). apply filter_In in Hj as (_ & Hj). apply String.eqb_eq in Hi, Hj. congruence.
Qed.
Print Assumptions interactions_settled.

(** ** C94: a cluster goes to a sheet that offers at least as much finger area as any other sheet involved *)
Theorem cluster_to_largest : forall A fsqrt sp ord sord st cl st', plex_made sp -> (forall c, Permutation c (ord c)) -> (forall l, Permutation l (sord l)) -> legal sp (fst st) ->
  NoDup (keys cl) -> (forall k r, In (k, r) cl -> is_geom1d r) -> decide_cluster A fsqrt ord sord st cl = Ok st' ->
  exists C a, offered A sp ord (fst st) cl C a /\
    (forall k r it s, In (k, r) cl -> In (k, it) (sp_inters sp) -> In s (it_sides it) ->
       (exists a', offered A sp ord (fst st) cl (is_sheet s) a' /\ a' <= a) /\
       forall x, pts r x -> pts (ok_of (fst st') (is_id s)) x -> is_sheet s = C /\ pts (chosen_of (fst st') (is_id s)) x).
Proof.
  intros A fsqrt sp ord sord st cl st' M O SO L ND G H. assert (CO : cl_ok cl) by (split; [exact ND|]; intros j g D; apply (dget_in _ string_eqb_ok) in D; exact (is_geom1d_normal _ (G _ _ D))).
  destruct (decide_settles A fsqrt sp M ord sord O st cl st' L CO G H) as (C & S & B). destruct (B SO) as (a & OF & MX). exists C, a. split; [exact OF|]. intros k r it s I1 I2 I3. split; [exact (MX (k, r) it s I1 I2 I3)|].
  intros x X K. destruct (made_sides sp k it s M I2 I3) as (E & _). apply (S s x); [exists k, it; auto| |exact K]. apply (dget_nodup _ string_eqb_ok) in I1; [|exact ND]. rewrite E. now apply (cpts_get _ _ _ _ I1).
Qed.
Print Assumptions cluster_to_largest.

Section Run.
Variable A : arr_impl.
Variable fsqrt fl : Qc -> Qc.
Variable R : rng.
Variable mn mx : Qc.
Variable ord : dict string geom1d -> dict string geom1d.
Variable sord : list string -> list string.
(** ** C92: the history of a successful run: the sheetbuild as created, before each step and at the end *)
Definition follows (ops : list (hstate -> result hstate)) (sts : list hstate) : Prop :=
  List.length sts = S (List.length ops) /\
  forall n op, nth_error ops n = Some op -> exists a b, nth_error sts n = Some a /\ nth_error sts (S n) = Some b /\ op a = Ok b.
Lemma run_log ops : forall st log st' log', run_steps A false ops st log = (st', log', None) ->
  exists sts, follows ops (st :: sts) /\ log' = log ++ map fst (st :: sts) /\ exists se, nth_error (st :: sts) (List.length ops) = Some se /\ fst se = fst st'.
Proof.
  induction ops as [|op ops IH]; intros st log st' log' H; cbn [run_steps] in H.
  - destruct (check A (fst st) true (snd st)) as [ci|e]; [|discriminate]. injection H as <- <-. exists []. split; [split; [reflexivity|intros [|n] op E; discriminate]|]. split; [reflexivity|]. exists st. split; reflexivity.
  - destruct (op st) as [st1|e] eqn:E; [|discriminate]. destruct (IH _ _ _ _ H) as (sts & (FL & FN) & -> & EL). exists (st1 :: sts). split; [|split].
    + split; [cbn [List.length] in *; lia|]. intros [|n] o X; cbn [nth_error] in *; [apply some_inv in X as <-; eauto|]. exact (FN n o X).
    + rewrite <- app_assoc. reflexivity.
    + exact EL.
Qed.
Theorem canned_history : forall rof sp rad ci sb h, canned_1 A fsqrt fl R mn mx ord sord None rof sp rad ci = Ok (mkCanned true sb h) ->
  exists sb0 ci0 sts, create_sheetbuild A fsqrt sp rad = Ok sb0 /\ h = sb0 :: map fst sts /\
    nth_error sts 0 = Some (sb0, ci0) /\ follows (canned_steps A fsqrt fl R mn mx ord sord) sts /\ nth_error h 13 = Some sb.
Proof.
  intros rof sp rad ci sb h H. unfold canned_1 in H. destruct (create_sheetbuild A fsqrt sp rad) as [sb0|e] eqn:EB; [|destruct rof as [[|]|]; discriminate].
  destruct (check A sb0 false ci) as [ci0|e] eqn:EC; [|destruct rof as [[|]|]; discriminate]. destruct (run_steps A false _ (sb0, ci0) [sb0]) as [[st log] [e|]] eqn:ER; [destruct rof as [[|]|]; discriminate|].
  apply Ok_inv in H. injection H as <- <-. destruct (run_log _ _ _ _ _ ER) as (sts & F & -> & se & ESE & EL). exists sb0, ci0, ((sb0, ci0) :: sts). split; [reflexivity|]. split; [reflexivity|]. split; [reflexivity|]. split; [exact F|].
  destruct F as (FL & _). cbn [List.length canned_steps] in FL. do 12 (destruct sts as [|? sts]; [discriminate|]). destruct sts; [|discriminate]. cbn [canned_steps List.length nth_error] in ESE. apply some_inv in ESE as ->. cbn [app map nth_error]. f_equal. exact EL.
Qed.
(** ** C93 (exact arithmetic): in a result with ok=True nothing stays open.  [b] is the sheetbuild before
    choose_the_ok_side. *)
Definition scrap (b : sbuild) (i j : id2) (x : Qc) : Prop := one_sided b i j x /\ ~ in_long (qq 1 50) (one_sided b i j) x.
End Run.
Print Assumptions canned_history.
Theorem joints_filled : forall A fsqrt R mn mx ord sord rof sp rad ci sb h, rng_ok R -> 0 < mn -> mn <= mx -> plex_made sp -> (forall c, Permutation c (ord c)) ->
  canned_1 A fsqrt idq R mn mx ord sord None rof sp rad ci = Ok (mkCanned true sb h) ->
  exists b, nth_error h 10 = Some b /\ forall s o, joint sp s o -> exists d, normal d /\ small d /\ forall x, ~ pts d x ->
    (pts (ok_of sb (is_id s)) x -> pts (chosen_of sb (is_id s)) x) /\
    (pts (ok_of b (is_id s)) x -> pts (chosen_of sb (is_id s)) x \/ pts (chosen_of sb (is_id o)) x \/ scrap b (is_id s) (is_id o) x).
Proof.
  intros A fsqrt R mn mx ord sord rof sp rad ci sb h RO P1 P2 M O H. destruct (canned_history _ _ _ _ _ _ _ _ _ _ _ _ _ _ H) as (sb0 & ci0 & sts & C & -> & S0 & (SL & F) & SE).
  pose proof (proj1 (create_inv1 _ _ _ _ _ M C)) as L0. set (steps := canned_steps A fsqrt idq R mn mx ord sord) in *.
  assert (LG : forall n st, (n <= 12)%nat -> nth_error sts n = Some st -> legal sp (fst st)).
  { induction n as [|n IH]; intros st LE E; [rewrite S0 in E; apply some_inv in E as <-; exact L0|]. destruct (nth_error steps n) as [op|] eqn:EO; [|apply nth_error_None in EO; unfold steps in EO; cbn [canned_steps List.length] in EO; lia].
    destruct (F n op EO) as (a & b & Ea & Eb & OP). pose proof (some_inv _ _ (eq_trans (eq_sym E) Eb)) as <-. apply (steps_legal A fsqrt idq R mn mx ord sord sp a op st M O (IH a ltac:(lia) Ea)); [|exact OP]. exact (nth_error_In _ _ EO). }
  destruct (F 9%nat _ eq_refl) as (s9 & s10 & E9 & E10 & H9). destruct (F 10%nat _ eq_refl) as (s10' & s11 & E10' & E11 & H10). pose proof (some_inv _ _ (eq_trans (eq_sym E10) E10')) as <-. clear E10'.
  destruct (F 11%nat _ eq_refl) as (s11' & s12 & E11' & E12 & H11). pose proof (some_inv _ _ (eq_trans (eq_sym E11) E11')) as <-. clear E11'.
  assert (EB : fst s12 = sb). { change (nth_error (map fst sts) 12 = Some sb) in SE. pose proof (eq_trans (eq_sym (nth_error_map fst 12 sts)) SE) as X. unfold hstate in *. rewrite E12 in X. cbn [option_map] in X. now apply some_inv in X. }
  exists (fst s9). split; [change (nth_error (map fst sts) 9 = Some (fst s9)); rewrite nth_error_map; unfold hstate in *; now rewrite E9|].
  assert (L9 : legal sp (fst s9)) by (apply (LG 9%nat); [lia|exact E9]). assert (L10 : legal sp (fst s10)) by (apply (LG 10%nat); [lia|exact E10]).
  destruct (clean_frame A fsqrt _ _ H11) as (sok & EF). rewrite EB in EF.
  assert (KC : forall id, chosen_of sb id = chosen_of (fst s11) id) by (intros id; rewrite EF; reflexivity). assert (KO : forall id, ok_of sb id = ok_of (fst s11) id) by (intros id; rewrite EF; reflexivity).
  pose proof (steps_move A sp M _ _ L10 (random_steps A (Kc:=geoms_of A) idq sp M R mn mx _ _ L10 H10)) as MV.
  intros s o J. assert (DEC : exists d, normal d /\ small d /\ (forall x, ~ pts d x -> pts (ok_of (fst s11) (is_id s)) x -> pts (chosen_of (fst s11) (is_id s)) x) /\ (forall x, ~ pts d x -> pts (ok_of (fst s11) (is_id o)) x -> pts (chosen_of (fst s11) (is_id o)) x)).
  { pose proof J as ((k & it & I & Is) & Ho). destruct (made_two sp k it M I) as (t0 & t1 & ES & _ & _ & O1 & O2). destruct (random_fingers_decide_all A R mn mx sp s10 s11 RO P1 P2 M L10 H10 k it t0 t1 I ES) as (D0 & d & Nd & Sd & D1).
    assert (U : forall id x, ~ undecided (fst s11) id x -> pts (ok_of (fst s11) id) x -> pts (chosen_of (fst s11) id) x) by (intros id x U X; destruct (pts_dec (chosen_of (fst s11) id) x); [auto|]; destruct U; split; auto).
    exists d. split; [auto|]. split; [auto|]. rewrite ES in Is. destruct Is as [<-|[<-|[]]].
    - rewrite O1 in Ho. apply Ok_inv in Ho as <-. split; intros x X; apply U; [apply D0|intros Y; apply D1 in Y; auto].
    - rewrite O2 in Ho. apply Ok_inv in Ho as <-. split; intros x X; apply U; [intros Y; apply D1 in Y; auto|apply D0]. }
  destruct DEC as (d & Nd & Sd & Ds & Do). exists d. split; [auto|]. split; [auto|]. intros x X. rewrite !KC, KO. split; [exact (Ds x X)|]. intros K.
  destruct (ok_side_chosen A sp s9 s10 M L9 H9 s o J x) as (C1 & K1). 
  assert (CV : covered (fst s10) (is_id s) (is_id o) x \/ scrap (fst s9) (is_id s) (is_id o) x).
  { unfold covered, scrap. destruct (one_sided_dec (fst s9) (is_id s) (is_id o) x) as [OS|OS]; [|left; right; right; left; apply K1; tauto].
    destruct (pts_dec (ok_of (fst s10) (is_id s)) x) as [Y|Y]; [tauto|]. right. split; [auto|]. intros Z. apply Y. apply K1. tauto. }
  destruct CV as [CV|CV]; [|auto]. apply (random_covered A sp M idq R mn mx s10 s11 s o x L10 H10 J) in CV. destruct CV as [CV|[CV|[CV|CV]]]; auto.
Qed.
Print Assumptions joints_filled.
(** the decisions about interacting joints stand in the result; [b] is the sheetbuild before
    heuristic_multi_inter_single_decisions *)
Theorem interactions_settled_result : forall A fsqrt fl R mn mx ord sord rof sp rad ci sb h, plex_made sp -> (forall c, Permutation c (ord c)) ->
  canned_1 A fsqrt fl R mn mx ord sord None rof sp rad ci = Ok (mkCanned true sb h) ->
  exists b, nth_error h 8 = Some b /\ forall sh i j, In sh (values (sp_sheets sp)) -> before (sp_intersides sp (Some (sh_id sh))) i j -> is_id i <> is_id j ->
  exists fi fj double,
    make_fingers01 A i (ok_of b (is_id i)) = Ok fi /\ make_fingers01 A j (ok_of b (is_id j)) = Ok fj /\ g2_and A fi fj = Ok double /\
    (g2_is_empty double = false -> exists di dj C,
       is_project_to_1d i double = Ok di /\ is_project_to_1d j double = Ok dj /\
       forall s x, side_of sp s -> (is_inter s = is_inter i /\ pts di x) \/ (is_inter s = is_inter j /\ pts dj x) ->
         pts (ok_of sb (is_id s)) x -> is_sheet s = C /\ pts (chosen_of sb (is_id s)) x).
Proof.
  intros A fsqrt fl R mn mx ord sord rof sp rad ci sb h M O H. destruct (canned_history _ _ _ _ _ _ _ _ _ _ _ _ _ _ H) as (sb0 & ci0 & sts & C & -> & S0 & (SL & F) & SE).
  pose proof (proj1 (create_inv1 _ _ _ _ _ M C)) as L0. set (steps := canned_steps A fsqrt fl R mn mx ord sord) in *.
  assert (LG : forall n st, (n <= 12)%nat -> nth_error sts n = Some st -> legal sp (fst st)).
  { induction n as [|n IH]; intros st LE E; [rewrite S0 in E; apply some_inv in E as <-; exact L0|]. destruct (nth_error steps n) as [op|] eqn:EO; [|apply nth_error_None in EO; unfold steps in EO; cbn [canned_steps List.length] in EO; lia].
    destruct (F n op EO) as (a & b & Ea & Eb & OP). pose proof (some_inv _ _ (eq_trans (eq_sym E) Eb)) as <-. apply (steps_legal A fsqrt fl R mn mx ord sord sp a op st M O (IH a ltac:(lia) Ea)); [|exact OP]. exact (nth_error_In _ _ EO). }
  assert (MV : forall n st st', (n <= 10)%nat -> nth_error sts n = Some st -> nth_error sts (S n) = Some st' -> moves (fst st) (fst st')).
  { intros n st st' LE E E'. destruct (nth_error steps n) as [op|] eqn:EO; [|apply nth_error_None in EO; unfold steps in EO; cbn [canned_steps List.length] in EO; lia].
    destruct (F n op EO) as (a & b & Ea & Eb & OP). pose proof (some_inv _ _ (eq_trans (eq_sym E) Ea)) as <-. pose proof (some_inv _ _ (eq_trans (eq_sym E') Eb)) as <-.
    assert (L : legal sp (fst st)) by (apply (LG n); [lia|exact E]). apply (steps_move A (Kc:=geoms_of A) sp M _ _ L). apply (steps_ssteps A fsqrt fl R mn mx ord sord _ sp st op st' (geoms_closed A fsqrt) M O L); [|exact OP].
    apply (nth_error_In _ n). unfold steps in EO. clear -LE EO. do 11 (destruct n as [|n]; [exact EO|]). lia. }
  destruct (F 7%nat _ eq_refl) as (s7 & s8 & E7 & E8 & H7). destruct (F 8%nat _ eq_refl) as (s8' & s9 & E8' & E9 & _). destruct (F 9%nat _ eq_refl) as (s9' & s10 & _ & E10 & _). destruct (F 10%nat _ eq_refl) as (s10' & s11 & _ & E11 & _).
  destruct (F 11%nat _ eq_refl) as (s11' & s12 & E11' & E12 & H11). pose proof (some_inv _ _ (eq_trans (eq_sym E11) E11')) as <-. clear E11' s9' s10' s8' E8'.
  assert (EB : fst s12 = sb). { change (nth_error (map fst sts) 12 = Some sb) in SE. pose proof (eq_trans (eq_sym (nth_error_map fst 12 sts)) SE) as X. unfold hstate in *. rewrite E12 in X. cbn [option_map] in X. now apply some_inv in X. }
  assert (MM : moves (fst s8) (fst s11)). { apply (moves_trans _ (fst s9)); [apply (MV 8%nat); [lia|exact E8|exact E9]|]. apply (moves_trans _ (fst s10)); [apply (MV 9%nat); [lia|exact E9|exact E10]|apply (MV 10%nat); [lia|exact E10|exact E11]]. }
  destruct (clean_frame A fsqrt _ _ H11) as (sok & EF). rewrite EB in EF.
  exists (fst s7). split; [change (nth_error (map fst sts) 7 = Some (fst s7)); rewrite nth_error_map; unfold hstate in *; now rewrite E7|].
  intros sh i j I1 I2 I3. assert (L7 : legal sp (fst s7)) by (apply (LG 7%nat); [lia|exact E7]). destruct (interactions_settled A fsqrt sp ord sord s7 s8 M O L7 H7 sh i j I1 I2 I3) as (fi & fj & d & X1 & X2 & X3 & X4).
  exists fi, fj, d. split; [auto|]. split; [auto|]. split; [auto|]. intros ED. destruct (X4 ED) as (di & dj & CC & Y1 & Y2 & Y3). exists di, dj, CC. split; [auto|]. split; [auto|]. intros s x Hs X K.
  assert (KC : chosen_of sb (is_id s) = chosen_of (fst s11) (is_id s)) by (rewrite EF; reflexivity). assert (KO : ok_of sb (is_id s) = ok_of (fst s11) (is_id s)) by (rewrite EF; reflexivity). rewrite KC. rewrite KO in K.
  destruct (MM (is_id s) x) as (M1 & M2). destruct (Y3 s x Hs X (M2 K)). auto.
Qed.
Print Assumptions interactions_settled_result.

(** ** Non-vacuity *)
Section Ex.
Let A0 : arr_impl := mkArr unit unit (fun _ => Ok tt) (fun _ => Ok []) (fun _ _ => Ok []).
Let A : arr_impl := segment_arrangement (fun _ _ _ => O).
Let R : rng := mkRng (fun _ l => rev l) (fun _ lo hi => (lo + hi) / zq 2) (fun _ lo _ => lo).
Let rect (a b c d : Z) : geom2d := [mkSpwh [(zq a, zq b); (zq a, zq d); (zq c, zq d); (zq c, zq b)] []].
Let sh n := mkSheet n [] [] [].
Let f (d p : point) : frame := (d, ((0, 0), [p])).
Let iv (a b : Qc) : geom1d := [(Fin a, Fin b)].
Let fr : frames := fun a b => if String.eqb (sh_id a) "s0" then Ok (Some (if String.eqb (sh_id b) "s1" then (f (1, 0) (0, 1), f (1, 0) (0, 1)) else (f (0, 1) (1, 0), f (1, 0) (0, 1)))) else Ok None.
Let bd (e : ext) : option Q := match e with Fin q => Some (this q) | _ => None end.
Let rd (g : geom1d) : list (option Q * option Q) := map (fun i => (bd (fst i), bd (snd i))) g.
Let a0 : id2 := ("s0,s1", "s0")%string.
Let a1 : id2 := ("s0,s1", "s1")%string.
Let b0 : id2 := ("s0,s2", "s0")%string.
Let b2 : id2 := ("s0,s2", "s2")%string.
(** the first side alone may take [0, 4), the second alone [9, 9 + 1/100), both [4, 9): the first takes
    [0, 4), the second gives up the short piece, and the random fingers divide the rest *)
Let start1 (sp : sheetplex) : sbuild := mkSB sp [("s0", []); ("s1", [])]%string [("s0", []); ("s1", [])]%string [(a0, []); (a1, [])] [(a0, iv 0 (zq 9)); (a1, iv (zq 4) (zq 9 + qq 1 100))].
Example ok_side_ex :
  match create_intersections fr (mkPlex [("s0", sh "s0"); ("s1", sh "s1")]%string []) with
  | Ok sp =>
      match choose_the_ok_side A0 (start1 sp, 1%Z) with
      | Ok st =>
          rd (chosen_of (fst st) a0) = rd (iv 0 (zq 4)) /\ chosen_of (fst st) a1 = [] /\ rd (ok_of (fst st) a0) = rd (iv 0 (zq 9)) /\ rd (ok_of (fst st) a1) = rd (iv (zq 4) (zq 9)) /\
          match single_fingers_random A0 idq R (zq 3) (zq 5) st with
          | Ok (sb, _) => rd (ok_of sb a0) = rd (chosen_of sb a0) /\ rd (ok_of sb a1) = rd (chosen_of sb a1) /\ match g_or (chosen_of sb a0) (chosen_of sb a1) with Ok g => rd g = rd (iv 0 (zq 9)) | Err _ => False end
          | Err _ => False
          end
      | Err _ => False
      end
  | Err _ => False
  end.
Proof. vm_compute. repeat split; reflexivity. Qed.
(** the fingers of two joints meet in the corner of the sheet s0, which gets the whole corner *)
Let start2 (sp : sheetplex) : sbuild := mkSB sp [("s0", rect 1 1 4 4); ("s1", []); ("s2", [])]%string [("s0", rect 0 0 4 4); ("s1", rect 0 0 4 1); ("s2", rect 0 0 4 1)]%string
  [(a0, []); (a1, []); (b0, []); (b2, [])] [(a0, iv 0 (zq 4)); (a1, iv 0 (zq 4)); (b0, iv 0 (zq 4)); (b2, iv 0 (zq 4))].
Example settled_ex :
  match create_intersections fr (mkPlex [("s0", sh "s0"); ("s1", sh "s1"); ("s2", sh "s2")]%string []) with
  | Ok sp =>
      match heuristic_multi_inter_single_decisions A (fun q => q) (fun c => c) (fun l => l) (start2 sp, 1%Z) with
      | Ok (sb, _) => (rd (chosen_of sb a0), rd (ok_of sb a1)) = (rd (iv 0 (zq 4)), []) /\ (rd (chosen_of sb b0), rd (ok_of sb b2)) = (rd (iv 0 1), rd (iv 1 (zq 4)))
      | Err _ => False
      end
  | Err _ => False
  end.
Proof. vm_compute. repeat split; reflexivity. Qed.
(** a whole run with ok=True, for C92 and C93, on a trivial arrangement code *)
Let sq : geom2d := rect 0 0 9 9.
Let fr2 : frames := fun _ _ => Ok (Some (((1, 0), ((0, 0), [(0, zq 6)])), ((1, 0), ((0, 0), [(0, zq 6)])))).
Example run_ex :
  match create_intersections fr2 (mkPlex [("s0", mkSheet "s0" sq sq sq); ("s1", mkSheet "s1" sq sq sq)]%string []) with
  | Ok sp =>
      match canned_1 A0 (fun q => q) idq R (zq 3) (zq 5) (fun c => c) (fun l => l) None None sp (NInt 12) 0 with
      | Ok r => cn_ok r = true /\ List.length (cn_history r) = 14%nat
      | Err _ => False
      end
  | Err _ => False
  end.
Proof. vm_compute. repeat split; reflexivity. Qed.
End Ex.
