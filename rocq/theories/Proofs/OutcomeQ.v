(** * Which exceptions the operations of a run can raise *)
From Verif.Spec Require Import Plane Region PointSet1 Fingers Crisp.
From Verif.Model Require Import Arrangement2d Heuristics.
From Verif.Proofs Require Import PyP ExtOrd DictP Geom1dP Geom1dM Geom2dP Geom2dOps ArrSoundP SheetplexP FingerP SheetbuildP CreateP HeuristicsP ClusterP HeuStepsP StepsP TrimP CrispP CrispQ BufSharpP BufSharpQ RunSharpP OutcomeP.
From Verif.Props Require Import Geom1dProps Primitive2dProps SheetplexProps Geom2dProps CrispProps.
From Coq Require Import String Permutation.
Open Scope Qc_scope.

(** ** bounded ranges *)
Definition bd (g : geom1d) : Prop := exists lo hi, forall x, pts g x -> lo <= x /\ x <= hi.
Lemma bd_sub a b : (forall x, pts b x -> pts a x) -> bd a -> bd b.
Proof. intros H (lo & hi & B). exists lo, hi. auto. Qed.
Lemma bd_nil : bd [].
Proof. exists 0, 0. intros x (i & [] & _). Qed.
Lemma bd_bounded g : normal g -> bd g -> bounded1 g.
Proof.
  intros N B. apply (mes_bounded g N) in B as (q & E). revert N q E. induction g as [|[a b] g IH]; intros N q E i; [intros []|].
  pose proof (proj1 (normal_cons _ _) N) as (N1 & N2 & N3). cbn [mes map] in E. simpl in N1, E.
  destruct (elen a b) as [|l|] eqn:El, (mes g) as [|m|] eqn:Em; simpl in E; try discriminate. intros [<-|Hi].
  - unfold elen in El. revert El. ecase1; [exfalso; eord|]. destruct a, b; try discriminate; eauto.
  - exact (IH N2 m eq_refl i Hi).
Qed.
Lemma bd_project s g r : is_geom2d g -> is_project_to_1d s g = Ok r -> bd r.
Proof.
  intros G H. destruct (project_ok g (is_dir s) (- is_offs s) G) as (res & E & _ & P). unfold is_project_to_1d in H. rewrite E in H. apply Ok_inv in H as <-.
  assert (K : exists lo hi, forall w a b, In w g -> ring_proj (is_dir s) (- is_offs s) w a b -> lo <= a /\ b <= hi).
  { clear. induction g as [|w g (lo & hi & IH)]; [exists 0, 0; intros ? ? ? []|].
    destruct (min_max (map (fun p : point => dot p (is_dir s) + - is_offs s) (outer w))) as [(a, b)|e] eqn:Q.
    - exists (qmin lo a), (qmax hi b). intros v c d [<-|I] R.
      + pose proof (eq_trans (eq_sym Q) R) as Y. apply Ok_inv, pair_inv in Y as (<- & <-). unfold qmin, qmax. split; qcase1; qlra.
      + destruct (IH v c d I R). unfold qmin, qmax. split; qcase1; qlra.
    - exists lo, hi. intros v c d [<-|I] R; [pose proof (eq_trans (eq_sym Q) R) as Y; discriminate Y|exact (IH v c d I R)]. }
  destruct K as (lo & hi & K). exists lo, hi. intros x X. apply P in X as (w & a & b & I & R & X1 & X2). destruct (K w a b I R). split; qlra.
Qed.

Section Q.
Variable orc : list segment -> nat -> nat -> nat.
Variable fsqrt : Qc -> Qc.
Hypothesis F1 : 0 < fsqrt 1.
Hypothesis F2 : fsqrt 1 < fsqrt (zq 2).
Hypothesis F3 : fsqrt (zq 2) < zq 2 * fsqrt 1.
Let A := segment_arrangement orc.
Variable sp : sheetplex.
Hypothesis M : plex_made sp.
Hypothesis PN : plex_in neat sp.
Let OC : op_closed A fsqrt neat := neat_closed orc fsqrt F1 F2 F3.

Record good (sb : sbuild) : Prop := {
  gd_legal : legal sp sb;
  gd_neat : state_in neat sb;
  gd_keys : forall k, In k (keys (sp_sheets sp)) -> In k (keys (sb_schosen sb)) /\ In k (keys (sb_sok sb));
  gd_bd : forall id, bd (ok_of sb id) }.
Lemma step_keys a b : sstep A neat a b -> forall k, (In k (keys (sb_schosen a)) -> In k (keys (sb_schosen b))) /\ (In k (keys (sb_sok a)) -> In k (keys (sb_sok b))).
Proof.
  intros T j. destruct T as [sb id v t sb' V H|sb id v sb' V H|sb id v iok V H|sb k a sok GA H].
  - apply choose_inv in H as (s & o & [_ _ _ _ _ (E1 & E2) (fo & ko & ro & Fo & Ko & Ro & ->) _ _]). split.
    + destruct t; [rewrite E1; auto|]. destruct (E2 eq_refl) as (f & k & x & r & _ & _ & _ & _ & ->). intros I. apply (in_keys_dset _ string_eqb_ok). auto.
    + intros I. apply (in_keys_dset _ string_eqb_ok). auto.
  - apply unchoose_inv in H as (s & [_ _ _ -> -> _ _]). auto.
  - auto.
  - apply msub2_ok in H as (x & r & _ & _ & ->). cbn [sb_schosen sb_sok]. split; auto. intros I. apply (in_keys_dset _ string_eqb_ok). auto.
Qed.
Lemma steps_shrink a b : legal sp a -> ssteps A neat a b -> moves a b.
Proof.
  intros L H. induction H as [|x y z S IH T]; [apply moves_refl|]. pose proof (inv1_steps A neat sp x y M L S) as Ly. exact (moves_trans _ _ _ (IH L) (step_moves A sp M y z Ly T)).
Qed.
Lemma good_steps a b : good a -> ssteps A neat a b -> good b.
Proof.
  intros [L N K B] H. constructor.
  - exact (inv1_steps A neat sp a b M L H).
  - exact (ssteps_made orc neat (fun g H => H) (fun gs P r G C E X => sharp_neat _ (arrangement_sharp orc gs P r G C E X)) sp a b M PN L N H).
  - intros k I. specialize (K k I). clear L N B. induction H as [|x y z S IH T]; auto. destruct (IH K) as (I1 & I2). destruct (step_keys y z T k). auto.
  - intros id. apply (bd_sub (ok_of a id)); auto. intros x. apply (steps_shrink a b L H id x).
Qed.

(** ** what can be looked up *)
Lemma sheet_of_side s : side_of sp s -> In (is_sheet s) (keys (sp_sheets sp)).
Proof.
  intros (k & it & I & J). destruct M as (fr & sp0 & FR & CR). destruct (created fr sp0 sp FR CR) as (ES & _ & _ & C). apply C in I as (a & b & f1 & f2 & (l1 & l2 & l3 & B) & _ & _ & ->).
  assert (K : forall x, In x (values (sp_sheets sp0)) -> In (sh_id x) (keys (sp_sheets sp))).
  { intros x X. apply in_map_iff in X as ((j & y) & <- & X). cbn [snd]. rewrite ES. destruct FR as (_ & _ & FR). rewrite (proj1 (FR j y X)). apply in_map_iff. exists (j, y). auto. }
  assert (Ia : In a (values (sp_sheets sp0))) by (rewrite B; apply in_or_app; right; left; reflexivity).
  assert (Ib : In b (values (sp_sheets sp0))) by (rewrite B; apply in_or_app; right; right; apply in_or_app; right; left; reflexivity).
  destruct f1 as (d1 & o1 & os1), f2 as (d2 & o2 & os2). destruct J as [<-|[<-|[]]]; [exact (K a Ia)|exact (K b Ib)].
Qed.
Lemma sheet_key k : In k (keys (sp_sheets sp)) -> exists sh, dgetr String.eqb k (sp_sheets sp) = Ok sh /\ In sh (values (sp_sheets sp)) /\ sh_id sh = k /\ neat (sh_face0 sh) /\ neat (sh_face1 sh) /\ neat (sh_slices_max sh).
Proof.
  intros I. apply (dget_some _ string_eqb_ok) in I as (sh & D). exists sh. split; [now apply dgetr_ok|]. apply (dget_in _ string_eqb_ok) in D. split; [|split; [exact (proj2 (made_sheets sp M) _ _ D)|exact (PN _ _ D)]].
  apply in_map_iff. exists (k, sh). auto.
Qed.
Lemma sheet_val sh : In sh (values (sp_sheets sp)) -> In (sh_id sh) (keys (sp_sheets sp)) /\ neat (sh_face0 sh) /\ neat (sh_face1 sh) /\ neat (sh_slices_max sh).
Proof.
  intros I. apply in_map_iff in I as ((k & x) & <- & I). cbn [snd]. rewrite (proj2 (made_sheets sp M) _ _ I). split; [apply in_map_iff; exists (k, x); auto|exact (PN _ _ I)].
Qed.
Lemma lk_iok sb s : legal sp sb -> side_of sp s -> iget (is_id s) (sb_iok sb) = Ok (ok_of sb (is_id s)) /\ is_geom1d (ok_of sb (is_id s)).
Proof.
  intros L S. split; [|exact (proj2 (iv_normal _ _ L _))]. destruct (iv_has _ _ L s S) as (_ & H). apply (dget_some _ id2_eqb_ok) in H as (v & D). unfold ok_of. rewrite D. cbn [opt]. now apply dgetr_ok.
Qed.
Lemma lk_ich sb s : legal sp sb -> side_of sp s -> iget (is_id s) (sb_ichosen sb) = Ok (chosen_of sb (is_id s)) /\ is_geom1d (chosen_of sb (is_id s)).
Proof.
  intros L S. split; [|exact (proj1 (iv_normal _ _ L _))]. destruct (iv_has _ _ L s S) as (H & _). apply (dget_some _ id2_eqb_ok) in H as (v & D). unfold chosen_of. rewrite D. cbn [opt]. now apply dgetr_ok.
Qed.
Lemma lk_sch sb k : good sb -> In k (keys (sp_sheets sp)) -> sget k (sb_schosen sb) = Ok (geom_at (sb_schosen sb) k) /\ neat (geom_at (sb_schosen sb) k).
Proof.
  intros G I. split; [|exact (proj1 (gd_neat _ G k))]. destruct (gd_keys _ G k I) as (H & _). apply (dget_some _ string_eqb_ok) in H as (v & D). unfold geom_at. rewrite D. cbn [opt]. now apply dgetr_ok.
Qed.
Lemma lk_sok sb k : good sb -> In k (keys (sp_sheets sp)) -> sget k (sb_sok sb) = Ok (geom_at (sb_sok sb) k) /\ neat (geom_at (sb_sok sb) k).
Proof.
  intros G I. split; [|exact (proj2 (gd_neat _ G k))]. destruct (gd_keys _ G k I) as (_ & H). apply (dget_some _ string_eqb_ok) in H as (v & D). unfold geom_at. rewrite D. cbn [opt]. now apply dgetr_ok.
Qed.
Lemma lk_opp s : side_of sp s -> exists o, opposite s sp = Ok o /\ side_of sp o /\ sp_interside sp (is_id s) = Ok s /\ is_id o <> is_id s /\ opposite o sp = Ok s.
Proof. intros S. destruct (made_opp sp s M S) as (o & O1 & O2 & O3 & O4 & _ & _ & O5). exists o. auto. Qed.
Lemma fing_neat s w f : side_of sp s -> is_geom1d w -> make_fingers01 A s w = Ok f -> neat f.
Proof. intros S W H. exact (oc_fingers _ _ _ OC s w f (made_rot sp s M S) W H). Qed.

(** ** a fresh state, and the last step *)
Lemma dict_of_has {X V} (key : X -> string) (f : X -> result V) l : forall m m', foldM (fun m x => v <- f x ;; Ok (dset String.eqb (key x) v m)) l m = Ok m' ->
  (forall k, In k (keys m) -> In k (keys m')) /\ forall x, In x l -> In (key x) (keys m').
Proof.
  induction l as [|x l IH]; intros m m' H; cbn [foldM] in H; [apply Ok_inv in H as <-; split; [auto|intros ? []]|]. apply bind_ok in H as (m1 & H1 & H). apply bind_ok in H1 as (v & _ & H1). apply Ok_inv in H1 as <-.
  apply IH in H as (H1 & H2). split; [intros k I; apply H1, (in_keys_dset _ string_eqb_ok); auto|]. intros y [<-|I]; auto. apply H1, (in_keys_dset _ string_eqb_ok). auto.
Qed.
Lemma all_keys : forall k, In k (keys (sp_sheets sp)) -> exists sh, In sh (values (sp_sheets sp)) /\ sh_id sh = k.
Proof. intros k I. destruct (sheet_key k I) as (sh & _ & H & E & _). eauto. Qed.
Lemma side_ok_bd sok s r : (forall k, neat (geom_at sok k)) -> side_of sp s -> init_side_ok A sp sok s = Ok r -> bd r.
Proof.
  intros NS S H. unfold init_side_ok in H. apply bind_ok in H as (k & K & H). apply bind_ok in H as (sh & SH & H). apply bind_ok in H as (a & EA & H). apply bind_ok in H as (w & W & H). apply bind_ok in H as (f & FF & H). apply bind_ok in H as (x & X & H).
  assert (Nk : neat k) by (apply dgetr_ok in K; rewrite <- (geom_at_get _ _ _ K); apply NS). apply dgetr_ok in SH. apply (dget_in _ string_eqb_ok) in SH. destruct (PN _ _ SH) as (_ & _ & N2).
  pose proof (oc_and _ _ _ OC _ _ _ Nk N2 EA) as Na. pose proof (fing_neat s w f S (is_geom1d_new _ _ W) FF) as Nf. exact (bd_project s x r (proj1 (oc_and _ _ _ OC _ _ _ Na Nf X)) H).
Qed.
Definition all1 (P : geom1d -> Prop) (m : dict id2 geom1d) : Prop := forall id, P (opt (dget id2_eqb id m)).
Lemma all1_dset P m k v : all1 P m -> P v -> all1 P (dset id2_eqb k v m).
Proof. intros H V id. rewrite (dget_dset _ id2_eqb_ok). destruct (id2_eqb id k); [exact V|apply H]. Qed.
Lemma good_create rad sb : create_sheetbuild A fsqrt sp rad = Ok sb -> good sb /\ forall id, chosen_of sb id = [].
Proof.
  intros H. destruct (create_inv1 A fsqrt sp rad sb M H) as (L & C0). split; [|exact C0].
  assert (N : state_in neat sb) by exact (fun k => conj (sharp_neat _ (proj1 (create_sharp orc fsqrt F1 F2 F3 sp rad sb PN H k))) (sharp_neat _ (proj2 (create_sharp orc fsqrt F1 F2 F3 sp rad sb PN H k)))).
  apply create_parts in H as (sc0 & iok & E1 & E2 & _ & E3 & E4 & E5 & _). constructor; auto.
  - intros k I. destruct (all_keys k I) as (sh & J & <-). destruct (dict_of_has _ _ _ _ _ E1) as (_ & K1). destruct (dict_of_has _ _ _ _ _ E2) as (_ & K2). split; auto. specialize (K1 sh J). clear -K1 E5.
    revert sc0 K1 E5. induction (sb_iok sb) as [|e l IH]; intros sc0 K1 E5; cbn [foldM] in E5; [now apply Ok_inv in E5 as <-|]. apply bind_ok in E5 as (sc1 & H1 & E5). refine (IH sc1 _ E5).
    unfold carve in H1. apply bind_ok in H1 as (? & _ & H1). apply bind_ok in H1 as (? & _ & H1). apply bind_ok in H1 as (? & _ & H1). apply bind_ok in H1 as (? & _ & H1). apply Ok_inv in H1 as <-. apply (in_keys_dset _ string_eqb_ok). auto.
  - assert (K0 : all1 (fun g => is_geom1d g /\ bd g) iok).
    { intros id. destruct (dget id2_eqb id iok) as [v|] eqn:D; cbn [opt]; [|split; [exact is_geom1d_empty|exact bd_nil]]. destruct (dict_of_in _ _ _ _ _ E3 id) as (_ & K). apply K in D as [D|(s & I & D)]; [discriminate|].
      apply (made_list sp s M) in I. split; [|exact (side_ok_bd _ s v (fun k => proj2 (N k)) I D)]. unfold init_side_ok in D. do 6 (apply bind_ok in D as (? & _ & D)). exact (is_geom1d_project _ _ _ _ D). }
    enough (K : all1 (fun g => is_geom1d g /\ bd g) (sb_iok sb)) by (intros id; exact (proj2 (K id))). clear -K0 E4. revert iok K0 E4. generalize (sp_intersides sp None). intros l.
    induction l as [|s l IH]; intros iok K0 E4; cbn [foldM] in E4; [now apply Ok_inv in E4 as <-|]. apply bind_ok in E4 as (m & H1 & E4). refine (IH m _ E4). clear IH E4.
    unfold and_opposite in H1. apply bind_ok in H1 as (a & HA & H1). apply bind_ok in H1 as (o & _ & H1). apply bind_ok in H1 as (b & HB & H1). apply bind_ok in H1 as (r & HR & H1). apply Ok_inv in H1 as <-.
    apply dgetr_ok in HA, HB. pose proof (K0 (is_id s)) as Ka. pose proof (K0 (is_id o)) as Kb. rewrite HA in Ka. rewrite HB in Kb. cbn [opt] in Ka, Kb. destruct Ka as (Ga & Ba), Kb as (Gb & Bb).
    apply all1_dset; auto. split; [exact (is_geom1d_and _ _ _ Ga Gb HR)|]. apply (bd_sub a); auto. intros x X. apply is_geom1d_normal in Ga, Gb. exact (proj1 (proj1 (and_pts _ _ _ x Ga Gb HR) X)).
Qed.
Lemma good_clean st st' : good (fst st) -> clean_up_thin_ok_parts A fsqrt st = Ok st' -> good (fst st').
Proof.
  intros [L N K B] H. pose proof (clean_legal A fsqrt sp st st' L H) as L'. destruct (clean_frame A fsqrt st st' H) as (sok & E). constructor; auto.
  - destruct st as (sb & ci), st' as (sb' & ci'). cbn [fst] in *.
    exact (clean_up_made orc fsqrt F1 F2 F3 neat (neat_nil) (fun g H => H) (fun gs P r G C E X => sharp_neat _ (arrangement_sharp orc gs P r G C E X)) sb ci sb' ci' N H).
  - intros k I. destruct (K k I) as (K1 & K2). destruct st as (sb & ci). unfold clean_up_thin_ok_parts in H. apply bind_ok in H as (sok' & H & H'). apply Ok_inv in H' as <-. cbn [fst with_sok sb_schosen sb_sok]. split; auto. cbn [fst] in K2. clear -H K2.
    revert K2 H. generalize (sb_sok sb) at 1 2. generalize (sheets_of sb). induction l as [|sh l IH]; intros m K2 H; cbn [foldM] in H; [now apply Ok_inv in H as <-|]. apply bind_ok in H as (m1 & H1 & H). refine (IH m1 _ H).
    unfold clean_sheet in H1. do 5 (apply bind_ok in H1 as (? & _ & H1)). apply Ok_inv in H1 as <-. apply (in_keys_dset _ string_eqb_ok). auto.
  - intros id. rewrite E. exact (B id).
Qed.
End Q.
