(** * What single heuristic steps do to the ranges of the two sides of a joint *)
From Verif.Spec Require Import PointSet1 Steps.
From Verif.Model Require Import Heuristics.
From Verif.Proofs Require Import PyP ExtOrd DictP Geom1dP Geom1dM SheetplexP FingerP SheetbuildP HeuristicsP ClusterP HeuStepsP.
From Verif.Props Require Import Geom1dProps SheetplexProps SheetbuildProps AssignProps.
From Coq Require Import String Permutation.
Open Scope Qc_scope.

(** an interval inside a normal set is inside one of its pieces *)
Lemma one_piece g : normal g -> forall a b, a < b -> (forall y, a <= y -> y < b -> pts g y) -> exists i, In i g /\ ele (fst i) (Fin a) /\ ele (Fin b) (snd i).
Proof.
  induction g as [|i g IH]; intros N a b AB F.
  - destruct (F a (Qcle_refl a) AB) as (? & [] & _).
  - pose proof (proj1 (proj2 (proj1 (normal_cons i g) N))) as N'. pose proof (F a (Qcle_refl a) AB) as Fa. rewrite pts_epts in Fa. apply epts_cons in Fa as [Fa|Fa].
    + exists i. split; [now left|]. destruct Fa as (F1 & F2). split; [exact F1|]. destruct (snd i) as [|c|] eqn:E; rewrite ?E in F2; unfold elt, ele in *; try tauto.
      destruct (Qclt_le_dec c b) as [C|C]; [|exact C]. exfalso. pose proof (F c) as X. assert (X1 : a <= c) by qlra. specialize (X X1 C). rewrite pts_epts in X. apply epts_cons in X as [(_ & X)|X].
      * rewrite E in X. unfold elt in X. qlra.
      * revert X. apply (normal_below i g (Fin c) N). rewrite E. cbn. apply Qcle_refl.
    + destruct (IH N' a b AB) as (j & J & H); [|exists j; split; [now right|auto]]. intros y Y1 Y2. specialize (F y Y1 Y2). rewrite pts_epts in *. apply epts_cons in F as [(F1 & F2)|F]; [|auto].
      exfalso. apply (normal_below i g (Fin a) N); [|exact Fa]. destruct (snd i) as [|c|]; unfold elt, ele in *; try tauto. qlra.
Qed.
Lemma open_pts g e t r x : 0 < e -> normal g -> buffer_q g (- e) = Ok t -> buffer_q t e = Ok r ->
  (pts r x <-> exists a b, a <= x /\ x < b /\ e + e < b - a /\ forall y, a <= y -> y < b -> pts g y).
Proof.
  intros He N T R. rewrite buffer_q_ok in T, R. apply Ok_inv in T, R. subst t r. rewrite opening by auto. split.
  - intros (i & I & X). apply filter_In in I as (I & LO). pose proof (normal_In g i N I) as LT. assert (IN : forall y, in_iv y i -> pts g y) by (intros y Y; exists i; auto).
    apply longer_spec in LO. destruct i as [[|a|] [|b|]]; unfold elt, ele in *; cbn [fst snd eshift eleb] in *; destruct X as (X1 & X2); unfold elt, ele in X1, X2; cbn [fst snd] in X1, X2; try tauto; try discriminate.
    + exists (x - e - e - 1), b. split; [qlra|]. split; [exact X2|]. split; [qlra|]. intros y Y1 Y2. apply IN. split; cbn; auto.
    + exists x, (x + e + e + 1). split; [apply Qcle_refl|]. split; [qlra|]. split; [qlra|]. intros y _ _. apply IN. split; cbn; auto.
    + exists a, b. split; [exact X1|]. split; [exact X2|]. split; [|intros y Y1 Y2; apply IN; split; cbn; auto]. exact LO.
    + exists a, (x + e + e + 1). split; [exact X1|]. split; [qlra|]. split; [qlra|]. intros y Y1 _. apply IN. split; cbn; auto.
  - intros (a & b & X1 & X2 & LN & F). assert (AB : a < b) by qlra. destruct (one_piece g N a b AB F) as (i & I & L1 & L2). exists i. split.
    + apply filter_In. split; auto. apply longer_spec. destruct i as [[|u|] [|v|]]; unfold elt, ele in *; cbn [fst snd] in *; try tauto. qlra.
    + split; destruct i as [[|u|] [|v|]]; unfold elt, ele in *; cbn [fst snd] in *; try tauto; qlra.
Qed.

(** ** choose_the_ok_side *)
(** [x] is ok for the side [i] alone, and chosen by neither side *)
Definition one_sided (sb : sbuild) (i j : id2) (x : Qc) : Prop :=
  pts (ok_of sb i) x /\ ~ pts (chosen_of sb i) x /\ ~ pts (ok_of sb j) x /\ ~ pts (chosen_of sb j) x.
Section C.
Variable A : arr_impl.
Variable sp : sheetplex.
Hypothesis M : plex_made sp.
Lemma only_ok_step st s o st' : legal sp (fst st) -> joint sp s o -> choose_only_ok A st s = Ok st' ->
  legal sp (fst st') /\ forall j x,
    (pts (chosen_of (fst st') j) x <-> pts (chosen_of (fst st) j) x \/ (j = is_id s /\ in_long (qq 1 50) (one_sided (fst st) (is_id s) (is_id o)) x)) /\
    (pts (ok_of (fst st') j) x <-> pts (ok_of (fst st) j) x /\
       ~ (j = is_id s /\ one_sided (fst st) (is_id s) (is_id o) x /\ ~ in_long (qq 1 50) (one_sided (fst st) (is_id s) (is_id o)) x)).
Proof.
  intros L (Js & Jo) H. destruct st as [sb ci]. cbn [fst] in *. pose proof (iv_plex sp sb L) as EP. unfold choose_only_ok in H. rewrite EP in H.
  apply bind_ok in H as (k & K & H). apply bind_ok in H as (c & C & H). apply bind_ok in H as (t1 & T1 & H). rewrite Jo in H. cbn [bind] in H. apply bind_ok in H as (ko & KO & H).
  apply bind_ok in H as (t2 & T2 & H). apply bind_ok in H as (co & CO & H). apply bind_ok in H as (orig & T3 & H). apply bind_ok in H as (t4 & T4 & H). apply bind_ok in H as (t & T5 & H).
  apply bind_ok in H as (sm & SM & H). apply bind_ok in H as (sb1 & S1 & H). apply bind_ok in H as (sb2 & S2 & H). apply hcheck_ok in H. rewrite H. cbn [fst]. clear H.
  pose proof (legal_iok sp _ _ _ L K) as Gk. pose proof (legal_ich sp _ _ _ L C) as Gc. pose proof (legal_iok sp _ _ _ L KO) as Gko. pose proof (legal_ich sp _ _ _ L CO) as Gco.
  pose proof (is_geom1d_sub _ _ _ Gk Gc T1) as G1. pose proof (is_geom1d_sub _ _ _ G1 Gko T2) as G2. pose proof (is_geom1d_sub _ _ _ G2 Gco T3) as G3.
  pose proof (is_geom1d_buffer _ _ _ (is_geom1d_buffer _ _ _ G3 T4) T5) as Gt. pose proof (is_geom1d_sub _ _ _ G3 Gt SM) as Gs.
  apply dgetr_ok in K, C, KO, CO. assert (E1 : ok_of sb (is_id s) = k) by now apply opt_get. assert (E2 : chosen_of sb (is_id s) = c) by now apply opt_get.
  assert (E3 : ok_of sb (is_id o) = ko) by now apply opt_get. assert (E4 : chosen_of sb (is_id o) = co) by now apply opt_get.
  assert (PO : forall x, pts orig x <-> one_sided sb (is_id s) (is_id o) x).
  { intros x. unfold one_sided. rewrite E1, E2, E3, E4. apply is_geom1d_normal in Gk, Gc, Gko, Gco, G1, G2. rewrite (sub_pts _ _ _ x G2 Gco T3), (sub_pts _ _ _ x G1 Gko T2), (sub_pts _ _ _ x Gk Gc T1). tauto. }
  assert (PT : forall x, pts t x <-> in_long (qq 1 50) (one_sided sb (is_id s) (is_id o)) x).
  { intros x. assert (P : 0 < qq 1 100) by reflexivity. pose proof (is_geom1d_normal _ G3) as N3. rewrite (open_pts orig (qq 1 100) t4 t x P N3 T4 T5). unfold in_long.
    assert (E : qq 1 100 + qq 1 100 = qq 1 50) by (apply Qc_is_canon; reflexivity). rewrite E. split; intros (a & b & X1 & X2 & X3 & X4); exists a, b; (do 3 (split; [assumption|])); intros y Y1 Y2; apply PO; auto. }
  assert (PS : forall x, pts sm x <-> one_sided sb (is_id s) (is_id o) x /\ ~ in_long (qq 1 50) (one_sided sb (is_id s) (is_id o)) x).
  { intros x. apply is_geom1d_normal in G3, Gt. rewrite (sub_pts _ _ _ x G3 Gt SM), PO, PT. tauto. }
  assert (LONG : forall x, pts t x -> one_sided sb (is_id s) (is_id o) x) by (intros x X; apply PT in X as (a & b & X1 & X2 & _ & X3); exact (X3 x X1 X2)).
  assert (MP : plex_made (sb_plex sb)) by now rewrite EP. destruct (choose_local A sb (is_id s) t false sb1 MP (legal_legal1 sp sb L) Gt S1) as (s' & o' & (Js' & Jo') & ES & EP1 & C1 & C2 & K1 & K2 & _).
  rewrite EP in Js', Jo'. pose proof (made_unique sp s' s M Js' Js ES) as ->. rewrite Jo in Jo'. apply Ok_inv in Jo' as <-.
  pose proof (legal_steps A sp M _ _ L (one_choose A (Kc:=geoms_of A) sb _ t false sb1 Gt S1)) as L1. assert (MP1 : plex_made (sb_plex sb1)) by now rewrite EP1.
  destruct (unchoose_local sb1 (is_id s) sm sb2 MP1 (legal_legal1 sp sb1 L1) Gs S2) as (_ & U1 & _ & _ & _ & U2 & U3). split; [exact (legal_steps A sp M _ _ L1 (one_unchoose A (Kc:=geoms_of A) sb1 _ sm sb2 Gs S2))|].
  destruct (made_opp sp s M Js) as (o' & O1 & _ & _ & NE & _). rewrite Jo in O1. apply Ok_inv in O1 as <-.
  intros j x. split.
  - assert (E : chosen_of sb2 j = chosen_of sb1 j) by (unfold chosen_of; now rewrite U1). rewrite E. destruct (eqb_case _ id2_eqb_ok j (is_id s)) as [(_ & ->)|(_ & N1)]; [rewrite C2, PT; tauto|].
    assert (E' : chosen_of sb1 j = chosen_of sb j) by now apply (only_of _ _ _ _ C1). rewrite E'. tauto.
  - destruct (eqb_case _ id2_eqb_ok j (is_id s)) as [(_ & ->)|(_ & N1)].
    + rewrite U3, PS. assert (E' : ok_of sb1 (is_id s) = ok_of sb (is_id s)) by (apply (only_of _ _ _ _ K1); congruence). rewrite E'. tauto.
    + assert (E' : ok_of sb2 j = ok_of sb1 j) by now apply (only_of _ _ _ _ U2). rewrite E'. destruct (eqb_case _ id2_eqb_ok j (is_id o)) as [(_ & ->)|(_ & N2)].
      * rewrite K2. split; [intros (X & _); split; [auto|intros (Y & _); congruence]|]. intros (X & _). split; [auto|]. intros T. apply LONG in T as (_ & _ & T & _). auto.
      * assert (E2' : ok_of sb1 j = ok_of sb j) by now apply (only_of _ _ _ _ K1). rewrite E2'. tauto.
Qed.
Lemma in_long_ext l P Q x : (forall y, P y <-> Q y) -> in_long l P x <-> in_long l Q x.
Proof. intros H. unfold in_long. split; intros (a & b & X1 & X2 & X3 & X4); exists a, b; (do 3 (split; [assumption|])); intros y Y1 Y2; apply H; auto. Qed.
Lemma in_long_sub l P x : in_long l P x -> P x.
Proof. intros (a & b & X1 & X2 & _ & X3). exact (X3 x X1 X2). Qed.
Lemma one_sided_dec sb i j x : one_sided sb i j x \/ ~ one_sided sb i j x.
Proof.
  unfold one_sided. destruct (pts_dec (ok_of sb i) x); [|tauto]. destruct (pts_dec (chosen_of sb i) x); [tauto|]. destruct (pts_dec (ok_of sb j) x); [tauto|]. destruct (pts_dec (chosen_of sb j) x); tauto.
Qed.
(** what the sides processed so far have done *)
Definition dealt (sb : sbuild) (done : list id2) (sb' : sbuild) : Prop := forall s o, joint sp s o -> forall x,
  (pts (chosen_of sb' (is_id s)) x <-> pts (chosen_of sb (is_id s)) x \/ (In (is_id s) done /\ in_long (qq 1 50) (one_sided sb (is_id s) (is_id o)) x)) /\
  (pts (ok_of sb' (is_id s)) x <-> pts (ok_of sb (is_id s)) x /\
     ~ (In (is_id s) done /\ one_sided sb (is_id s) (is_id o) x /\ ~ in_long (qq 1 50) (one_sided sb (is_id s) (is_id o)) x)).
Lemma joint_sym s o : joint sp s o -> joint sp o s.
Proof. intros (Hs & Ho). destruct (made_opp sp s M Hs) as (o' & O1 & O2 & O3 & _). rewrite Ho in O1. apply Ok_inv in O1 as <-. split; auto. Qed.
Lemma id2_dec (a b : id2) : {a = b} + {a <> b}.
Proof. decide equality; apply string_dec. Qed.
Lemma dealt_step sb done st s st' : legal sp (fst st) -> side_of sp s -> dealt sb done (fst st) -> choose_only_ok A st s = Ok st' ->
  legal sp (fst st') /\ dealt sb (is_id s :: done) (fst st').
Proof.
  intros L Hs D H. destruct (made_opp sp s M Hs) as (o & O1 & _). assert (J : joint sp s o) by (split; auto). pose proof (joint_sym s o J) as J'.
  destruct (only_ok_step st s o st' L J H) as (L' & F). split; [exact L'|].
  assert (LS : forall y, in_long (qq 1 50) (one_sided sb (is_id s) (is_id o)) y -> one_sided sb (is_id s) (is_id o) y) by (intros y; apply in_long_sub).
  assert (LO : forall y, in_long (qq 1 50) (one_sided sb (is_id o) (is_id s)) y -> one_sided sb (is_id o) (is_id s) y) by (intros y; apply in_long_sub).
  assert (OS : forall y, one_sided (fst st) (is_id s) (is_id o) y <-> one_sided sb (is_id s) (is_id o) y /\ ~ In (is_id s) done).
  { intros y. destruct (D s o J y) as (A1 & A2). destruct (D o s J' y) as (B1 & B2). specialize (LS y). specialize (LO y). unfold one_sided at 1. rewrite A1, A2, B1, B2. clear A1 A2 B1 B2.
    revert LS LO. generalize (in_long (qq 1 50) (one_sided sb (is_id s) (is_id o)) y). generalize (in_long (qq 1 50) (one_sided sb (is_id o) (is_id s)) y). intros Q P LS LO. unfold one_sided in *.
    destruct (in_dec id2_dec (is_id s) done); tauto. }
  intros s' o' J2 x. destruct (F (is_id s') x) as (F1 & F2). destruct (D s' o' J2 x) as (D1 & D2). rewrite F1, F2, D1, D2. clear F1 F2 D1 D2. cbn [In].
  destruct (id2_dec (is_id s') (is_id s)) as [E|N].
  - destruct J2 as (Hs' & Ho'). pose proof (made_unique sp s' s M Hs' Hs E) as ->. rewrite O1 in Ho'. apply Ok_inv in Ho' as <-.
    destruct (in_dec id2_dec (is_id s) done) as [I|I].
    + assert (Z : ~ in_long (qq 1 50) (one_sided (fst st) (is_id s) (is_id o)) x) by (intros Z; apply in_long_sub in Z; apply OS in Z; tauto). rewrite OS. tauto.
    + assert (Z : in_long (qq 1 50) (one_sided (fst st) (is_id s) (is_id o)) x <-> in_long (qq 1 50) (one_sided sb (is_id s) (is_id o)) x) by (apply in_long_ext; intros y; rewrite OS; tauto).
      rewrite Z, OS. tauto.
  - assert (N' : ~ is_id s = is_id s') by auto. tauto.
Qed.
Lemma dealt_nil sb : dealt sb [] sb.
Proof. intros s o _ x. cbn [In]. tauto. Qed.
Lemma dealt_all sb l : forall done st st', legal sp (fst st) -> (forall s, In s l -> side_of sp s) -> dealt sb done (fst st) -> foldM (choose_only_ok A) l st = Ok st' ->
  legal sp (fst st') /\ dealt sb (rev (map is_id l) ++ done) (fst st').
Proof.
  induction l as [|s l IH]; intros done st st' L S D H; cbn [foldM map rev app] in *; [apply Ok_inv in H as <-; auto|]. apply bind_ok in H as (st1 & H1 & H).
  destruct (dealt_step sb done st s st1 L (S s (or_introl eq_refl)) D H1) as (L1 & D1). rewrite <- app_assoc. cbn [app]. exact (IH _ st1 st' L1 (fun x I => S x (or_intror I)) D1 H).
Qed.
End C.

(** ** Chosen ranges grow and ok ranges shrink *)
Section G.
Variable A : arr_impl.
Variable sp : sheetplex.
Hypothesis M : plex_made sp.
Definition moves (a b : sbuild) : Prop := forall id x, (pts (chosen_of a id) x -> pts (chosen_of b id) x) /\ (pts (ok_of b id) x -> pts (ok_of a id) x).
Lemma moves_refl a : moves a a.
Proof. intros id x. auto. Qed.
Lemma moves_trans a b c : moves a b -> moves b c -> moves a c.
Proof. intros H1 H2 id x. destruct (H1 id x), (H2 id x). auto. Qed.
Lemma moves_shrink a b id v : is_geom1d v -> is_geom1d (ok_of a id) -> sb_ichosen b = sb_ichosen a -> (exists k r, dget id2_eqb id (sb_iok a) = Some k /\ g_sub k v = Ok r /\ sb_iok b = dset id2_eqb id r (sb_iok a)) -> moves a b.
Proof.
  intros V G E (k & r & K & R & RE) j x. split; [unfold chosen_of; now rewrite E|]. rewrite (ok_dset _ _ _ _ j RE). destruct (eqb_case _ id2_eqb_ok j id) as [(-> & ->)|(-> & _)]; [|auto].
  assert (E' : ok_of a id = k) by now apply opt_get. rewrite E' in *. apply is_geom1d_normal in V, G. intros X. now apply (sub_pts _ _ _ _ G V R) in X.
Qed.
Lemma step_moves {Kc} a b : legal sp a -> sstep A Kc a b -> moves a b.
Proof.
  intros L T. pose proof L as [P _ N _]. destruct T as [sb i v t sb' V H|sb i v sb' V H|sb i v iok V H|sb k a sok _ _].
  - assert (MP : plex_made (sb_plex sb)) by now rewrite P. destruct (choose_local A sb i v t sb' MP (legal_legal1 sp sb L) V H) as (s & o & _ & _ & _ & C1 & C2 & K1 & K2 & _). intros j x. split.
    + destruct (eqb_case _ id2_eqb_ok j i) as [(_ & ->)|(_ & N1)]; [rewrite C2; auto|]. assert (E : chosen_of sb' j = chosen_of sb j) by now apply (only_of _ _ _ _ C1). now rewrite E.
    + destruct (eqb_case _ id2_eqb_ok j (is_id o)) as [(_ & ->)|(_ & N1)]; [rewrite K2; tauto|]. assert (E : ok_of sb' j = ok_of sb j) by now apply (only_of _ _ _ _ K1). now rewrite E.
  - apply unchoose_inv in H as (s & [C1 C2 _ _ _ C6 K]). exact (moves_shrink sb sb' (is_id s) v V (proj2 (N _)) C6 K).
  - apply msub1_ok in H as (k & r & K & R & ->). apply (moves_shrink sb _ i v V (proj2 (N i))); [reflexivity|]. exists k, r. auto.
  - intros id x. unfold chosen_of, ok_of. cbn. auto.
Qed.
Lemma steps_move {Kc} a b : legal sp a -> ssteps A Kc a b -> moves a b.
Proof. intros L H. induction H as [|x y z S IH T]; [apply moves_refl|]. exact (moves_trans _ _ _ (IH L) (step_moves _ _ (legal_steps A sp M _ _ L S) T)). Qed.

(** [x] is chosen by one of the two sides or ok for one *)
Definition covered (sb : sbuild) (i j : id2) (x : Qc) : Prop := pts (chosen_of sb i) x \/ pts (chosen_of sb j) x \/ pts (ok_of sb i) x \/ pts (ok_of sb j) x.
Lemma choose_covered sb id v t sb' s o x : legal sp sb -> is_geom1d v -> choose_interside A sb id v t = Ok sb' -> joint sp s o -> covered sb (is_id s) (is_id o) x -> covered sb' (is_id s) (is_id o) x.
Proof.
  intros L V H J X. pose proof (step_moves sb sb' L (st_choose A (geoms_of A) sb id v t sb' V H)) as MV. assert (MP : plex_made (sb_plex sb)) by now rewrite (iv_plex sp sb L).
  destruct (choose_local A sb id v t sb' MP (legal_legal1 sp sb L) V H) as (s1 & o1 & J1 & E1 & _ & C1 & C2 & K1 & K2 & _). rewrite (iv_plex sp sb L) in J1. subst id.
  assert (OK : forall s o, joint sp s o -> pts (ok_of sb (is_id s)) x -> pts (ok_of sb' (is_id s)) x \/ pts (chosen_of sb' (is_id o)) x).
  { clear X J s o. intros s o J X. destruct (eqb_case _ id2_eqb_ok (is_id s) (is_id o1)) as [(_ & E)|(_ & N1)]; [|left; unfold ok_of; rewrite (K1 _ N1); exact X].
    pose proof (joint_sym sp M _ _ J1) as J1'. assert (s = o1) by (apply (made_unique sp); auto; [apply J|apply J1']). subst s. destruct J as (_ & J). destruct J1' as (_ & J1'). rewrite J in J1'. apply Ok_inv in J1' as ->.
    rewrite K2, C2. destruct (pts_dec v x); auto. }
  unfold covered in *. pose proof (OK s o J). pose proof (OK o s (joint_sym sp M _ _ J)). destruct (MV (is_id s) x). destruct (MV (is_id o) x). tauto.
Qed.
Lemma random_covered fl R mn mx st st' s o x : legal sp (fst st) -> single_fingers_random A fl R mn mx st = Ok st' -> joint sp s o ->
  covered (fst st) (is_id s) (is_id o) x -> covered (fst st') (is_id s) (is_id o) x.
Proof.
  intros L H J. unfold single_fingers_random in H. apply bind_ok in H as ((sb & ci) & H1 & H). apply hcheck_ok in H1. cbn [fst] in H1. subst sb.
  apply bind_ok in H as ((sb & k) & H2 & H). apply Ok_inv in H as <-. cbn [fst].
  set (P := fun b : sbuild => legal sp b /\ (covered (fst st) (is_id s) (is_id o) x -> covered b (is_id s) (is_id o) x)).
  assert (PC : forall b id v t b', is_geom1d v -> P b -> choose_interside A b id v t = Ok b' -> P b').
  { intros b id v t b' V (Lb & Hb) C. split; [exact (legal_steps A sp M _ _ Lb (one_choose A (Kc:=geoms_of A) _ _ _ _ _ V C))|]. intros X. exact (choose_covered b id v t b' s o x Lb V C J (Hb X)). }
  enough (P sb) by (unfold P in *; tauto).
  assert (F : forall l (a : sbuild * nat) a', P (fst a) -> foldM (fingers_inter A fl R mn mx) l a = Ok a' -> P (fst a')).
  { clear H2 L sb J. clearbody P. clear -PC. induction l as [|it l IH]; intros a a' Pa H; cbn [foldM] in H; [apply Ok_inv in H as <-; auto|]. apply bind_ok in H as (a1 & H1 & H). refine (IH a1 a' _ H). clear H IH.
    unfold fingers_inter in H1. destruct (it_sides it) as [|s0 [|s2 [|]]]; try discriminate. do 6 (apply bind_ok in H1 as (? & ? & H1)). apply bind_ok in H1 as (? & ? & H1). apply bind_ok in H1 as (? & ? & H1). clear -H1 Pa PC.
    revert a Pa H1. generalize x3 as ivs. intros ivs. induction ivs as [|i ivs IH]; intros a Pa H1; cbn [foldM] in H1; [apply Ok_inv in H1 as <-; auto|]. apply bind_ok in H1 as (a' & H & H1). refine (IH a' _ H1). clear H1 IH.
    destruct a as [sb kk]. unfold fingers_range in H. destruct i as [[|u|] [|w|]]; try discriminate. cbn [fst] in *.
    apply bind_ok in H as (g & G & H). apply is_geom1d_new in G. apply bind_ok in H as (on0 & _ & H). apply bind_ok in H as (on1 & _ & H). apply bind_ok in H as ((pl & k') & PL & H). destruct pl as [(f0 & f1)|].
    - apply bind_ok in H as (sb1 & C1 & H). apply bind_ok in H as (sb2 & C2 & H). apply Ok_inv in H as <-. cbn [fst]. destruct (plan_geom _ _ _ _ _ _ _ _ _ _ _ _ PL) as (G0 & G1). exact (PC _ _ _ _ _ G1 (PC _ _ _ _ _ G0 Pa C1) C2).
    - apply bind_ok in H as (sb' & H & H'). apply Ok_inv in H' as <-. exact (PC _ _ _ _ _ G Pa H). }
  exact (F _ (fst st, O) (sb, k) (conj L (fun X => X)) H2).
Qed.
End G.

(** ** Clusters of interactions *)
Lemma Forall2_in {X Y} (P : X -> Y -> Prop) l l' x : Forall2 P l l' -> In x l -> exists y, In y l' /\ P x y.
Proof. induction 1 as [|a b l l' H F IH]; intros []; [subst; exists b; split; [now left|auto]|]. destruct (IH H0) as (y & I & Py). exists y. split; [now right|auto]. Qed.
Lemma Forall2_nth {X Y} (P : X -> Y -> Prop) l l' n x : Forall2 P l l' -> nth_error l n = Some x -> exists y, nth_error l' n = Some y /\ P x y.
Proof. intros F. revert n. induction F as [|a b l l' H F IH]; intros [|n] E; try discriminate; [cbn in *; apply some_inv in E as <-; eauto|]. exact (IH n E). Qed.
Section D.
Variable A : arr_impl.
Variable fsqrt : Qc -> Qc.
Variable sp : sheetplex.
Hypothesis M : plex_made sp.
Variable ord : dict string geom1d -> dict string geom1d.
Variable sord : list string -> list string.
Hypothesis ORD : forall c, Permutation c (ord c).

Lemma inters_unique k a b : In (k, a) (sp_inters sp) -> In (k, b) (sp_inters sp) -> a = b.
Proof.
  intros Ia Ib. destruct M as (fr & sp0 & F & C). destruct (created fr sp0 sp F C) as (_ & ND & _).
  apply (dget_nodup _ string_eqb_ok) in Ia; [|exact ND]. apply (dget_nodup _ string_eqb_ok) in Ib; [|exact ND]. rewrite Ia in Ib. now apply some_inv in Ib.
Qed.
Lemma sheets_named k sh : dget String.eqb k (sp_sheets sp) = Some sh -> sh_id sh = k.
Proof.
  intros H. destruct M as (fr & sp0 & F & C). destruct (created fr sp0 sp F C) as (E & _). rewrite E in H. apply (dget_in _ string_eqb_ok) in H. destruct F as (_ & _ & F). now apply F in H.
Qed.
(** all that is left ok in the ranges of the cluster belongs to the sheet [C], which has chosen it *)
Definition settled (C : string) (cl : cluster) (sb : sbuild) : Prop := forall s x, side_of sp s -> cpts cl (is_inter s) x -> pts (ok_of sb (is_id s)) x ->
  is_sheet s = C /\ pts (chosen_of sb (is_id s)) x.
Lemma settled_moves C cl a b : settled C cl a -> moves a b -> settled C cl b.
Proof. intros H MV s x Hs X K. destruct (MV (is_id s) x) as (M1 & M2). destruct (H s x Hs X (M2 K)). auto. Qed.
Lemma by_sheet_get l : forall m S s, In s (match dget String.eqb S (fold_left by_sheet l m) with Some x => x | None => [] end) <->
  In s (match dget String.eqb S m with Some x => x | None => [] end) \/ (In s l /\ is_sheet s = S).
Proof.
  induction l as [|t l IH]; intros m S s; cbn [fold_left In]; [tauto|]. rewrite IH. unfold by_sheet. rewrite (dget_dset _ string_eqb_ok). destruct (eqb_case _ string_eqb_ok S (is_sheet t)) as [(-> & ->)|(-> & N)].
  - rewrite in_app_iff. cbn [In]. split; [intros [[X|[<-|[]]]|(X & Y)]; auto|intros [X|([<-|X] & Y)]; auto].
  - split; [intros [X|(X & Y)]; auto|intros [X|([<-|X] & Y)]; auto]. congruence.
Qed.
(** the extra connection only enlarges the cluster *)
Lemma extra_larger sb l : forall cl c, legal sp sb -> cl_ok cl -> cgeom cl -> find_extra sb cl l = Ok (Some c) -> cl_ok c /\ (forall j x, cpts cl j x -> cpts c j x).
Proof.
  induction l as [|s l IH]; intros cl c L O G H; cbn [find_extra] in H; [discriminate|].
  apply bind_ok in H as (it & _ & H). apply bind_ok in H as (dr & D & H). apply bind_ok in H as (mr & _ & H). apply bind_ok in H as (k & _ & H). apply bind_ok in H as (mr2 & _ & H). apply bind_ok in H as (mr3 & _ & H).
  destruct (rev _) as [|i r]; [exact (IH cl c L O G H)|]. destruct (opt_ltb _ _); [exact (IH cl c L O G H)|].
  apply bind_ok in H as (p & P & H). apply bind_ok in H as (g & GG & H). apply bind_ok in H as (x & X & H). apply Ok_inv in H. apply some_inv in H as <-.
  pose proof (is_geom1d_normal _ (cgeom_get _ _ _ G P)) as Np. pose proof (is_geom1d_normal _ (is_geom1d_new _ _ GG)) as Ng.
  split; [apply cl_ok_dset; [auto|exact (or_nml _ _ _ Np Ng X)]|]. intros j y Y. rewrite cpts_dset. destruct (eqb_case _ string_eqb_ok j (is_inter s)) as [(-> & ->)|(-> & _)]; [|auto].
  apply dgetr_ok in P. apply (cpts_get _ _ _ _ P) in Y. apply (or_pts _ _ _ _ Np Ng X). auto.
Qed.
Lemma fold_keep {X} (f : sbuild -> X -> result sbuild) (Q : X -> sbuild -> Prop) l :
  (forall sb x sb', In x l -> legal sp sb -> f sb x = Ok sb' -> ssteps A (geoms_of A) sb sb' /\ Q x sb') -> (forall x a b, Q x a -> moves a b -> Q x b) ->
  forall sb sb', legal sp sb -> foldM f l sb = Ok sb' -> moves sb sb' /\ legal sp sb' /\ forall x, In x l -> Q x sb'.
Proof.
  induction l as [|x l IH]; intros F MQ sb sb' L H; cbn [foldM] in H; [apply Ok_inv in H as <-; split; [apply moves_refl|]; split; [auto|intros ? []]|].
  apply bind_ok in H as (s1 & H1 & H). destruct (F sb x s1 (or_introl eq_refl) L H1) as (S1 & Q1). pose proof (legal_steps A sp M _ _ L S1) as L1.
  destruct (IH (fun a b c I => F a b c (or_intror I)) MQ s1 sb' L1 H) as (M2 & L2 & Q2). split; [exact (moves_trans _ _ _ (steps_move A sp M _ _ L S1) M2)|]. split; [auto|].
  intros y [<-|I]; [exact (MQ _ _ _ Q1 M2)|auto].
Qed.
(** the area a sheet offers to a cluster: the union of the fingers of its sides on the cluster *)
Definition sides_on (cl : cluster) (S : string) : list interside :=
  filter (fun s => String.eqb (is_sheet s) S) (flat_map (fun e => match dget String.eqb (fst e) (sp_inters sp) with Some it => it_sides it | None => [] end) (ord cl)).
Definition offered (sb : sbuild) (cl : cluster) (S : string) (a : Qc) : Prop := exists fs u,
  Forall2 (fun s f => exists r, g_and (opt (dget String.eqb (is_inter s) cl)) (ok_of sb (is_id s)) = Ok r /\ make_fingers01 A s r = Ok f) (sides_on cl S) fs /\
  foldM (g2_or A) fs g2_empty = Ok u /\ g2_area u = Ok a.
Lemma by_sheet_filter l : forall m S, match dget String.eqb S (fold_left by_sheet l m) with Some x => x | None => [] end =
  (match dget String.eqb S m with Some x => x | None => [] end) ++ filter (fun s => String.eqb (is_sheet s) S) l.
Proof.
  induction l as [|t l IH]; intros m S; cbn [fold_left filter]; [now rewrite app_nil_r|]. rewrite IH. unfold by_sheet. rewrite (dget_dset _ string_eqb_ok), (String.eqb_sym (is_sheet t) S). destruct (String.eqb_spec S (is_sheet t)) as [->|N]; [|reflexivity].
  now rewrite <- app_assoc.
Qed.
Lemma by_sheet_keys l : forall m s, In s l \/ In (is_sheet s) (keys m) -> In (is_sheet s) (keys (fold_left by_sheet l m)).
Proof.
  induction l as [|t l IH]; intros m s H; cbn [fold_left In] in *; [tauto|]. apply IH. unfold by_sheet. rewrite (in_keys_dset _ string_eqb_ok). destruct H as [[->|H]|H]; auto.
Qed.
Lemma argmax_loop_ok l : forall best bv i pre, nth_error (pre ++ l) best = Some bv -> List.length pre = i -> (forall w, In w pre -> w <= bv) ->
  exists v, nth_error (pre ++ l) (argmax_loop best bv i l) = Some v /\ forall w, In w (pre ++ l) -> w <= v.
Proof.
  induction l as [|a l IH]; intros best bv i pre H LN B; cbn [argmax_loop].
  - exists bv. rewrite app_nil_r in *. auto.
  - assert (E : pre ++ a :: l = (pre ++ [a]) ++ l) by now rewrite <- app_assoc. destruct (qltb_spec bv a) as [X|X].
    + rewrite E. apply IH; [rewrite <- E, nth_error_app2 by lia; now rewrite LN, Nat.sub_diag|rewrite app_length; cbn; lia|]. intros w W. apply in_app_iff in W as [W|[<-|[]]]; [apply B in W; qlra|apply Qcle_refl].
    + rewrite E in *. apply IH; [exact H|rewrite app_length; cbn; lia|]. intros w W. apply in_app_iff in W as [W|[<-|[]]]; [auto|qlra].
Qed.
Lemma argmax_ok l n : argmax l = Ok n -> exists v, nth_error l n = Some v /\ forall w, In w l -> w <= v.
Proof.
  destruct l as [|v l]; [discriminate|]. intros H. apply Ok_inv in H as <-. apply (argmax_loop_ok l 0%nat v 1%nat [v]); [reflexivity|reflexivity|]. intros w [<-|[]]. apply Qcle_refl.
Qed.
Lemma offer_offered sb cl its sh a ne : legal sp sb -> mapM (fun k => dgetr String.eqb k (sp_inters sp)) (keys (ord cl)) = Ok its ->
  sheet_offer A fsqrt sb cl (fold_left by_sheet (flat_map it_sides its) []) sh = Ok (a, ne) -> offered sb cl (sh_id sh) a.
Proof.
  intros L ITS H. unfold sheet_offer in H. rewrite by_sheet_filter in H. cbn [dget app] in H.
  assert (EQ : flat_map it_sides its = flat_map (fun e => match dget String.eqb (fst e) (sp_inters sp) with Some it => it_sides it | None => [] end) (ord cl)).
  { apply PyP.mapM_ok in ITS. unfold keys in ITS. revert ITS. generalize (ord cl) as l. clear. intros l. revert its. induction l as [|e l IH]; intros its F; cbn [map] in F; inversion F as [|? it ? its' E F']; subst; [reflexivity|]. cbn [flat_map]. apply dgetr_ok in E. rewrite E. now rewrite (IH _ F'). }
  rewrite EQ in H. fold (sides_on cl (sh_id sh)) in H. apply bind_ok in H as (u & U & H). apply bind_ok in H as (a' & AR & H). apply bind_ok in H as (fb & _ & H). apply bind_ok in H as (c & _ & H). apply bind_ok in H as (x & _ & H). apply bind_ok in H as (b & _ & H).
  apply Ok_inv in H. apply pair_inv in H as (-> & _). clear EQ.
  assert (G : forall l u0 u, foldM (fun fingers s => c <- gcl (is_inter s) cl ;; k <- iget (is_id s) (sb_iok sb) ;; r <- g_and c k ;; f <- make_fingers01 A s r ;; g2_or A fingers f) l u0 = Ok u ->
    exists fs, Forall2 (fun s f => exists r, g_and (opt (dget String.eqb (is_inter s) cl)) (ok_of sb (is_id s)) = Ok r /\ make_fingers01 A s r = Ok f) l fs /\ foldM (g2_or A) fs u0 = Ok u).
  { clear. induction l as [|s l IH]; intros u0 u H; cbn [foldM] in H; [exists []; split; [constructor|exact H]|]. apply bind_ok in H as (u1 & H1 & H). destruct (IH u1 u H) as (fs & F & E).
    apply bind_ok in H1 as (c & C & H1). apply bind_ok in H1 as (k & K & H1). apply bind_ok in H1 as (r & Rr & H1). apply bind_ok in H1 as (f & Ff & H1). apply dgetr_ok in C, K.
    exists (f :: fs). split; [constructor; [|exact F]|cbn [foldM]; rewrite H1; exact E]. exists r. assert (E1 : opt (dget String.eqb (is_inter s) cl) = c) by now apply opt_get. assert (E2 : ok_of sb (is_id s) = k) by now apply opt_get. rewrite E1, E2. auto. }
  destruct (G _ _ _ U) as (fs & F & E). exists fs, u. auto.
Qed.
Lemma decide_settles st cl st' : legal sp (fst st) -> cl_ok cl -> cgeom cl -> decide_cluster A fsqrt ord sord st cl = Ok st' -> exists C, settled C cl (fst st') /\
  ((forall l, Permutation l (sord l)) -> exists a, offered (fst st) cl C a /\ forall e it s, In e cl -> In (fst e, it) (sp_inters sp) -> In s (it_sides it) -> exists a', offered (fst st) cl (is_sheet s) a' /\ a' <= a).
Proof.
  intros L O G H. destruct st as [sb ci]. unfold decide_cluster in H. cbn [fst] in *. rewrite (iv_plex sp sb L) in H. apply bind_ok in H as (its & ITS & H). apply bind_ok in H as (shs & SHS & H). apply bind_ok in H as (off & OFF & H). apply bind_ok in H as (ch & CH & H).
  destruct (nth_error shs ch) as [sh|] eqn:ESH; [|discriminate]. destruct (nth_error off ch) as [(a & ne)|] eqn:EOF; [|discriminate]. apply bind_ok in H as (cl' & H1 & H).
  assert (LG : cl_ok cl' /\ cgeom cl' /\ forall j x, cpts cl j x -> cpts cl' j x).
  { destruct ne; [|apply Ok_inv in H1 as <-; auto]. apply bind_ok in H1 as ([c|] & H1 & H2); [|discriminate]. apply Ok_inv in H2 as <-. destruct (extra_larger _ _ _ _ L O G H1) as (X & Y).
    split; [auto|]. split; [exact (extra_geom sp sb _ _ _ L G H1)|auto]. }
  destruct LG as (O' & G' & LG). clear H1. apply bind_ok in H as ((sb0 & ci0) & H1 & H). apply hcheck_ok in H1. cbn [fst] in H1. subst sb0. apply bind_ok in H as (sb1 & H1 & H). apply bind_ok in H as (sb2 & H2 & H). apply hcheck_ok in H. rewrite H. cbn [fst]. clear H.
  set (l := match dget String.eqb (sh_id sh) (fold_left by_sheet (flat_map it_sides its) []) with Some l => l | None => [] end) in *.
  destruct (fold_keep (choose_side A cl') (fun s b => forall x, cpts cl' (is_inter s) x -> pts (ok_of b (is_id s)) x -> pts (chosen_of b (is_id s)) x) l) with (sb := sb) (sb' := sb1) as (M1 & L1 & Q1); [| |exact L|exact H1|].
  { intros b s b' _ Lb Hb. unfold choose_side in Hb. apply bind_ok in Hb as (c & C & Hb). apply bind_ok in Hb as (k & K & Hb). apply bind_ok in Hb as (r & Rr & Hb).
    pose proof (cgeom_get _ _ _ G' C) as Gc. pose proof (legal_iok sp _ _ _ Lb K) as Gk. pose proof (is_geom1d_and _ _ _ Gc Gk Rr) as Gr. pose proof (one_choose A (Kc:=geoms_of A) _ _ _ _ _ Gr Hb) as SS. split; [exact SS|].
    intros x X Y. pose proof (proj2 (steps_move A sp M _ _ Lb SS (is_id s) x) Y) as Y'. assert (MP : plex_made (sb_plex b)) by now rewrite (iv_plex sp b Lb).
    destruct (choose_local A b (is_id s) r false b' MP (legal_legal1 sp b Lb) Gr Hb) as (s1 & o1 & _ & _ & _ & _ & C2 & _). apply C2. right. apply dgetr_ok in C, K.
    apply (and_pts _ _ _ _ (is_geom1d_normal _ Gc) (is_geom1d_normal _ Gk) Rr). split; [now apply (cpts_get _ _ _ _ C)|]. assert (E : ok_of b (is_id s) = k) by now apply opt_get. now rewrite <- E. }
  { intros s b b' Q MV x X Y. apply (MV (is_id s) x). apply Q; [exact X|]. now apply (MV (is_id s) x). }
  destruct (fold_keep (unchoose_others (sh_id sh)) (fun e b => forall s x, side_of sp s -> is_inter s = fst e -> is_sheet s <> sh_id sh -> pts (snd e) x -> ~ pts (ok_of b (is_id s)) x) (ord cl')) with (sb := sb1) (sb' := sb2) as (M2 & L2 & Q2); [| |exact L1|exact H2|].
  { intros b (j & r) b' I Lb Hb. apply (Permutation_in _ (Permutation_sym (ORD cl'))) in I. pose proof (G' _ _ I) as Gr. unfold unchoose_others in Hb. cbn [fst snd] in *. apply bind_ok in Hb as (it & IT & Hb). rewrite (iv_plex sp b Lb) in IT. apply dgetr_ok in IT. apply (dget_in _ string_eqb_ok) in IT.
    destruct (fold_keep (fun b s => if String.eqb (is_sheet s) (sh_id sh) then Ok b else unchoose_interside b (is_id s) r) (fun s b => is_sheet s <> sh_id sh -> forall x, pts r x -> ~ pts (ok_of b (is_id s)) x) (it_sides it)) with (sb := b) (sb' := b') as (_ & _ & QQ); [| |exact Lb|exact Hb|].
    - intros c t c' _ Lc Hc. destruct (String.eqb_spec (is_sheet t) (sh_id sh)) as [E|N]; [apply Ok_inv in Hc as <-; split; [constructor|congruence]|]. split; [exact (one_unchoose A (Kc:=geoms_of A) _ _ _ _ Gr Hc)|]. intros _ x X.
      assert (MP : plex_made (sb_plex c)) by now rewrite (iv_plex sp c Lc). destruct (unchoose_local c (is_id t) r c' MP (legal_legal1 sp c Lc) Gr Hc) as (_ & _ & _ & _ & _ & _ & U). rewrite U. tauto.
    - intros t c c' Q MV N x X Y. apply (Q N x X). now apply (MV (is_id t) x).
    - split.
      + refine (fold_steps A sp M _ _ _ _ _ Lb Hb). intros t x t' _ Lt Ht. cbn beta in Ht. destruct (String.eqb _ _); [apply Ok_inv in Ht as <-; constructor|]. exact (one_unchoose A (Kc:=geoms_of A) _ _ _ _ Gr Ht).
      + intros s x (k & it' & I' & Is) E N X. destruct (made_sides sp k it' s M I' Is) as (E1 & _). rewrite E in E1. subst k. assert (it' = it) by (exact (inters_unique j it' it I' IT)). subst it'. exact (QQ s Is N x X). }
  { intros e b b' Q MV s x Hs E N X Y. apply (Q s x Hs E N X). now apply (MV (is_id s) x). }
  exists (sh_id sh). split; cycle 1.
  { intros SORD. exists a. apply PyP.mapM_ok in OFF, SHS. split.
    - destruct (Forall2_nth _ _ _ _ _ OFF ESH) as (q & Eq & Hq). rewrite EOF in Eq. apply some_inv in Eq as <-. exact (offer_offered sb cl its sh a ne L ITS Hq).
    - intros e it s Ie Iit Is. destruct (argmax_ok _ _ CH) as (v & Ev & MX). rewrite nth_error_map, EOF in Ev. cbn [option_map fst] in Ev. apply some_inv in Ev as <-.
      assert (IK : In (is_sheet s) (sord (keys (fold_left by_sheet (flat_map it_sides its) [])))).
      { apply (Permutation_in _ (SORD _)). apply by_sheet_keys. left. apply in_flat_map. exists it. split; [|exact Is]. apply PyP.mapM_ok in ITS.
        assert (IK : In (fst e) (keys (ord cl))) by (unfold keys; apply in_map; exact (Permutation_in _ (ORD cl) Ie)). destruct (Forall2_in _ _ _ _ ITS IK) as (it' & I2 & E2). apply dgetr_ok in E2. apply (dget_in _ string_eqb_ok) in E2. now rewrite <- (inters_unique _ it' it E2 Iit). }
      destruct (Forall2_in _ _ _ _ SHS IK) as (sh' & Ish & Esh). destruct (Forall2_in _ _ _ _ OFF Ish) as ((a' & ne') & Ia & Ha). exists a'. split; [|apply MX; apply in_map_iff; exists (a', ne'); auto].
      assert (EID : sh_id sh' = is_sheet s) by (apply sheets_named; now apply dgetr_ok in Esh). rewrite <- EID. exact (offer_offered sb cl its sh' a' ne' L ITS Ha). }
  intros s x Hs X0 K. pose proof (LG _ _ X0) as X. destruct (cpts_some _ _ _ X) as (r & Rr & X'). pose proof (dget_in _ string_eqb_ok _ _ _ Rr) as I.
  assert (ES : is_sheet s = sh_id sh). { destruct (string_dec (is_sheet s) (sh_id sh)) as [E|N]; [exact E|]. destruct (Q2 _ (Permutation_in _ (ORD cl') I) s x Hs eq_refl N X' K). }
  split; [exact ES|]. apply (M2 (is_id s) x). apply Q1; [|exact X|now apply (M2 (is_id s) x)]. apply by_sheet_get. right. split; [|exact ES].
  destruct (cpts_some _ _ _ X0) as (r0 & R0 & _). apply (dget_in _ string_eqb_ok) in R0. apply (Permutation_in _ (ORD cl)) in R0. destruct Hs as (k & it & I' & Is). destruct (made_sides sp k it s M I' Is) as (E1 & _).
  apply in_flat_map. exists it. split; [|exact Is]. apply PyP.mapM_ok in ITS. assert (IK : In k (keys (ord cl))) by (rewrite <- E1; unfold keys; apply in_map_iff; exists (is_inter s, r0); auto).
  destruct (Forall2_in _ _ _ _ ITS IK) as (it' & I2 & E2). apply dgetr_ok in E2. apply (dget_in _ string_eqb_ok) in E2. now rewrite <- (inters_unique k it' it E2 I').
Qed.
(** ** Interactions *)
Lemma add_ia_keep m k i j : In j (flat_map snd m) -> In j (flat_map snd (add_ia m k i)).
Proof.
  unfold add_ia. induction m as [|(k', l) m IH]; cbn [flat_map dset dget snd In]; [intros []|]. rewrite in_app_iff. intros H. destruct (String.eqb k k'); cbn [flat_map snd].
  - rewrite !in_app_iff. tauto.
  - rewrite in_app_iff. destruct H as [H|H]; [auto|]. right. exact (IH H).
Qed.
Lemma add_ia_new m k i : In i (flat_map snd (add_ia m k i)).
Proof.
  unfold add_ia. apply in_flat_map. exists (k, (match dget String.eqb k m with Some l => l | None => [] end) ++ [i]). split; [|cbn [snd]; apply in_app_iff; right; now left].
  apply (dget_in _ string_eqb_ok). apply (dget_same _ string_eqb_ok).
Qed.
Definition keeps (m m' : dict string (list interaction)) : Prop := forall j, In j (flat_map snd m) -> In j (flat_map snd m').
Definition found (sb : sbuild) (i j : interside) (fi : geom2d) (m : dict string (list interaction)) : Prop := exists fj double,
  make_fingers01 A j (ok_of sb (is_id j)) = Ok fj /\ g2_and A fi fj = Ok double /\
  (g2_is_empty double = false -> exists di dj, is_project_to_1d i double = Ok di /\ is_project_to_1d j double = Ok dj /\ In (mkIa (is_id i) di (is_id j) dj) (flat_map snd m)).
Lemma found_keeps sb i j fi m m' : found sb i j fi m -> keeps m m' -> found sb i j fi m'.
Proof. intros (fj & d & F & D & H) K. exists fj, d. split; [auto|]. split; [auto|]. intros E. destruct (H E) as (di & dj & H1 & H2 & H3). exists di, dj. auto. Qed.
Lemma interact2_found sb i fi m j m' : interact2 A sb i fi m j = Ok m' -> keeps m m' /\ found sb i j fi m'.
Proof.
  unfold interact2. intros H. apply bind_ok in H as (k & K & H). apply bind_ok in H as (fj & FJ & H). apply bind_ok in H as (d & D & H). apply dgetr_ok in K. assert (E : ok_of sb (is_id j) = k) by now apply opt_get.
  destruct (g2_is_empty d) eqn:Ed; [apply Ok_inv in H as <-; split; [intros x X; exact X|exists fj, d; rewrite E; split; [auto|]; split; [auto|congruence]]|].
  apply bind_ok in H as (di & D1 & H). apply bind_ok in H as (dj & D2 & H). apply Ok_inv in H as <-. split; [intros x X; now do 2 apply add_ia_keep|].
  exists fj, d. rewrite E. split; [auto|]. split; [auto|]. intros _. exists di, dj. split; [auto|]. split; [auto|]. apply add_ia_keep. apply add_ia_new.
Qed.
Lemma keeps_trans a b c : keeps a b -> keeps b c -> keeps a c.
Proof. unfold keeps. auto. Qed.
Lemma interact_row sb i fi l : forall m m', foldM (interact2 A sb i fi) l m = Ok m' -> keeps m m' /\ forall j, In j l -> found sb i j fi m'.
Proof.
  induction l as [|j l IH]; intros m m' H; cbn [foldM] in H; [apply Ok_inv in H as <-; split; [intros x X; exact X|intros ? []]|]. apply bind_ok in H as (m1 & H1 & H). destruct (interact2_found _ _ _ _ _ _ H1) as (K1 & F1).
  destruct (IH m1 m' H) as (K2 & F2). split; [exact (keeps_trans _ _ _ K1 K2)|]. intros k [<-|I]; [exact (found_keeps _ _ _ _ _ _ F1 K2)|auto].
Qed.
Lemma interact_rows sb l : forall m m', interact_loop A sb l m = Ok m' -> keeps m m' /\ forall l1 i l2 j, l = l1 ++ i :: l2 -> In j l2 -> exists fi, make_fingers01 A i (ok_of sb (is_id i)) = Ok fi /\ found sb i j fi m'.
Proof.
  induction l as [|a l IH]; intros m m' H; cbn [interact_loop] in H; [apply Ok_inv in H as <-; split; [intros x X; exact X|intros [|] ? ? ? E; discriminate]|].
  apply bind_ok in H as (k & K & H). apply bind_ok in H as (fi & FI & H). apply bind_ok in H as (m1 & H1 & H). destruct (interact_row _ _ _ _ _ _ H1) as (K1 & F1). destruct (IH m1 m' H) as (K2 & F2). split; [exact (keeps_trans _ _ _ K1 K2)|].
  intros [|b l1] i l2 j E I; cbn [app] in E.
  - assert (E' : a = i /\ l = l2) by (split; congruence). destruct E' as (-> & ->). exists fi. apply dgetr_ok in K. assert (E' : ok_of sb (is_id i) = k) by now apply opt_get. rewrite E'. split; [auto|]. exact (found_keeps _ _ _ _ _ _ (F1 j I) K2).
  - apply (F2 l1 i l2 j); [congruence|auto].
Qed.
Lemma interactions_found sb r sh l1 i l2 j : find_interactions A sb = Ok r -> In sh (sheets_of sb) -> sp_intersides (sb_plex sb) (Some (sh_id sh)) = l1 ++ i :: l2 -> In j l2 ->
  exists fi, make_fingers01 A i (ok_of sb (is_id i)) = Ok fi /\ found sb i j fi r.
Proof.
  unfold find_interactions. intros H IS E I. revert IS H. generalize (sheets_of sb). generalize (@nil (string * list interaction)). intros m l. revert m.
  induction l as [|a l IH]; intros m IS H; cbn [foldM] in H; [destruct IS|]. apply bind_ok in H as (m1 & H1 & H). destruct IS as [->|IS]; [|exact (IH m1 IS H)].
  destruct (interact_rows sb _ _ _ H1) as (_ & F). destruct (F l1 i l2 j E I) as (fi & FI & FO). exists fi. split; [auto|]. apply (found_keeps _ _ _ _ _ _ FO).
  clear -H. revert m1 H. induction l as [|a l IH]; intros m1 H; cbn [foldM] in H; [apply Ok_inv in H as <-; intros x X; exact X|]. apply bind_ok in H as (m2 & H2 & H). destruct (interact_rows sb _ _ _ H2) as (K & _). exact (keeps_trans _ _ _ K (IH m2 H)).
Qed.
Lemma decides_settle l : forall st st', legal sp (fst st) -> (forall c, In c l -> cl_ok c /\ cgeom c) -> foldM (decide_cluster A fsqrt ord sord) l st = Ok st' ->
  legal sp (fst st') /\ moves (fst st) (fst st') /\ forall c, In c l -> exists C, settled C c (fst st').
Proof.
  induction l as [|c l IH]; intros st st' L G H; cbn [foldM] in H; [apply Ok_inv in H as <-; split; [auto|]; split; [apply moves_refl|intros ? []]|]. apply bind_ok in H as (s1 & H1 & H).
  destruct (G c (or_introl eq_refl)) as (O & CG). pose proof (decide_steps A (Kc:=geoms_of A) fsqrt sp M ord sord ORD _ _ _ L CG H1) as S1. pose proof (legal_steps A sp M _ _ L S1) as L1. destruct (IH s1 st' L1 (fun c I => G c (or_intror I)) H) as (L2 & M2 & Q).
  split; [auto|]. split; [exact (moves_trans _ _ _ (steps_move A sp M _ _ L S1) M2)|]. intros d [<-|I]; [|auto]. destruct (decide_settles _ _ _ L O CG H1) as (C & S & _). exists C. exact (settled_moves _ _ _ _ S M2).
Qed.
Lemma multi_settles st st' sh l1 i l2 j : legal sp (fst st) -> heuristic_multi_inter_single_decisions A fsqrt ord sord st = Ok st' ->
  In sh (values (sp_sheets sp)) -> sp_intersides sp (Some (sh_id sh)) = l1 ++ i :: l2 -> In j l2 -> is_inter i <> is_inter j ->
  exists fi fj double, make_fingers01 A i (ok_of (fst st) (is_id i)) = Ok fi /\ make_fingers01 A j (ok_of (fst st) (is_id j)) = Ok fj /\ g2_and A fi fj = Ok double /\
  (g2_is_empty double = false -> exists di dj C, is_project_to_1d i double = Ok di /\ is_project_to_1d j double = Ok dj /\ forall s x, side_of sp s ->
     (is_inter s = is_inter i /\ pts di x) \/ (is_inter s = is_inter j /\ pts dj x) -> pts (ok_of (fst st') (is_id s)) x -> is_sheet s = C /\ pts (chosen_of (fst st') (is_id s)) x).
Proof.
  intros L H ISH E I NE. unfold heuristic_multi_inter_single_decisions in H. apply bind_ok in H as (ia & H1 & H). apply bind_ok in H as (m & H2 & H). apply bind_ok in H as (u & _ & H).
  pose proof (iv_plex sp _ L) as EP. pose proof (interactions_geom A _ _ H1) as F. rewrite EP in H2. pose proof (clusters_geom sp _ _ F H2) as G.
  assert (ISH' : In sh (sheets_of (fst st))) by (unfold sheets_of; now rewrite EP). assert (E' : sp_intersides (sb_plex (fst st)) (Some (sh_id sh)) = l1 ++ i :: l2) by now rewrite EP.
  destruct (interactions_found _ _ _ _ _ _ _ H1 ISH' E' I) as (fi & FI & fj & d & FJ & D & FO). exists fi, fj, d. split; [auto|]. split; [auto|]. split; [auto|]. intros ED. destruct (FO ED) as (di & dj & D1 & D2 & IN). exists di, dj.
  destruct (clusters_ok sp ia m F H2) as (n & cs & F2 & (MO & _ & _ & (CV & _) & _)). cbn [fst] in *. destruct MO as (ND & MO).
  destruct (Forall2_in _ _ _ _ F2 IN) as (c & IC & CM). destruct (CV c (proj1 (in_rev _ _) IC)) as (k & c' & GC & SUB).
  destruct (decides_settle (values m) st st' L) as (L' & _ & Q); [|exact H|].
  { intros b B. unfold values in B. apply in_map_iff in B as ((k' & b') & <- & B). split; [apply (MO k'); now apply (dget_nodup _ string_eqb_ok)|exact (G _ _ B)]. }
  destruct (Q c') as (C & S). { apply (dget_in _ string_eqb_ok) in GC. unfold values. apply in_map_iff. exists (k, c'). auto. }
  exists C. split; [auto|]. split; [auto|]. intros s x Hs X K. apply (S s x Hs); [|exact K]. apply SUB. unfold cmap_of in CM. cbn [ia_side ia_other ia_range ia_other_range] in CM.
  assert (Hi : In i (sp_intersides sp (Some (sh_id sh)))) by (rewrite E; apply in_app_iff; right; now left). assert (Hj : In j (sp_intersides sp (Some (sh_id sh)))) by (rewrite E; apply in_app_iff; right; now right).
  apply (sides_in sp M) in Hi, Hj. destruct (made_opp sp i M Hi) as (_ & _ & _ & _ & _ & _ & _ & Ei). destruct (made_opp sp j M Hj) as (_ & _ & _ & _ & _ & _ & _ & Ej). rewrite Ei, Ej in CM. cbn [bind] in CM. apply Ok_inv in CM as <-.
  rewrite cpts_dset. destruct X as [(-> & X)|(-> & X)].
  - destruct (String.eqb_spec (is_inter i) (is_inter j)) as [|_]; [contradiction|]. rewrite cpts_dset. now rewrite String.eqb_refl.
  - now rewrite String.eqb_refl.
Qed.
End D.
