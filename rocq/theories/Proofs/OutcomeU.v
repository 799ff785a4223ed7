(** * Why heuristic_multi_inter_single_decisions raises *)
From Verif.Spec Require Import Plane Region PointSet1 Fingers Crisp.
From Verif.Model Require Import Arrangement2d Heuristics.
From Verif.Proofs Require Import PyP ExtOrd DictP Geom1dP Geom1dM Geom2dP Geom2dOps ArrSoundP SheetplexP FingerP SheetbuildP CreateP HeuristicsP ClusterP HeuStepsP StepsP TrimP CrispP CrispQ BufSharpP BufSharpQ RunSharpP OutcomeP OutcomeQ OutcomeR OutcomeS OutcomeT InteractP.
From Verif.Props Require Import Geom1dProps Primitive2dProps SheetplexProps Geom2dProps CrispProps.
From Coq Require Import String Permutation.
Open Scope Qc_scope.

Section U.
Variable orc : list segment -> nat -> nat -> nat.
Variable fsqrt : Qc -> Qc.
Hypothesis F1 : 0 < fsqrt 1.
Hypothesis F2 : fsqrt 1 < fsqrt (zq 2).
Hypothesis F3 : fsqrt (zq 2) < zq 2 * fsqrt 1.
Let A := segment_arrangement orc.
Variable sp : sheetplex.
Hypothesis M : plex_made sp.
Hypothesis PN : plex_in neat sp.
Let OC : op_closed A fsqrt neat := neat_closed orc fsqrt F1 F2 F3.
Notation good := (good sp).
Variable ord : dict string geom1d -> dict string geom1d.
Variable sord : list string -> list string.
Hypothesis ORD : forall c, Permutation c (ord c).
Hypothesis SORD : forall l, Permutation l (sord l).

(** no side of the list has an available interval of length 3/2 *)
Lemma extra_none sb l : forall cl, legal sp sb -> cl_ok cl -> cgeom cl -> (forall s, In s l -> side_of sp s) -> find_extra sb cl l = Ok None ->
  forall s, In s l -> forall u v, u < v -> (forall x, u <= x -> x < v -> available sb cl s x) -> v - u < qq 3 2.
Proof.
  induction l as [|s l IH]; intros cl L O G S H; cbn [find_extra] in H; [intros s []|]. assert (IH' := fun HH => IH cl L O G (fun t I => S t (or_intror I)) HH). clear IH.
  apply bind_ok in H as (it & IT & H). apply bind_ok in H as (dr & D & H). apply bind_ok in H as (mr & B & H). apply bind_ok in H as (k & K & H). apply bind_ok in H as (mr2 & B2 & H). apply bind_ok in H as (mr3 & B3 & H).
  rewrite (iv_plex sp sb L) in IT. apply dgetr_ok in IT. apply (dget_in _ string_eqb_ok) in IT. destruct (made_two sp _ it M IT) as (_ & _ & _ & _ & EI & _). rewrite EI in D. pose proof D as P.
  pose proof (cgeom_get _ _ _ G P) as Gp. pose proof (is_geom1d_normal _ Gp) as Np. pose proof (legal_iok sp _ _ _ L K) as Gk. pose proof (is_geom1d_normal _ Gk) as Nk.
  pose proof (is_geom1d_buffer _ _ _ Gp B) as Gb. pose proof (is_geom1d_and _ _ _ Gb Gk B2) as G2. pose proof (is_geom1d_sub _ _ _ G2 Gp B3) as G3. apply is_geom1d_normal in Gb, G2, G3.
  apply dgetr_ok in P. assert (PC : forall y, cpts cl (is_inter s) y <-> pts dr y) by (intros y; now apply cpts_get). apply dgetr_ok in K. assert (EK : ok_of sb (is_id s) = k) by now apply opt_get.
  rewrite buffer_q_ok in B. apply Ok_inv in B. assert (EM : min_finger + eps = qq 16 5) by (apply Qc_is_canon; reflexivity). rewrite EM in B.
  assert (AV : forall y, available sb cl s y -> pts mr3 y).
  { intros y. unfold available. rewrite (sub_pts _ _ _ y G2 Np B3), (and_pts _ _ _ y Gb Nk B2), EK, PC, <- B. rewrite buffer_minkowski; [|exact Np|vm_compute; discriminate].
    intros (E1 & E2 & z & Z & W). split; [split; [|auto]|auto]. exists z. split; [now apply PC|exact W]. }
  assert (HD : find_extra sb cl l = Ok None /\ forall u v, u < v -> (forall x, u <= x -> x < v -> available sb cl s x) -> v - u < qq 3 2).
  { destruct (rev _) as [|i r] eqn:ER.
    - split; [exact H|]. intros u v UV F. exfalso. assert (E0 : mr3 = []). { apply (f_equal (@List.length _)) in ER. rewrite rev_length in ER. destruct mr3 as [|i r]; [reflexivity|]. assert (J : In i (sort_by iv_key_ltb (i :: r))) by (apply (sort_by_in iv_key_ltb); now left). destruct (sort_by iv_key_ltb (i :: r)); [destruct J|discriminate ER]. }
      destruct (AV u) as (i & Ii & _); [apply F; [apply Qcle_refl|exact UV]|]. rewrite E0 in Ii. destruct Ii.
    - destruct (opt_ltb _ _) eqn:TS.
      2:{ apply bind_ok in H as (p & _ & H). apply bind_ok in H as (g & _ & H). apply bind_ok in H as (x & _ & H). discriminate H. }
      split; [exact H|]. destruct (longest_last _ _ _ G3 ER) as (II & LO). intros u v UV F. destruct (one_piece mr3 G3 u v UV) as (j & J & J1 & J2); [intros y Y1 Y2; apply AV; auto|]. specialize (LO j J). unfold len in LO.
      pose proof (normal_In _ _ G3 II) as LT. destruct i as [[|i1|] [|i2|]]; cbn [fst snd] in LT; unfold elt in LT; try tauto; cbn [fst snd esub opt_ltb] in TS; try discriminate TS. destruct (eltb_spec (Fin (i2 - i1)) (Fin (qq 3 2))) as [Q|Q]; [|discriminate TS]. unfold elt in Q.
      cbn [fst snd esub] in LO. destruct j as [[|j1|] [|j2|]]; cbn [fst snd esub] in J1, J2, LO; unfold ele in J1, J2, LO; try tauto. clear -J1 J2 LO Q. qlra. }
  destruct HD as (HN & HD). intros t [<-|I]; [exact HD|exact (IH' HN t I)].
Qed.

Lemma post_weak {X} (E : exn -> Prop) (P Q : X -> Prop) r : post E P r -> (forall x, P x -> Q x) -> post E Q r.
Proof. intros H K. destruct r; [now apply K|exact H]. Qed.
Lemma by_sheet_src l : forall m k, In k (keys (fold_left by_sheet l m)) -> In k (keys m) \/ exists s, In s l /\ is_sheet s = k.
Proof.
  induction l as [|s l IH]; intros m k H; cbn [fold_left] in H; [now left|]. apply IH in H as [H|(t & T & E)]; [|right; exists t; split; [now right|exact E]]. unfold by_sheet in H. apply (in_keys_dset _ string_eqb_ok) in H as [->|H]; [right; exists s; split; [now left|reflexivity]|now left].
Qed.
Section One.
Variable sb : sbuild.
Variable ci : Z.
Variable cl : cluster.
(** the sheet that would take the cluster needs a connection and none of its sides has room for one *)
Definition no_extra : Prop := exists C, (exists s, side_of sp s /\ is_sheet s = C /\ In (is_inter s) (keys cl)) /\
  forall s, side_of sp s -> is_sheet s = C -> In (is_inter s) (keys cl) -> forall u v, u < v -> (forall x, u <= x -> x < v -> available sb cl s x) -> v - u < qq 3 2.
(** the cluster meets a range chosen earlier *)
Definition met : Prop := exists s x, side_of sp s /\ pts (chosen_of sb (is_id s)) x /\ cpts cl (is_inter s) x.
Definition E (e : exn) : Prop := check_error e \/ (e = PlainException /\ no_extra) \/ (e = AttributeError /\ met).
Let EA : E AssertionError := or_introl (or_introl eq_refl).
Let ETE : E TypeError := or_introl (or_intror eq_refl).
Let e_or := e_or E EA orc.
Let e_and := e_and E EA orc.
Let e_sub := e_sub E EA orc.
Let e_fing := e_fing E EA orc.
Let e_area := e_area E EA.
Let e_buf := e_buf E EA orc fsqrt F1 F2 F3.
Let e_proj := e_proj E EA.
Let n_fing := n_fing orc fsqrt F1 F2 F3 sp M.
Let e_hcheck := e_hcheck E EA ETE orc fsqrt F1 F2 F3 sp M PN.
Let e_choose := e_choose E EA orc fsqrt F1 F2 F3 sp M.
Let e_unchoose := e_unchoose E sp M.
Let good_steps := good_steps orc sp M PN.
Let sheet_val := sheet_val sp M PN.
Let sheet_key := sheet_key sp M PN.
Let sheet_of := sheet_of_side sp M.
Let good_choose := good_choose orc sp M PN.
Let good_unchoose := good_unchoose orc sp M PN.
Let e_offer := e_offer E EA orc fsqrt F1 F2 F3 sp M PN.
Let p_extra := p_extra E EA ETE orc fsqrt F1 F2 F3 sp M PN.
Let p_hcheck := p_hcheck E EA ETE orc fsqrt F1 F2 F3 sp M PN.
Notation gst := (gst sp).
Notation cgood := (cgood sp).
Notation clside := (clside sp).
Lemma p_decide_why : good sb -> cgood cl -> cl_ok cl -> post E gst (decide_cluster A fsqrt ord sord (sb, ci) cl).
Proof.
  intros G C CO. unfold decide_cluster. pose proof (gd_legal _ _ G) as L. rewrite (iv_plex _ _ L).
  assert (ND : NoDup (keys (sp_inters sp))) by (destruct M as (fr & sp0 & FR & CR); exact (proj1 (proj2 (created fr sp0 sp FR CR)))).
  apply (post_bind E (Forall2 (fun k it => In (k, it) (sp_inters sp) /\ In k (keys cl)) (keys (ord cl)))).
  { apply post_mapM. intros k Hk. assert (K : In k (keys cl)) by (unfold keys in *; apply (Permutation_in _ (Permutation_sym (Permutation_map fst (ORD cl))) Hk)). pose proof (proj2 (proj2 C) k K) as K'.
    apply (dget_some _ string_eqb_ok) in K' as (it & D). pose proof (dget_in _ string_eqb_ok _ _ _ D) as D'. apply dgetr_ok in D. rewrite D. cbn [post]. auto. }
  intros its ITS. set (bys := fold_left by_sheet (flat_map it_sides its) []).
  assert (SIDE : forall s, In s (flat_map it_sides its) -> clside cl s).
  { intros s Hs. apply in_flat_map in Hs as (it & Hit & Hs). clear -ITS Hit Hs M. induction ITS as [|k x ks xs (H1 & H2) _ IH]; [destruct Hit|]. destruct Hit as [->|Hit]; [|now apply IH].
    destruct (made_sides sp k it s M H1 Hs) as (EI & _). split; [exists k, it; auto|now rewrite EI]. }
  assert (BYS : forall k s, In s (match dget String.eqb k bys with Some l => l | None => [] end) -> clside cl s).
  { intros k s Hs. apply by_sheet_get in Hs as [[]|(Hs & _)]. auto. }
  assert (KEYS : forall k, In k (keys bys) -> In k (keys (sp_sheets sp))).
  { assert (K : forall l m, (forall s, In s l -> side_of sp s) -> (forall k, In k (keys m) -> In k (keys (sp_sheets sp))) -> forall k, In k (keys (fold_left by_sheet l m)) -> In k (keys (sp_sheets sp))).
    { induction l as [|s l IH]; intros m Sl Km k; cbn [fold_left]; auto. apply IH; [intros t T; apply Sl; now right|]. intros j Hj. unfold by_sheet in Hj. apply (in_keys_dset _ string_eqb_ok) in Hj as [->|Hj]; auto. apply sheet_of, Sl. now left. }
    apply K; [intros s Hs; apply (SIDE s Hs)|intros ? []]. }
  assert (NE : keys bys <> []).
  { destruct its as [|it its].
    - inversion ITS as [E0|]. exfalso. destruct C as (_ & C & _). apply C. apply Permutation_nil. symmetry in E0. apply map_eq_nil in E0. pose proof (ORD cl) as P. rewrite E0 in P. now apply Permutation_sym.
    - inversion ITS as [|k ? ks ? (H1 & _) _]; subst. destruct (made_two sp k it M H1) as (s0 & s1 & ES & _). assert (J : In (is_sheet s0) (keys bys)). { apply by_sheet_keys. left. cbn [flat_map]. rewrite ES. now left. }
      intros E0. rewrite E0 in J. destruct J. }
  apply (post_bind E (Forall2 (fun k sh => In sh (values (sp_sheets sp)) /\ sh_id sh = k) (sord (keys bys)))).
  { apply post_mapM. intros k Hk. apply (Permutation_in _ (Permutation_sym (SORD _))) in Hk. apply KEYS in Hk. destruct (sheet_key k Hk) as (sh & -> & H & H' & _). exact (conj H H'). }
  intros shs SHS. assert (SH : forall sh, In sh shs -> In sh (values (sp_sheets sp))) by (clear -SHS; intros sh H; induction SHS as [|k x ks xs (H1 & _) _ IH]; [destruct H|destruct H as [->|H]; auto]).
  apply (post_bind E (Forall2 (fun _ _ => True) shs)). { apply post_mapM. intros sh Hsh. apply post_of; auto. apply e_offer; auto; apply C. }
  intros offs OFFS. assert (LN : List.length offs = List.length shs) by (clear -OFFS; induction OFFS; cbn; auto). assert (NS : shs <> []).
  { intros ->. inversion SHS as [E0|]. pose proof (SORD (keys bys)) as P. rewrite <- E0 in P. apply Permutation_sym, Permutation_nil in P. contradiction. }
  destruct (argmax_in (map fst offs)) as (n & -> & LT). { intros H. apply map_eq_nil in H. subst offs. destruct shs; [contradiction|discriminate]. } cbn [bind]. rewrite map_length in LT.
  destruct (nth_error shs n) as [sh|] eqn:N1; [|apply nth_error_None in N1; lia]. destruct (nth_error offs n) as [(ar & ne)|] eqn:N2; [|apply nth_error_None in N2; lia].
  set (sides := match dget String.eqb (sh_id sh) bys with Some l => l | None => [] end). assert (SD : forall s, In s sides -> clside cl s) by (intros s Hs; exact (BYS (sh_id sh) s Hs)).
  assert (SDX : forall s, In s sides <-> side_of sp s /\ is_sheet s = sh_id sh /\ In (is_inter s) (keys cl)).
  { intros s. unfold sides, bys. rewrite by_sheet_get. cbn [dget In]. split.
    - intros [[]|(H & EH)]. destruct (SIDE s H) as (S1 & S2). auto.
    - intros ((k & it & I1 & I2) & EH & IK). right. split; [|exact EH]. apply in_flat_map. exists it. split; [|exact I2]. destruct (made_sides sp k it s M I1 I2) as (E1 & _). rewrite E1 in IK.
      assert (IK' : In k (keys (ord cl))) by (unfold keys in *; apply (Permutation_in _ (Permutation_map fst (ORD cl))); exact IK).
      destruct (Forall2_in _ _ _ _ ITS IK') as (it' & J2 & (E2 & _)). now rewrite <- (inters_unique sp M k it' it E2 I1). }
  apply (post_bind E (fun c => cgood c /\ incl (keys cl) (keys c) /\ cl_ok c /\ forall j x, cpts c j x -> cpts cl j x \/ exists t, side_of sp t /\ is_sheet t = sh_id sh /\ j = is_inter t /\ pts (ok_of sb (is_id t)) x)).
  { destruct ne; [|split; [exact C|]; split; [apply incl_refl|]; split; [exact CO|auto]].
    destruct (find_extra sb cl sides) as [[c|]|e] eqn:FE.
    - cbn [bind post]. pose proof (p_extra sb cl sides G C SD) as K. rewrite FE in K. cbn [post] in K. destruct K as (K1 & K2). split; [exact K1|]. split; [exact K2|]. split; [exact (proj1 (extra_larger sp sb _ _ _ L CO (proj1 C) FE))|].
      destruct (extra_exact fsqrt sp M sb sides cl c L CO (proj1 C) (fun s I => proj1 (SD s I)) FE) as (t & i & It & _ & (ER & _) & PC). intros j x X. apply PC in X as [X|(-> & X)]; [now left|right]. exists t. apply SDX in It as (T1 & T2 & _). split; [exact T1|]. split; [exact T2|]. split; [reflexivity|]. apply (ER x X).
    - cbn [bind post]. right; left. split; [reflexivity|]. exists (sh_id sh). assert (IN : In (sh_id sh) (keys bys)).
      { clear -SHS N1 SORD M sheet_key KEYS. apply nth_error_In in N1. assert (X : exists k, In k (sord (keys bys)) /\ sh_id sh = k). { induction SHS as [|k x ks xs (H1 & H2) _ IH]; [destruct N1|]. destruct N1 as [->|N1]; [exists k; split; [now left|exact H2]|]. destruct (IH N1) as (k' & K1 & K2). exists k'. split; [now right|exact K2]. }
        destruct X as (k & K & ->). apply (Permutation_in _ (Permutation_sym (SORD _))) in K. exact K. }
      split.
      + apply by_sheet_src in IN as [[]|(s & Is & E1)]. destruct (SIDE s Is) as (S1 & S2). exists s. auto.
      + intros s S1 S2 S3. apply (extra_none sb sides cl L CO (proj1 C) (fun s I => proj1 (SD s I)) FE s). apply SDX. auto.
    - cbn [bind post]. pose proof (p_extra sb cl sides G C SD) as K. rewrite FE in K. exact K. }
  intros c (Cc & Ic & Oc & Pc). apply (post_bind E (fun s => fst s = sb)). { pose proof (p_hcheck (sb, ci) G) as K. fold A in K. destruct (hcheck A (sb, ci)) as [(sb1 & ci1)|e] eqn:HC; [|exact K]. exact (hcheck_ok A _ _ HC). }
  intros (sb1 & ci1) E1. cbn [fst] in E1. subst sb1. apply (post_bind E (fun b => good b /\ forall s x, side_of sp s -> is_sheet s <> sh_id sh -> pts (chosen_of b (is_id s)) x -> pts (chosen_of sb (is_id s)) x)).
  { apply post_of.
    - apply (post_errs E good). apply post_foldM; auto. intros b s Hs Gb. destruct (SD s Hs) as (S & K). unfold choose_side. destruct (gcl_get c _ (proj1 Cc) (Ic _ K)) as (g & -> & Ng), (lk_iok sp b s (gd_legal _ _ Gb) S) as (-> & Nk). cbn [bind].
      apply (post_bind E is_geom1d); [apply post_of; [now apply errs_g_and|intros x X; exact (is_geom1d_and _ _ _ Ng Nk X)]|]. intros r Nr. apply post_of; [now apply e_choose|]. intros b' H. exact (good_choose _ _ _ _ _ Gb Nr H).
    - intros b H. split.
      + clear Pc. revert H. assert (SD' := SD). clearbody sides. assert (GG : forall l a b, (forall s, In s l -> clside cl s) -> good a -> foldM (choose_side A c) l a = Ok b -> good b); [|intros H; exact (GG _ _ _ SD G H)].
        induction l as [|s l IH]; intros a b' Sl Ga H; cbn [foldM] in H; [apply Ok_inv in H as <-; exact Ga|]. apply bind_ok in H as (a1 & H1 & H). refine (IH a1 b' (fun t T => Sl t (or_intror T)) _ H).
        unfold choose_side in H1. apply bind_ok in H1 as (g & Hg & H1). apply bind_ok in H1 as (k & Hk & H1). apply bind_ok in H1 as (r & Hr & H1). refine (good_choose _ _ _ _ _ Ga _ H1). exact (is_geom1d_and _ _ _ (cgeom_get _ _ _ (proj1 Cc) Hg) (legal_iok sp _ _ _ (gd_legal _ _ Ga) Hk) Hr).
      + destruct (choose_fold A fsqrt sp M c (sh_id sh) sides Oc (proj1 Cc)) with (a := sb) (b := b) as (_ & Q); [intros s I; apply SDX in I; tauto|exact L|exact H|]. intros s x Hs NSH X. apply (proj1 (Q s x Hs)) in X as [X|(I & _)]; [exact X|]. apply SDX in I as (_ & I & _). contradiction. }
  intros sb2 (G2 & CH). apply (post_bind E good).
  { apply (post_weak E (fun b => good b /\ forall s x, side_of sp s -> is_sheet s <> sh_id sh -> pts (chosen_of b (is_id s)) x -> pts (chosen_of sb (is_id s)) x)); [|tauto]. apply post_foldM; auto. intros b (j & r) Hj (Gb & Hb). apply (Permutation_in _ (Permutation_sym (ORD c))) in Hj. unfold unchoose_others. cbn [fst snd]. rewrite (iv_plex _ _ (gd_legal _ _ Gb)).
    assert (J : In j (keys (sp_inters sp))) by (apply (proj2 (proj2 Cc)), in_map_iff; exists (j, r); auto). apply (dget_some _ string_eqb_ok) in J as (it & D). pose proof (dget_in _ string_eqb_ok _ _ _ D) as D'. apply dgetr_ok in D. rewrite D. cbn [bind].
    apply post_foldM; auto. intros b2 s Hs (Gb2 & Hb2). destruct (String.eqb_spec (is_sheet s) (sh_id sh)) as [|NSH]; [split; assumption|]. assert (S : side_of sp s) by (exists j, it; auto). pose proof (proj1 Cc _ _ Hj) as Nr.
    apply post_of.
    - apply e_unchoose; auto. destruct (lk_ich sp b2 s (gd_legal _ _ Gb2) S) as (_ & Nc). destruct (g_and (chosen_of b2 (is_id s)) r) as [cv|e] eqn:CV.
      2:{ right. exfalso. pose proof (errs_g_and (fun _ => False) _ _ Nc Nr) as K. rewrite CV in K. exact K. }
      pose proof (is_geom1d_normal _ (is_geom1d_and _ _ _ Nc Nr CV)) as Ng. apply is_geom1d_normal in Nc, Nr. destruct cv as [|i cv].
      + right. intros x X1 X2. assert (X : pts [] x) by (apply (and_pts _ _ _ x Nc Nr CV); auto). destruct X as (? & [] & _).
      + left. destruct (normal_point _ _ Ng) as (x & X). apply (and_pts _ _ _ x Nc Nr CV) in X as (X1 & X2). apply (Hb2 s x S NSH) in X1. right; right. split; [reflexivity|]. exists s, x. split; [exact S|]. split; [exact X1|].
        destruct (made_sides sp j it s M D' Hs) as (EI & _). rewrite EI. apply (dget_nodup _ string_eqb_ok) in Hj; [|exact (proj1 Oc)]. apply (cpts_get _ _ _ x Hj) in X2. apply Pc in X2 as [X2|(t & T1 & T2 & T3 & T4)]; [exact X2|]. exfalso.
        destruct (made_opp sp s M S) as (o & O1 & O2 & O3 & O4 & O5 & O6 & _). assert (t = o).
        { destruct T1 as (k & it' & I1 & I2). destruct (made_sides sp k it' t M I1 I2) as (ET & _). assert (Ekj : k = j) by congruence. rewrite Ekj in I1. rewrite (inters_unique sp M j it' it I1 D') in I2. destruct (made_two sp j it M D') as (s0 & s1 & EE & N01 & _ & P1 & P2). rewrite EE in Hs, I2.
          destruct Hs as [<-|[<-|[]]], I2 as [<-|[<-|[]]]; try congruence. }
        subst t. exact (iv_disj _ _ L s o x S O1 X1 T4).
    - intros b3 H. split; [exact (good_unchoose _ _ _ _ Gb2 Nr H)|]. apply unchoose_inv in H as (s' & [_ _ _ _ _ EC _]). intros s1 x. unfold chosen_of. rewrite EC. apply Hb2. }
  intros sb3 G3. apply p_hcheck. exact G3.
Qed.
End One.

(** ** the whole step *)
(** the clusters before, the one that fails, and the state it fails in *)
Definition fails_at (st : hstate) (cls : list cluster) (e : exn) (l1 : list cluster) (c : cluster) (st1 : hstate) : Prop :=
  (exists l2, cls = l1 ++ c :: l2) /\ foldM (decide_cluster A fsqrt ord sord) l1 st = Ok st1 /\ decide_cluster A fsqrt ord sord st1 c = Err e.
Lemma foldM_err {X S} (f : S -> X -> result S) l : forall s e, foldM f l s = Err e -> exists l1 x l2 s1, l = l1 ++ x :: l2 /\ foldM f l1 s = Ok s1 /\ f s1 x = Err e.
Proof.
  induction l as [|x l IH]; intros s e H; cbn [foldM] in H; [discriminate|]. destruct (f s x) as [s1|e1] eqn:F; cbn [bind] in H.
  - destruct (IH s1 e H) as (l1 & y & l2 & s2 & -> & H1 & H2). exists (x :: l1), y, l2, s2. cbn [app foldM]. rewrite F. auto.
  - exists [], x, l, s. cbn. split; [reflexivity|]. split; [reflexivity|]. congruence.
Qed.
Lemma good_decides l : forall st st', good (fst st) -> (forall c, In c l -> cgood sp c /\ cl_ok c) -> foldM (decide_cluster A fsqrt ord sord) l st = Ok st' -> good (fst st').
Proof.
  induction l as [|c l IH]; intros st st' G C H; cbn [foldM] in H; [apply Ok_inv in H as <-; exact G|]. apply bind_ok in H as ((sb & ci) & H1 & H). refine (IH (sb, ci) st' _ (fun d D => C d (or_intror D)) H).
  destruct (C c (or_introl eq_refl)) as (C1 & C2). destruct st as (sb0 & ci0). pose proof (p_decide_why sb0 ci0 c G C1 C2) as K. rewrite H1 in K. exact K.
Qed.
(** where a choice comes from *)
Lemma chosen_from l : forall st st', good (fst st) -> (forall c, In c l -> cgood sp c /\ cl_ok c) -> (forall id, chosen_of (fst st) id = []) -> foldM (decide_cluster A fsqrt ord sord) l st = Ok st' -> forall s x, side_of sp s -> pts (chosen_of (fst st') (is_id s)) x ->
  exists l0 c0 l2 st0, l = l0 ++ c0 :: l2 /\ foldM (decide_cluster A fsqrt ord sord) l0 st = Ok st0 /\ (cpts c0 (is_inter s) x \/ exists i, extra_range (fst st0) c0 s i /\ in_iv x i).
Proof.
  assert (GEN : forall l st st', good (fst st) -> (forall c, In c l -> cgood sp c /\ cl_ok c) -> foldM (decide_cluster A fsqrt ord sord) l st = Ok st' -> forall s x, side_of sp s -> pts (chosen_of (fst st') (is_id s)) x -> pts (chosen_of (fst st) (is_id s)) x \/
    exists l0 c0 l2 st0, l = l0 ++ c0 :: l2 /\ foldM (decide_cluster A fsqrt ord sord) l0 st = Ok st0 /\ (cpts c0 (is_inter s) x \/ exists i, extra_range (fst st0) c0 s i /\ in_iv x i)).
  { clear l. induction l as [|c l IH]; intros st st' G C H s x Hs X; cbn [foldM] in H; [apply Ok_inv in H as <-; now left|]. apply bind_ok in H as (st1 & H1 & H). destruct (C c (or_introl eq_refl)) as (C1 & C2).
    assert (G1 : good (fst st1)). { destruct st as (sb0 & ci0). pose proof (p_decide_why sb0 ci0 c G C1 C2) as K. rewrite H1 in K. exact K. }
    destruct (IH st1 st' G1 (fun d D => C d (or_intror D)) H s x Hs X) as [Y|(l0 & c0 & l2 & st0 & -> & E2 & E3)].
    - destruct (decide_exact A fsqrt sp M ord sord ORD st c st1 (gd_legal _ _ G) C2 (proj1 C1) H1) as (L1 & CS & cl' & EX & Q). apply (proj1 (Q s x Hs)) in Y as [Y|(Y1 & Y2 & Y3)]; [now left|right].
      exists [], c, l, st. split; [reflexivity|]. split; [reflexivity|]. destruct EX as [->|(t & i & T1 & T2 & T3 & T4)]; [now left|]. apply T4 in Y2 as [Y2|(Y4 & Y5)]; [now left|right]. exists i. assert (s = t); [|subst t; auto].
      apply (made_unique sp); auto. destruct Hs as (k & it & I1 & I2), T1 as (k' & it' & J1 & J2). destruct (made_sides sp k it s M I1 I2) as (E1 & ->), (made_sides sp k' it' t M J1 J2) as (E2 & ->). congruence.
    - right. exists (c :: l0), c0, l2, st0. split; [reflexivity|]. split; [|exact E3]. cbn [foldM]. rewrite H1. exact E2. }
  intros st st' G C Z H s x Hs X. destruct (GEN l st st' G C H s x Hs X) as [Y|Y]; [|exact Y]. rewrite Z in Y. destruct Y as (? & [] & _).
Qed.
Theorem multi_why st e : good (fst st) -> (forall id, chosen_of (fst st) id = []) -> heuristic_multi_inter_single_decisions A fsqrt ord sord st = Err e -> check_error e \/
  exists ia m l1 c st1, find_interactions A (fst st) = Ok ia /\ find_interaction_clusters sp ia = Ok m /\ fails_at st (values m) e l1 c st1 /\
  ((e = PlainException /\ no_extra (fst st1) c) \/
   (e = AttributeError /\ exists s x l0 c0 l2 st0 i, side_of sp s /\ cpts c (is_inter s) x /\ l1 = l0 ++ c0 :: l2 /\ foldM (decide_cluster A fsqrt ord sord) l0 st = Ok st0 /\ extra_range (fst st0) c0 s i /\ in_iv x i)).
Proof.
  intros G Z H. unfold heuristic_multi_inter_single_decisions in H. set (EB := fun e : exn => e = AssertionError). pose proof (eq_refl : EB AssertionError) as EBA.
  pose proof (p_interactions EB EBA orc fsqrt F1 F2 F3 sp M (fst st) G) as K. fold A in K. destruct (find_interactions A (fst st)) as [ia|e1] eqn:EI; cbn [bind] in H; [|left; left; assert (e1 = e) by congruence; subst e1; exact K]. cbn [post] in K.
  rewrite (iv_plex _ _ (gd_legal _ _ G)) in H. pose proof (p_clusters EB sp M ia K) as KC. destruct (find_interaction_clusters sp ia) as [m|e1] eqn:EC; cbn [bind] in H; [|left; left; assert (e1 = e) by congruence; subst e1; exact KC]. cbn [post] in KC. destruct KC as (NDm & MG).
  assert (V : forall c, In c (values m) -> cgood sp c) by (intros c I; apply in_map_iff in I as ((k & d) & <- & I); exact (MG _ _ I)).
  assert (F : Forall (fun e => Forall ia_ok (snd e)) ia) by exact (interactions_geom A _ _ EI).
  destruct (clusters_ok sp ia m F EC) as (n & cs & F2' & (MO & _ & AP & _)). cbn [fst] in *. destruct MO as (ND & MO).
  assert (VO : forall c, In c (values m) -> cgood sp c /\ cl_ok c). { intros c I. split; [auto|]. apply in_map_iff in I as ((k & d) & <- & I). apply (MO k). now apply (dget_nodup _ string_eqb_ok). }
  pose proof (post_foldM EB cgeom cmap_or (values m)) as KF. specialize (KF (fun a c I Ga => p_cmap_or1 EB a c Ga (proj1 (V c I))) [] (fun j g (X : In (j, g) []) => match X with end)).
  destruct (foldM cmap_or (values m) []) as [u|e1]; cbn [bind] in H; [|left; left; assert (e1 = e) by congruence; subst e1; exact KF].
  apply foldM_err in H as (l1 & c & l2 & st1 & EL & H1 & H2). assert (IL : forall d, In d l1 -> In d (values m)) by (intros d D; rewrite EL; apply in_app_iff; auto). assert (IC : In c (values m)) by (rewrite EL; apply in_app_iff; right; now left).
  pose proof (good_decides l1 st st1 G (fun d D => VO d (IL d D)) H1) as G1. destruct (VO c IC) as (C1 & C2).
  assert (W : E (fst st1) c e). { destruct st1 as (sb1 & ci1). pose proof (p_decide_why sb1 ci1 c G1 C1 C2) as W. rewrite H2 in W. exact W. }
  destruct W as [W|[(-> & W)|(-> & W)]]; [now left|right|right]; exists ia, m, l1, c, st1; (split; [reflexivity|]); (split; [exact EC|]); (split; [split; [exists l2; exact EL|split; assumption]|]); [left|right]; (split; [reflexivity|]); [exact W|].
  destruct W as (s & x & Hs & X1 & X2). destruct (chosen_from l1 st st1 G (fun d D => VO d (IL d D)) Z H1 s x Hs X1) as (l0 & c0 & l3 & st0 & E0 & H0 & [Y|(i & Y1 & Y2)]).
  - exfalso. (* two clusters share a point *) subst l1. assert (NK : exists k0 k, k0 <> k /\ dget String.eqb k0 m = Some c0 /\ dget String.eqb k m = Some c).
    { clear -EL ND. rewrite <- app_assoc in EL. cbn [app] in EL. unfold values in EL. assert (SP : forall (m : dict string cluster) a x b y d, map snd m = a ++ x :: b ++ y :: d -> exists m1 k1 m2 k2 m3, m = m1 ++ (k1, x) :: m2 ++ (k2, y) :: m3).
      { clear. intros m a x b y d H. destruct (map_eq_app _ _ _ _ H) as (m1 & m' & -> & _ & H'). destruct m' as [|(k1, x') m']; [discriminate|]. cbn in H'. injection H' as -> H'. destruct (map_eq_app _ _ _ _ H') as (m2 & m'' & -> & _ & H''). destruct m'' as [|(k2, y') m3]; [discriminate|]. cbn in H''. injection H'' as -> _. exists m1, k1, m2, k2, m3. reflexivity. }
      destruct (SP _ _ _ _ _ _ EL) as (m1 & k1 & m2 & k2 & m3 & ->). exists k1, k2. split; [|split; apply (dget_nodup _ string_eqb_ok); auto; apply in_app_iff; right; [now left|right; apply in_app_iff; right; now left]].
      unfold keys in ND. rewrite map_app in ND. apply NoDup_remove_2 in ND. cbn [map fst] in ND. intros ->. apply ND. apply in_app_iff. right. apply in_map_iff. eexists (_, _). split; [reflexivity|]. apply in_app_iff. right. now left. }
    destruct NK as (k0 & k & NE & D0 & D1). exact (AP k0 k c0 c (is_inter s) x D0 D1 NE (conj Y X2)).
  - exists s, x, l0, c0, l3, st0, i. auto 10.
Qed.
End U.
