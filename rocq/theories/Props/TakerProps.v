(** * Which sheet takes a cluster: C131 *)
From Verif.Spec Require Import Plane Region PointSet1 Fingers Steps.
From Verif.Model Require Import Heuristics Arrangement2d.
From Verif.Proofs Require Import PyP ExtOrd DictP Geom1dP Geom1dM Geom2dP Geom2dOps ArrSoundP SheetplexP FingerP SheetbuildP HeuristicsP ClusterP HeuStepsP StepsP CreateP RunSharpP FullP InteractP OutcomeQ.
From Verif.Props Require Import Geom1dProps SheetplexProps Geom2dProps SheetbuildProps JointProps AssignProps MultiFailProps.
From Coq Require Import String Permutation.
Open Scope Qc_scope.

(** the sheet has a joint in the cluster *)
Definition in_cluster (sp : sheetplex) (cl : cluster) (k : string) : Prop := exists s, side_of sp s /\ is_sheet s = k /\ In (is_inter s) (keys cl).
(** the part of the bands of the sheet's joints that is ok and in the ranges of the cluster *)
Definition offered (sp : sheetplex) (sb : sbuild) (cl : cluster) (k : string) (p : point) : Prop :=
  exists s, side_of sp s /\ is_sheet s = k /\ strictly_between (offset_at s 0) (across s p) (offset_at s 1) /\ pts (ok_of sb (is_id s)) (along s p) /\ cpts cl (is_inter s) (along s p).
Definition is_offer (sp : sheetplex) (sb : sbuild) (cl : cluster) (k : string) (f : geom2d) : Prop := is_geom2d f /\ exists S, forall p, off_segs S p -> (in_geom f p <-> offered sp sb cl k p).

Lemma argmax_loop_ok l : forall best bv i r, Heuristics.argmax_loop best bv i l = r -> (best < i)%nat -> (r = best /\ forall w, In w l -> w <= bv) \/
  exists j v, r = (i + j)%nat /\ nth_error l j = Some v /\ bv < v /\ (forall n w, (n < j)%nat -> nth_error l n = Some w -> w < v) /\ (forall n w, (j < n)%nat -> nth_error l n = Some w -> w <= v).
Proof.
  induction l as [|v l IH]; intros best bv i r H B; cbn [Heuristics.argmax_loop] in H; [left; split; [congruence|intros w []]|]. destruct (qltb_spec bv v) as [L|L].
  - destruct (IH i v (S i) r H ltac:(lia)) as [(-> & K)|(j & u & E1 & E2 & E3 & E4 & E5)]; right.
    + exists 0%nat, v. split; [lia|]. split; [reflexivity|]. split; [exact L|]. split; [lia|]. intros [|n] w N E; [lia|]. cbn in E. apply K. exact (nth_error_In _ _ E).
    + exists (S j), u. split; [lia|]. split; [exact E2|]. split; [qlra|]. split; intros [|n] w N E; cbn [nth_error] in E; try lia; [apply some_inv in E as <-; exact E3|apply (E4 n); [lia|exact E]|apply (E5 n); [lia|exact E]].
  - destruct (IH best bv (S i) r H ltac:(lia)) as [(-> & K)|(j & u & E1 & E2 & E3 & E4 & E5)]; [left|right].
    + split; [reflexivity|]. intros w [<-|I]; [qlra|auto].
    + exists (S j), u. split; [lia|]. split; [exact E2|]. split; [exact E3|]. split; intros [|n] w N E; cbn [nth_error] in E; try lia; [apply some_inv in E as <-; qlra|apply (E4 n); [lia|exact E]|apply (E5 n); [lia|exact E]].
Qed.
Lemma argmax_ok l i : Heuristics.argmax l = Ok i -> exists v, nth_error l i = Some v /\ (forall n w, (n < i)%nat -> nth_error l n = Some w -> w < v) /\ (forall n w, (i < n)%nat -> nth_error l n = Some w -> w <= v).
Proof.
  destruct l as [|v l]; [discriminate|]. intros H. cbn [Heuristics.argmax] in H. apply Ok_inv in H. destruct (argmax_loop_ok l 0 v 1 i H ltac:(lia)) as [(-> & K)|(j & u & -> & E2 & E3 & E4 & E5)].
  - exists v. split; [reflexivity|]. split; [lia|]. intros [|n] w N E; [lia|]. apply K. exact (nth_error_In l n E).
  - exists u. split; [exact E2|]. split; intros [|n] w N E; cbn [nth_error] in E; try lia; [apply some_inv in E as <-; exact E3|apply (E4 n); [lia|exact E]|apply (E5 n); [lia|exact E]].
Qed.
Lemma Forall2_nth {X Y} (R : X -> Y -> Prop) l m : Forall2 R l m -> forall n x y, nth_error l n = Some x -> nth_error m n = Some y -> R x y.
Proof. induction 1 as [|a b l m H F IH]; intros [|n] x y E1 E2; cbn in E1, E2; try discriminate; [apply some_inv in E1 as <-; apply some_inv in E2 as <-; exact H|exact (IH n x y E1 E2)]. Qed.
Lemma Forall2_nth_ex {X Y} (R : X -> Y -> Prop) l m : Forall2 R l m -> forall n x, nth_error l n = Some x -> exists y, nth_error m n = Some y.
Proof. induction 1 as [|a b l m H F IH]; intros [|n] x E1; cbn in *; try discriminate; [eauto|exact (IH n x E1)]. Qed.
Lemma by_sheet_nodup l : forall m, NoDup (keys m) -> NoDup (keys (fold_left by_sheet l m)).
Proof. induction l as [|s l IH]; intros m N; cbn [fold_left]; auto. apply IH. unfold by_sheet. now apply (nodup_dset _ string_eqb_ok). Qed.
Lemma by_sheet_ne l : forall m k x, (forall j y, dget String.eqb j m = Some y -> y <> []) -> dget String.eqb k (fold_left by_sheet l m) = Some x -> x <> [].
Proof.
  induction l as [|s l IH]; intros m k x N D; cbn [fold_left] in D; [exact (N _ _ D)|]. refine (IH (by_sheet m s) k x _ D). intros j y. unfold by_sheet. rewrite (dget_dset _ string_eqb_ok).
  destruct (String.eqb j (is_sheet s)); [|apply N]. intros E. apply some_inv in E as <-. intros Z. apply app_eq_nil in Z as (_ & Z). discriminate.
Qed.

Section T.
Variable orc : list segment -> nat -> nat -> nat.
Let A := segment_arrangement orc.
Let SA : arr_sound A := arrangement_sound orc.
Variable fsqrt : Qc -> Qc.
(** the area that a sheet offers *)
Definition Offer (sp : sheetplex) (sb : sbuild) (cl : cluster) (k : string) (a : Qc) : Prop := exists f, is_offer sp sb cl k f /\ g2_area f = Ok a.
Variable sp : sheetplex.
Hypothesis M : plex_made sp.

Lemma off_bd g p : off_segs (all_segments g) p -> ~ on_bd g p.
Proof. intros O Y. apply on_bd_segments in Y as (e & Ee & Y). exact (O e Ee Y). Qed.
Lemma offer_fold sb cl l : legal sp sb -> cl_ok cl -> cgeom cl -> (forall s, In s l -> side_of sp s) -> forall f f', is_geom2d f ->
  foldM (fun fingers s => c <- gcl (is_inter s) cl ;; k <- iget (is_id s) (sb_iok sb) ;; r <- g_and c k ;; f <- make_fingers01 A s r ;; g2_or A fingers f) l f = Ok f' ->
  is_geom2d f' /\ exists S, forall p, off_segs S p -> (in_geom f' p <-> in_geom f p \/ exists s, In s l /\ strictly_between (offset_at s 0) (across s p) (offset_at s 1) /\ pts (ok_of sb (is_id s)) (along s p) /\ cpts cl (is_inter s) (along s p)).
Proof.
  intros L O CG'. assert (CG : forall j g, dget String.eqb j cl = Some g -> is_geom1d g) by (intros j g D; apply (dget_in _ string_eqb_ok) in D; exact (CG' _ _ D)). induction l as [|s l IH]; intros S f f' G H; cbn [foldM] in H.
  { apply Ok_inv in H as <-. split; [exact G|]. exists []. intros p _. split; [auto|]. intros [X|(? & [] & _)]. exact X. }
  apply bind_ok in H as (f1 & H1 & H). apply bind_ok in H1 as (c & C & H1). apply bind_ok in H1 as (k & K & H1). apply bind_ok in H1 as (r & Hr & H1). apply bind_ok in H1 as (fs & F & H1).
  pose proof (S s (or_introl eq_refl)) as Hs. apply dgetr_ok in C. pose proof (proj2 O _ _ C) as Nc. pose proof (legal_iok sp _ _ _ L K) as Gk. pose proof (is_geom1d_normal _ Gk) as Nk. apply dgetr_ok in K. assert (EK : ok_of sb (is_id s) = k) by now apply opt_get.
  assert (Nr : normal r) by exact (is_geom1d_normal _ (is_geom1d_and _ _ _ (CG _ _ C) Gk Hr)). assert (PR : forall x, pts r x <-> cpts cl (is_inter s) x /\ pts (ok_of sb (is_id s)) x) by (intros x; rewrite (and_pts _ _ _ x Nc Nk Hr), (cpts_get _ _ _ x C), EK; tauto).
  destruct (fingers_any A s r 0 1 fs SA (made_rot _ _ M Hs) Nr F) as (Gs & Pb & Pf). destruct (g2_or_ok A f fs f1 SA G Gs H1) as (G1 & B1 & I1).
  destruct (IH (fun t I => S t (or_intror I)) f1 f' G1 H) as (G' & S' & Q). split; [exact G'|]. exists (S' ++ all_segments f ++ all_segments fs ++ ends_lines s r).
  intros p Hp. apply off_segs_app in Hp as (P0 & Hp). apply off_segs_app in Hp as (P1 & Hp). apply off_segs_app in Hp as (P2 & P3). rewrite (Q p P0), I1 by (intros g [<-|[<-|[]]]; now apply off_bd).
  assert (FS : in_geom fs p <-> strictly_between (offset_at s 0) (across s p) (offset_at s 1) /\ pts (ok_of sb (is_id s)) (along s p) /\ cpts cl (is_inter s) (along s p)).
  { rewrite (Pf p (off_bd _ _ P2)). split.
    - intros (X1 & X2). apply inside1_pts, PR in X1. tauto.
    - intros (X1 & X2 & X3). assert (X : pts r (along s p)) by (apply PR; auto). exact (finger_band s r p (fingers_frame A s r fs _ (made_rot _ _ M Hs) X F) Nr X X1 P3). }
  rewrite FS. cbn [In]. split.
  - intros [[X|X]|(t & I & X)]; [auto|right; exists s; auto|right; exists t; auto].
  - intros [X|(t & [<-|I] & X)]; [auto|auto|right; exists t; auto].
Qed.
Lemma offer_ok sb cl bys sh o : legal sp sb -> cl_ok cl -> cgeom cl -> (forall s, In s (match dget String.eqb (sh_id sh) bys with Some l => l | None => [] end) <-> side_of sp s /\ is_sheet s = sh_id sh /\ In (is_inter s) (keys cl)) ->
  sheet_offer A fsqrt sb cl bys sh = Ok o -> exists f, is_offer sp sb cl (sh_id sh) f /\ g2_area f = Ok (fst o) /\
  exists fb x b, g2_buffer A fsqrt f (NMpq (qq 1 5)) = Ok fb /\ g2_and A fb (geom_at (sb_schosen sb) (sh_id sh)) = Ok x /\ g2_area x = Ok b /\ snd o = qleb b (qq 3 5).
Proof.
  intros L O CG SI H. unfold sheet_offer in H. apply bind_ok in H as (f & H1 & H). apply bind_ok in H as (a & H2 & H). apply bind_ok in H as (fb & H3 & H). apply bind_ok in H as (c & H4 & H). apply bind_ok in H as (x & H5 & H). apply bind_ok in H as (b & H6 & H). apply Ok_inv in H as <-.
  exists f. split; [|split; [exact H2|]].
  - destruct (offer_fold sb cl _ L O CG (fun s I => proj1 (proj1 (SI s) I)) _ f (Forall_nil _) H1) as (G & S & Q). split; [exact G|]. exists S. intros p Hp. rewrite (Q p Hp). split.
    + intros [(? & [] & _)|(s & I & X)]. apply SI in I as (I1 & I2 & _). exists s. tauto.
    + intros (s & I1 & I2 & X1 & X2 & X3). right. exists s. split; [|auto]. apply SI. split; [auto|]. split; [auto|]. apply cpts_some in X3 as (g & D & _). apply (dget_in _ string_eqb_ok) in D. unfold keys. apply in_map_iff. exists (is_inter s, g). auto.
  - exists fb, x, b. assert (E5 : qq 1 5 = eps) by (apply Qc_is_canon; reflexivity). assert (E35 : qq 3 5 = min_finger * eps) by (apply Qc_is_canon; reflexivity). rewrite E5, E35. split; [exact H3|]. apply dgetr_ok in H4. unfold geom_at. rewrite H4. cbn [opt snd]. auto.
Qed.
Variable ord : dict string geom1d -> dict string geom1d.
Variable sord : list string -> list string.
Hypothesis ORD : forall c, Permutation c (ord c).
(** ** C131 *)
Lemma taker st cl st' : legal sp (fst st) -> cl_ok cl -> cgeom cl -> decide_cluster A fsqrt ord sord st cl = Ok st' -> legal sp (fst st') /\ exists C cl',
  (exists ids l1 l2 f area fb x b, NoDup ids /\ (forall k, In k ids <-> in_cluster sp cl k) /\ sord ids = l1 ++ C :: l2 /\ is_offer sp (fst st) cl C f /\ g2_area f = Ok area /\
     (forall k, In k l1 -> exists b, Offer sp (fst st) cl k b /\ b < area) /\ (forall k, In k l2 -> exists b, Offer sp (fst st) cl k b /\ b <= area) /\
     g2_buffer A fsqrt f (NMpq (qq 1 5)) = Ok fb /\ g2_and A fb (geom_at (sb_schosen (fst st)) C) = Ok x /\ g2_area x = Ok b /\
     ((qq 3 5 < b /\ cl' = cl) \/ (b <= qq 3 5 /\ exists s i, side_of sp s /\ is_sheet s = C /\ extra_range (fst st) cl s i /\ forall j x, cpts cl' j x <-> cpts cl j x \/ (j = is_inter s /\ in_iv x i)))) /\
  forall s x, side_of sp s ->
    (pts (chosen_of (fst st') (is_id s)) x <-> pts (chosen_of (fst st) (is_id s)) x \/ (is_sheet s = C /\ cpts cl' (is_inter s) x /\ pts (ok_of (fst st) (is_id s)) x)) /\
    (pts (ok_of (fst st') (is_id s)) x <-> pts (ok_of (fst st) (is_id s)) x /\ ~ (is_sheet s <> C /\ cpts cl' (is_inter s) x)).
Proof.
  intros L O G H. destruct st as [sb ci]. unfold decide_cluster in H. cbn [fst] in *. rewrite (iv_plex sp sb L) in H. apply bind_ok in H as (its & ITS & H). apply bind_ok in H as (shs & SHS & H). apply bind_ok in H as (off & OFF & H). apply bind_ok in H as (ch & CH & H).
  destruct (nth_error shs ch) as [sh|] eqn:ESH; [|discriminate]. destruct (nth_error off ch) as [(a & ne)|] eqn:EOF; [|discriminate]. apply bind_ok in H as (cl' & H1 & H).
  set (l := match dget String.eqb (sh_id sh) (fold_left by_sheet (flat_map it_sides its) []) with Some l => l | None => [] end) in *.
  assert (IL : forall s, In s l <-> side_of sp s /\ is_sheet s = sh_id sh /\ In (is_inter s) (keys cl)).
  { apply PyP.mapM_ok in ITS. intros s. unfold l. rewrite by_sheet_get. cbn [dget In]. split.
    - intros [[]|(I & E)]. apply in_flat_map in I as (it & I & Is). destruct (forall2_back _ _ _ _ ITS I) as (k & Ik & D). apply dgetr_ok in D. apply (dget_in _ string_eqb_ok) in D. split; [exists k, it; auto|]. split; [auto|].
      destruct (made_sides sp k it s M D Is) as (-> & _). unfold keys in *. apply in_map_iff in Ik as (e & <- & Ie). apply in_map. exact (Permutation_in _ (Permutation_sym (ORD cl)) Ie).
    - intros ((k & it & I & Is) & E & IK). right. split; [|auto]. apply in_flat_map. exists it. split; [|exact Is]. destruct (made_sides sp k it s M I Is) as (E1 & _). rewrite E1 in IK.
      assert (IK' : In k (keys (ord cl))) by (unfold keys in *; apply in_map_iff in IK as (e & <- & Ie); apply in_map; exact (Permutation_in _ (ORD cl) Ie)).
      destruct (Forall2_in _ _ _ _ ITS IK') as (it' & I2 & E2). apply dgetr_ok in E2. apply (dget_in _ string_eqb_ok) in E2. now rewrite <- (inters_unique sp M k it' it E2 I). }
  set (bys := fold_left by_sheet (flat_map it_sides its) []) in *.
  assert (SIDE : forall k s, In s (match dget String.eqb k bys with Some l => l | None => [] end) <-> side_of sp s /\ is_sheet s = k /\ In (is_inter s) (keys cl)).
  { clear IL. apply PyP.mapM_ok in ITS. intros k s. unfold bys. rewrite by_sheet_get. cbn [dget In]. split.
    - intros [[]|(I & E)]. apply in_flat_map in I as (it & I & Is). destruct (forall2_back _ _ _ _ ITS I) as (k' & Ik & D). apply dgetr_ok in D. apply (dget_in _ string_eqb_ok) in D. split; [exists k', it; auto|]. split; [auto|].
      destruct (made_sides sp k' it s M D Is) as (-> & _). unfold keys in *. apply in_map_iff in Ik as (e & <- & Ie). apply in_map. exact (Permutation_in _ (Permutation_sym (ORD cl)) Ie).
    - intros ((k' & it & I & Is) & E & IK). right. split; [|auto]. apply in_flat_map. exists it. split; [|exact Is]. destruct (made_sides sp k' it s M I Is) as (E1 & _). rewrite E1 in IK.
      assert (IK' : In k' (keys (ord cl))) by (unfold keys in *; apply in_map_iff in IK as (e & <- & Ie); apply in_map; exact (Permutation_in _ (ORD cl) Ie)).
      destruct (Forall2_in _ _ _ _ ITS IK') as (it' & I2 & E2). apply dgetr_ok in E2. apply (dget_in _ string_eqb_ok) in E2. now rewrite <- (inters_unique sp M k' it' it E2 I). }
  assert (IDS : forall k, In k (keys bys) <-> in_cluster sp cl k).
  { intros k. split.
    - intros I. destruct (dget String.eqb k bys) as [x|] eqn:D; [|exfalso; exact (proj1 (dget_none _ string_eqb_ok _ _) D I)]. assert (NE : x <> []) by (refine (by_sheet_ne _ [] k x _ D); intros ? ? W; discriminate W).
      destruct x as [|s x]; [congruence|]. exists s. apply SIDE. rewrite D. now left.
    - intros (s & X). pose proof (proj2 (SIDE k s) X) as Y. destruct (dget String.eqb k bys) as [x|] eqn:D; [|destruct Y]. apply (dget_in _ string_eqb_ok) in D. unfold keys. apply in_map_iff. exists (k, x). auto. }
  assert (NDB : NoDup (keys bys)) by (unfold bys; apply by_sheet_nodup; constructor).
  assert (TK : exists ids l1 l2 f area fb x b, NoDup ids /\ (forall k, In k ids <-> in_cluster sp cl k) /\ sord ids = l1 ++ sh_id sh :: l2 /\ is_offer sp sb cl (sh_id sh) f /\ g2_area f = Ok area /\
    (forall k, In k l1 -> exists b, Offer sp sb cl k b /\ b < area) /\ (forall k, In k l2 -> exists b, Offer sp sb cl k b /\ b <= area) /\
    g2_buffer A fsqrt f (NMpq (qq 1 5)) = Ok fb /\ g2_and A fb (geom_at (sb_schosen sb) (sh_id sh)) = Ok x /\ g2_area x = Ok b /\ ne = qleb b (qq 3 5)).
  { exists (keys bys). clear H H1 IL ITS l cl'. apply PyP.mapM_ok in SHS. apply PyP.mapM_ok in OFF. destruct (argmax_ok _ _ CH) as (v & EV & BEF & AFT). 
    assert (ESI : map sh_id shs = sord (keys bys)). { clear -SHS M. destruct (made_sheets_fresh _ M) as (_ & NI). induction SHS as [|k s ks ss D _ IH]; [reflexivity|]. cbn [map]. rewrite IH. f_equal. apply dgetr_ok in D. apply (dget_in _ string_eqb_ok) in D. exact (NI _ _ D). }
    destruct (nth_error_split _ _ ESH) as (s1 & s2 & E1 & LN). rewrite nth_error_map, EOF in EV. cbn [option_map fst] in EV. apply some_inv in EV as <-.
    assert (ALL : forall n sh' o, nth_error shs n = Some sh' -> nth_error off n = Some o -> exists f, is_offer sp sb cl (sh_id sh') f /\ g2_area f = Ok (fst o) /\
      exists fb x b, g2_buffer A fsqrt f (NMpq (qq 1 5)) = Ok fb /\ g2_and A fb (geom_at (sb_schosen sb) (sh_id sh')) = Ok x /\ g2_area x = Ok b /\ snd o = qleb b (qq 3 5)).
    { intros n sh' o E2 E3. apply (offer_ok sb cl bys); auto. exact (Forall2_nth _ _ _ OFF n _ _ E2 E3). }
    destruct (ALL _ _ _ ESH EOF) as (f & A1 & A2 & fb & x & b & A3 & A4 & A5 & A6). cbn [fst snd] in A2, A6. exists (map sh_id s1), (map sh_id s2), f, a, fb, x, b. split; [exact NDB|]. split; [exact IDS|]. split; [rewrite <- ESI, E1, map_app; reflexivity|]. split; [exact A1|]. split; [exact A2|]. split; [|split; [|auto]].
    - intros k I. apply in_map_iff in I as (s' & <- & I). apply In_nth_error in I as (n & En). assert (Ln : (n < List.length s1)%nat) by (apply nth_error_Some; congruence).
      assert (E2 : nth_error shs n = Some s') by (rewrite E1, nth_error_app1; auto). destruct (Forall2_nth_ex _ _ _ OFF n _ E2) as (o & E3). destruct (ALL n s' o E2 E3) as (f' & B1 & B2 & _). exists (fst o). split; [exists f'; auto|]. apply (BEF n); [lia|]. now rewrite nth_error_map, E3.
    - intros k I. apply in_map_iff in I as (s' & <- & I). apply In_nth_error in I as (n & En). 
      assert (E2 : nth_error shs (S ch + n) = Some s') by (rewrite E1, <- LN, nth_error_app2 by lia; replace (S (List.length s1) + n - List.length s1)%nat with (S n) by lia; exact En). destruct (Forall2_nth_ex _ _ _ OFF _ _ E2) as (o & E3). destruct (ALL _ s' o E2 E3) as (f' & B1 & B2 & _). exists (fst o). split; [exists f'; auto|]. apply (AFT (S ch + n)%nat); [lia|]. now rewrite nth_error_map, E3. }
  clear OFF CH EOF SHS ESH off shs.
  clearbody l. clear SIDE IDS NDB. clearbody bys. clear ITS its bys.
  assert (LG : cl_ok cl' /\ cgeom cl' /\ (forall j x, cpts cl' j x -> In j (keys cl)) /\ ((ne = false /\ cl' = cl) \/ (ne = true /\ exists s i, side_of sp s /\ is_sheet s = sh_id sh /\ extra_range sb cl s i /\ forall j x, cpts cl' j x <-> cpts cl j x \/ (j = is_inter s /\ in_iv x i)))).
  { assert (KY : forall j x, cpts cl j x -> In j (keys cl)). { intros j x X. apply cpts_some in X as (g & D & _). apply (dget_in _ string_eqb_ok) in D. unfold keys. apply in_map_iff. exists (j, g). auto. }
    destruct ne; [|apply Ok_inv in H1 as <-; auto 6]. apply bind_ok in H1 as ([c|] & H1 & H2); [|discriminate]. apply Ok_inv in H2 as <-. destruct (extra_larger sp sb _ _ _ L O G H1) as (X & _).
    destruct (extra_exact fsqrt sp M sb l cl c L O G (fun s I => proj1 (proj1 (IL s) I)) H1) as (s & i & Is & KS & EX & PC). split; [auto|]. split; [exact (extra_geom sp sb _ _ _ L G H1)|]. split.
    - intros j x Y. apply PC in Y as [Y|(-> & _)]; [exact (KY j x Y)|exact KS].
    - right. split; [reflexivity|]. exists s, i. apply IL in Is as (S1 & S2 & _). auto. }
  destruct LG as (O' & G' & KY & LG). clear H1. apply bind_ok in H as ((sb0 & ci0) & H1 & H). apply hcheck_ok in H1. cbn [fst] in H1. subst sb0. apply bind_ok in H as (sb1 & H1 & H). apply bind_ok in H as (sb2 & H2 & H). apply hcheck_ok in H. rewrite H. cbn [fst]. clear H.
  destruct (choose_fold A fsqrt sp M cl' (sh_id sh) l O' G') with (a := sb) (b := sb1) as (L1 & Q1); [intros s I; apply IL in I; tauto|exact L|exact H1|].
  destruct (give_fold A fsqrt sp M (sh_id sh) (ord cl')) with (a := sb1) (b := sb2) as (L2 & EC & Q2); [intros j r I; apply (Permutation_in _ (Permutation_sym (ORD cl'))) in I; exact (G' _ _ I)|exact L1|exact H2|].
  split; [exact L2|]. exists (sh_id sh), cl'. split.
  { destruct TK as (ids & l1 & l2 & f & ar & fb & y & b & T1 & T2 & T3 & T4 & T5 & T6 & T7 & T8 & T9 & T10 & T11). exists ids, l1, l2, f, ar, fb, y, b. repeat (split; [assumption|]). destruct LG as [(E & LG)|(E & LG)]; [left|right]; (split; [|exact LG]); rewrite T11 in E; destruct (qleb_spec b (qq 3 5)) as [Y|Y]; try discriminate E; [now apply Qcnot_le_lt|exact Y]. }
  clear TK. intros s x Hs. destruct (Q1 s x Hs) as (Q11 & Q12). specialize (Q2 s x Hs). split.
  - unfold chosen_of at 1. rewrite EC. fold (chosen_of sb1 (is_id s)). rewrite Q11, IL. split; intros [X|(X & Y & Z)]; [auto|right; tauto|auto|]. right. split; [|auto]. split; [auto|]. split; [auto|]. exact (KY _ _ Y).
  - rewrite Q2, Q12. assert (CI : (exists r, In (is_inter s, r) (ord cl') /\ pts r x) <-> cpts cl' (is_inter s) x).
    { split.
      - intros (r & I & X). apply (Permutation_in _ (Permutation_sym (ORD cl'))) in I. apply (dget_nodup _ string_eqb_ok) in I; [|apply O']. now apply (cpts_get _ _ _ x I).
      - intros X. apply cpts_some in X as (r & D & X). exists r. split; [|auto]. apply (Permutation_in _ (ORD cl')). now apply (dget_in _ string_eqb_ok). }
    rewrite CI. split; [intros ((X & N1) & N2); auto|]. intros (X & N). split; [split; [auto|]|auto]. intros (t & Jt & It & Y & Z). apply N. apply IL in It as (Ht & Et & _). destruct Jt as (_ & Jt).
    destruct (made_opp sp t M Ht) as (o & O1 & _ & _ & _ & O5 & O6 & _). rewrite Jt in O1. apply Ok_inv in O1 as <-. split; [congruence|]. now rewrite O6.
Qed.
End T.
(** the sheet [C] that takes the cluster offers the largest area, the first of these in the order of the set; the cluster grows exactly when what [C] offers touches its chosen material too little *)
Theorem cluster_taker : forall orc fsqrt sp ord sord st cl st', plex_made sp -> (forall c, Permutation c (ord c)) -> legal sp (fst st) ->
  NoDup (keys cl) -> (forall k r, In (k, r) cl -> is_geom1d r) -> decide_cluster (segment_arrangement orc) fsqrt ord sord st cl = Ok st' -> exists C cl',
  (exists ids l1 l2 f area fb x b, NoDup ids /\ (forall k, In k ids <-> in_cluster sp cl k) /\ sord ids = l1 ++ C :: l2 /\ is_offer sp (fst st) cl C f /\ g2_area f = Ok area /\
     (forall k, In k l1 -> exists b, Offer sp (fst st) cl k b /\ b < area) /\ (forall k, In k l2 -> exists b, Offer sp (fst st) cl k b /\ b <= area) /\
     g2_buffer (segment_arrangement orc) fsqrt f (NMpq (qq 1 5)) = Ok fb /\ g2_and (segment_arrangement orc) fb (geom_at (sb_schosen (fst st)) C) = Ok x /\ g2_area x = Ok b /\
     ((qq 3 5 < b /\ cl' = cl) \/ (b <= qq 3 5 /\ exists s i, side_of sp s /\ is_sheet s = C /\ extra_range (fst st) cl s i /\ forall j x, cpts cl' j x <-> cpts cl j x \/ (j = is_inter s /\ in_iv x i)))) /\
  forall s x, side_of sp s ->
    (pts (chosen_of (fst st') (is_id s)) x <-> pts (chosen_of (fst st) (is_id s)) x \/ (is_sheet s = C /\ cpts cl' (is_inter s) x /\ pts (ok_of (fst st) (is_id s)) x)) /\
    (pts (ok_of (fst st') (is_id s)) x <-> pts (ok_of (fst st) (is_id s)) x /\ ~ (is_sheet s <> C /\ cpts cl' (is_inter s) x)).
Proof.
  intros orc fsqrt sp ord sord st cl st' M O L ND G H. assert (CO : cl_ok cl) by (split; [exact ND|]; intros j g D; apply (dget_in _ string_eqb_ok) in D; exact (is_geom1d_normal _ (G _ _ D))).
  exact (proj2 (taker orc fsqrt sp M ord sord O st cl st' L CO G H)).
Qed.
Print Assumptions cluster_taker.

(** Non-vacuity, with the sheets of [MultiFailEx]: on the joint of s0 and s3, s3 offers the wider band.
    What it offers up to 4 touches its material well enough. *)
Module TakerEx.
Import MultiFailEx.
Definition bd (e : ext) : option Q := match e with Fin q => Some (this q) | _ => None end.
Definition rd (g : geom1d) : list (option Q * option Q) := map (fun i => (bd (fst i), bd (snd i))) g.
Definition cl (w : Z) : cluster := [("s0,s3"%string, iv 0 (zq w))].
Definition got (w : Z) := match decide_cluster A fs (fun c => c) (fun l => l) (start 9, 1%Z) (cl w) with Ok (sb, _) => Some (rd (chosen_of sb c0), rd (chosen_of sb c3), rd (ok_of sb c0)) | Err _ => None end.
End TakerEx.
Example taker_ex : plex_made MultiFailEx.sp /\ legal MultiFailEx.sp (MultiFailEx.start 9) /\ NoDup (keys (TakerEx.cl 4)) /\ (forall k r, In (k, r) (TakerEx.cl 4) -> is_geom1d r) /\
  TakerEx.got 4 = Some ([], TakerEx.rd (MultiFailEx.iv 0 (zq 4)), TakerEx.rd (MultiFailEx.iv (zq 4) (zq 9))).
Proof.
  split; [exact MultiFailEx.made|]. split; [exact (gd_legal _ _ (proj1 (MultiFailEx.good_start 9 eq_refl)))|]. split; [repeat constructor; intros []|]. split.
  - intros k r [E|[]]. apply pair_inv in E as (_ & <-). now apply MultiFailEx.rng_geom.
  - vm_compute; reflexivity.
Qed.
