(** * C140: a minimal finger width above the maximal one, or below zero, gives no fingers.  C144: widths of zero. *)
From Verif.Spec Require Import PointSet1.
From Verif.Model Require Import Heuristics.
From Verif.Proofs Require SweepP.
From Verif.Proofs Require Import PyP ExtOrd DictP Geom1dP Geom1dM SheetplexP FingerP SheetbuildP HeuristicsP ClusterP HeuStepsP.
From Verif.Props Require Import Geom1dProps SheetplexProps SheetbuildProps HeuristicsProps AssignProps.
From Coq Require Import String Permutation.
Open Scope Qc_scope.

Lemma negative_range odd len mn mx : 0 < len -> mn < 0 -> 0 < mx -> exists a b, count_range odd len mn mx = Ok (a, b) /\ (b < a)%Z.
Proof.
  intros L N M. unfold count_range, qdivr. destruct (qeqb_spec mx 0) as [E|_]; [exfalso; rewrite E in M; qlra|]. destruct (qeqb_spec mn 0) as [E|NZ]; [exfalso; rewrite E in N; qlra|]. cbn [bind].
  assert (A : (1 <= np_ceil (len / mx))%Z).
  { assert (P : 0 < len / mx) by (apply SweepP.qdiv_pos; auto). destruct (np_ceil_spec (len / mx)) as (C1 & C2). assert (0 < np_ceil (len / mx))%Z; [|lia]. apply zq_lt_inv. change (zq 0) with 0. qlra. }
  assert (B : (np_floor (len / mn) <= -1)%Z).
  { assert (P : len / mn < 0). { assert (Q : 0 < len / (- mn)) by (apply SweepP.qdiv_pos; [auto|qlra]). assert (E : len / mn = - (len / (- mn))) by (field; split; [intros Z; apply NZ; rewrite <- (Qcopp_involutive mn), Z; ring|auto]). rewrite E. qlra. }
    destruct (np_floor_spec (len / mn)) as (C1 & C2). assert (np_floor (len / mn) < 0)%Z; [|lia]. apply zq_lt_inv. change (zq 0) with 0. qlra. }
  set (a := np_ceil (len / mx)) in *. set (b := np_floor (len / mn)) in *. clearbody a b. pose proof (Z.mod_pos_bound a 2 ltac:(lia)). pose proof (Z.mod_pos_bound b 2 ltac:(lia)).
  destruct odd; eexists; eexists; (split; [reflexivity|lia]).
Qed.
(** no number of fingers fits *)
Theorem swapped_no_room : forall fl R mn mx on0 on1 start end_ k, 0 < mx -> mx < mn \/ mn < 0 -> start < end_ -> plan_fingers fl R mn mx on0 on1 start end_ k = Ok (None, k).
Proof.
  intros fl R mn mx on0 on1 start end_ k M0 [MM|NG] SE.
  - assert (L0 : 0 < end_ - start) by qlra. assert (MP : 0 < mn) by qlra.
    unfold plan_fingers. destruct (count_range_ok (xorb on0 on1) _ mn mx L0 MP M0) as (a & b & -> & A0 & A1 & A2 & _). cbn [bind].
    destruct (Z.ltb_spec b a) as [_|X]; [reflexivity|exfalso]. apply zq_le in X. apply zq_le in A0. change (zq 1) with 1 in A0. assert (O1 : 0 < 1) by reflexivity. set (u := zq a) in *. set (v := zq b) in *. clearbody u v.
    assert (U : 0 < u) by qlra.
    assert (mx * u <= mx * v) by (clear - X M0; qnra). assert (mx * v < mn * v) by (assert (0 < v) by qlra; clear - H0 MM; qnra). assert (mx * u < mn * u) by (clear - U MM; qnra).
    assert (mn * u <= mn * v) by (clear - X MP; qnra). qlra.
  - assert (L0 : 0 < end_ - start) by qlra. unfold plan_fingers. destruct (negative_range (xorb on0 on1) _ mn mx L0 NG M0) as (a & b & -> & X). cbn [bind]. destruct (Z.ltb_spec b a); [reflexivity|lia].
Qed.
Print Assumptions swapped_no_room.

Section S.
Variable A : arr_impl.
Variable fl : Qc -> Qc.
Variable R : rng.
Variables mn mx : Qc.
Hypothesis M0 : 0 < mx.
Hypothesis MM : mx < mn \/ mn < 0.
(** the side [s0] has taken the ranges [l] *)
Definition taken (sb sb' : sbuild) (s0 s1 : interside) (l : list iv) : Prop :=
  (forall x, pts (chosen_of sb' (is_id s0)) x <-> pts (chosen_of sb (is_id s0)) x \/ pts l x) /\
  (forall j, j <> is_id s0 -> chosen_of sb' j = chosen_of sb j) /\ (forall j, j <> is_id s1 -> ok_of sb' j = ok_of sb j).
Lemma range_swapped sp s0 s1 sb k i sb' k' : plex_made sp -> legal sp sb -> joint sp s0 s1 -> elt (fst i) (snd i) ->
  fingers_range A fl R mn mx s0 s1 (sb, k) i = Ok (sb', k') -> legal sp sb' /\ taken sb sb' s0 s1 [i].
Proof.
  intros MD L J LT H. destruct i as [[|start|] [|end_|]]; try discriminate. change (start < end_) in LT. cbn [fingers_range] in H.
  apply bind_ok in H as (g & G & H). apply bind_ok in H as (on0 & _ & H). apply bind_ok in H as (on1 & _ & H). rewrite (swapped_no_room fl R mn mx on0 on1 start end_ k M0 MM LT) in H. cbn [bind] in H.
  apply bind_ok in H as (sb1 & C & H). apply Ok_inv in H. apply pair_inv in H as (<- & <-).
  pose proof (is_geom1d_new _ _ G) as V. split; [exact (proj1 (choose_undecided A sp sb s0 s1 g false sb1 MD L V J C))|].
  pose proof (iv_plex sp sb L) as EP. assert (M' : plex_made (sb_plex sb)) by now rewrite EP.
  destruct (choose_local A sb (is_id s0) g false sb1 M' (legal_legal1 sp sb L) V C) as (s' & o' & (Hs' & Ho') & ES & _ & C1 & C2 & K1 & K2 & _).
  destruct J as (Hs & Ho). rewrite EP in Hs', Ho'. pose proof (made_unique sp s' s0 MD Hs' Hs ES) as ->. rewrite Ho in Ho'. apply Ok_inv in Ho' as <-.
  split; [|split; [intros j N; now apply (only_of _ _ _ _ C1)|intros j N; now apply (only_of _ _ _ _ K1)]].
  intros x. rewrite C2. assert (LE : start <= end_) by qlra. destruct (span_ok start end_ LE) as (g' & G' & _ & P). change (Geom1D [[NMpq start; NMpq end_]] = Ok g) in G. rewrite G in G'. apply Ok_inv in G' as <-. rewrite P.
  assert (E : pts [(Fin start, Fin end_)] x <-> start <= x /\ x < end_). { split; [intros (i & [<-|[]] & Q); exact Q|intros Q; exists (Fin start, Fin end_); split; [now left|exact Q]]. }
  rewrite E. tauto.
Qed.
Lemma ranges_swapped sp s0 s1 l : forall st st', plex_made sp -> legal sp (fst st) -> joint sp s0 s1 -> (forall i, In i l -> elt (fst i) (snd i)) ->
  foldM (fingers_range A fl R mn mx s0 s1) l st = Ok st' -> legal sp (fst st') /\ taken (fst st) (fst st') s0 s1 l.
Proof.
  induction l as [|i l IH]; intros st st' MD L J LT H; cbn [foldM] in H.
  - apply Ok_inv in H as <-. split; auto. assert (NE : forall x, ~ pts [] x) by (intros x (? & [] & _)). split; [intros x; specialize (NE x); tauto|auto].
  - apply bind_ok in H as ((sb1 & k1) & H1 & H). destruct st as [sb k]. cbn [fst] in *. destruct (range_swapped sp s0 s1 sb k i sb1 k1 MD L J (LT i (or_introl eq_refl)) H1) as (L1 & T1 & T2 & T3).
    destruct (IH (sb1, k1) st' MD L1 J (fun i' I => LT i' (or_intror I)) H) as (L2 & U1 & U2 & U3). cbn [fst] in *. split; auto.
    split; [|split; [intros j N; rewrite U2, T2 by auto; reflexivity|intros j N; rewrite U3, T3 by auto; reflexivity]]. intros x. rewrite U1, T1.
    assert (E : pts (i :: l) x <-> pts [i] x \/ pts l x). { unfold pts. split; [intros (q & [<-|I] & Q); [left; exists i; split; [now left|auto]|right; eauto]|intros [(q & [<-|[]] & Q)|(q & I & Q)]; [exists i; split; [now left|auto]|exists q; split; [now right|auto]]]. }
    rewrite E. tauto.
Qed.
(** one joint *)
Definition all_to_first (sb sb' : sbuild) (s0 s1 : interside) : Prop :=
  (forall x, pts (chosen_of sb' (is_id s0)) x <-> pts (chosen_of sb (is_id s0)) x \/ undecided sb (is_id s0) x) /\ chosen_of sb' (is_id s1) = chosen_of sb (is_id s1).
Lemma inter_swapped sp k it st st' : plex_made sp -> legal sp (fst st) -> In (k, it) (sp_inters sp) -> fingers_inter A fl R mn mx st it = Ok st' ->
  legal sp (fst st') /\ exists s0 s1, it_sides it = [s0; s1] /\ fst (is_id s0) = k /\ fst (is_id s1) = k /\ all_to_first (fst st) (fst st') s0 s1 /\
    forall j, fst j <> k -> chosen_of (fst st') j = chosen_of (fst st) j /\ ok_of (fst st') j = ok_of (fst st) j.
Proof.
  intros MD L I H. destruct (made_two sp k it MD I) as (s0 & s1 & ES & NS & _ & O1 & _). unfold fingers_inter in H. rewrite ES in H.
  apply bind_ok in H as (k0 & K0 & H). apply bind_ok in H as (k1 & K1 & H). apply bind_ok in H as (c0 & C0 & H). apply bind_ok in H as (c1 & C1 & H).
  apply bind_ok in H as (a0 & A0 & H). apply bind_ok in H as (a1 & A1 & H). apply bind_ok in H as (df & D & H). apply bind_ok in H as (u & ML & H).
  assert (J : joint sp s0 s1) by (split; [exists k, it; rewrite ES; split; auto; now left|auto]).
  assert (Nk0 : normal k0) by (apply is_geom1d_normal; exact (legal_iok sp _ _ _ L K0)). assert (Nc0 : normal c0) by (apply is_geom1d_normal; exact (legal_ich sp _ _ _ L C0)).
  apply dgetr_ok in K0, C0. assert (E1 : ok_of (fst st) (is_id s0) = k0) by now apply opt_get. assert (E3 : chosen_of (fst st) (is_id s0) = c0) by now apply opt_get.
  assert (P0 : forall x, undecided (fst st) (is_id s0) x <-> pts a0 x) by (intros x; unfold undecided; rewrite E1, E3; symmetry; now apply sub_pts).
  assert (Na0 : normal a0) by (rewrite g_sub_ok in A0 by auto; apply Ok_inv in A0 as <-; now apply sub_normal).
  destruct (ranges_swapped sp s0 s1 a0 st st' MD L J (normal_lt a0 Na0) H) as (L' & T1 & T2 & T3). split; auto.
  destruct (made_sides sp k it s0 MD I) as (_ & F0); [rewrite ES; now left|]. destruct (made_sides sp k it s1 MD I) as (_ & F1); [rewrite ES; right; now left|].
  exists s0, s1. split; auto. split; [rewrite F0; reflexivity|]. split; [rewrite F1; reflexivity|]. split.
  - split; [intros x; rewrite T1, P0; reflexivity|]. apply T2. rewrite F0, F1. congruence.
  - intros j N. split; [apply T2|apply T3]; intros ->; apply N; rewrite ?F0, ?F1; reflexivity.
Qed.
Lemma inters_swapped sp d : forall st st', plex_made sp -> legal sp (fst st) -> (forall e, In e d -> In e (sp_inters sp)) -> NoDup (map fst d) -> foldM (fingers_inter A fl R mn mx) (map snd d) st = Ok st' ->
  (forall j, ~ In (fst j) (map fst d) -> chosen_of (fst st') j = chosen_of (fst st) j /\ ok_of (fst st') j = ok_of (fst st) j) /\
  forall k it, In (k, it) d -> exists s0 s1, it_sides it = [s0; s1] /\ all_to_first (fst st) (fst st') s0 s1.
Proof.
  induction d as [|(k, it) d IH]; intros st st' MD L IN ND H; cbn [map foldM snd] in H; [apply Ok_inv in H as <-; split; [auto|intros k it []]|].
  apply bind_ok in H as (s & H1 & H). destruct (inter_swapped sp k it st s MD L (IN _ (or_introl eq_refl)) H1) as (L1 & s0 & s1 & ES & F0 & F1 & T & O).
  cbn [map fst] in ND. apply NoDup_cons_iff in ND as (NI & ND). destruct (IH s st' MD L1 (fun e I => IN e (or_intror I)) ND H) as (O' & T'). split.
  - intros j N. cbn [map fst In] in N. destruct (O j) as (X1 & X2); [intros E; apply N; left; auto|]. destruct (O' j) as (Y1 & Y2); [tauto|]. rewrite Y1, Y2. auto.
  - intros k' it' [E|I].
    + apply pair_inv in E as (<- & <-). exists s0, s1. split; auto. destruct T as (T1 & T2). destruct (O' (is_id s0)) as (X & _); [now rewrite F0|]. destruct (O' (is_id s1)) as (Y & _); [now rewrite F1|]. split; [intros x; rewrite X; apply T1|now rewrite Y].
    + destruct (T' k' it' I) as (t0 & t1 & ET & Q1 & Q2). exists t0, t1. split; auto. pose proof (IN _ (or_intror I)) as I'.
      assert (NK : k' <> k) by (intros ->; apply NI; apply in_map_iff; exists (k, it'); auto).
      destruct (made_sides sp k' it' t0 MD I') as (_ & G0); [rewrite ET; now left|]. destruct (made_sides sp k' it' t1 MD I') as (_ & G1); [rewrite ET; right; now left|].
      destruct (O (is_id t0)) as (X1 & X2); [now rewrite G0|]. destruct (O (is_id t1)) as (Y1 & Y2); [now rewrite G1|].
      split; [intros x; rewrite Q1; unfold undecided; rewrite X1, X2; reflexivity|congruence].
Qed.
End S.

(** Whenever the step returns, the first side of every joint has taken all that was open for it, and the second side nothing. *)
Theorem swapped_widths_no_fingers : forall A fl R mn mx sp st st', 0 < mx -> mx < mn \/ mn < 0 -> plex_made sp -> legal sp (fst st) -> single_fingers_random A fl R mn mx st = Ok st' ->
  forall k it, In (k, it) (sp_inters sp) -> exists s0 s1, it_sides it = [s0; s1] /\ all_to_first (fst st) (fst st') s0 s1.
Proof.
  intros A fl R mn mx sp st st' M0 MM MD L H. unfold single_fingers_random in H. apply bind_ok in H as ((sb & ci) & H1 & H). apply hcheck_ok in H1. cbn [fst] in H1. subst sb.
  apply bind_ok in H as ((sb & k) & H2 & H). apply Ok_inv in H as <-. cbn [fst]. rewrite (iv_plex sp _ L) in H2. pose proof MD as (fr & sp0 & F & C). destruct (created fr sp0 sp F C) as (_ & ND & _).
  destruct (inters_swapped A fl R mn mx M0 MM sp (sp_inters sp) (fst st, O) (sb, k)) as (_ & T); auto.
Qed.
Print Assumptions swapped_widths_no_fingers.

(** The seed has no effect: any two generators and roundings give the same result. *)
Section Seed.
Variable A : arr_impl.
Variables fl fl' : Qc -> Qc.
Variables R R' : rng.
Variables mn mx : Qc.
Hypothesis M0 : 0 < mx.
Hypothesis MM : mx < mn \/ mn < 0.
Lemma bind_same {X Y} (r : result X) (f g : X -> result Y) : (forall a, r = Ok a -> f a = g a) -> bind r f = bind r g.
Proof. intros H. destruct r; [now apply H|reflexivity]. Qed.
Lemma range_seed s0 s1 st i : elt (fst i) (snd i) -> fingers_range A fl R mn mx s0 s1 st i = fingers_range A fl' R' mn mx s0 s1 st i.
Proof.
  intros LT. destruct st as [sb k], i as [[|start|] [|end_|]]; cbn [fingers_range]; try reflexivity. change (start < end_) in LT.
  apply bind_same. intros g _. apply bind_same. intros on0 _. apply bind_same. intros on1 _. now rewrite !swapped_no_room by auto.
Qed.
Lemma ranges_seed s0 s1 l : (forall i, In i l -> elt (fst i) (snd i)) -> forall st, foldM (fingers_range A fl R mn mx s0 s1) l st = foldM (fingers_range A fl' R' mn mx s0 s1) l st.
Proof.
  induction l as [|i l IH]; intros LT st; cbn [foldM]; [reflexivity|]. rewrite (range_seed s0 s1 st i (LT i (or_introl eq_refl))). apply bind_same. intros st1 _. apply IH. intros j I. apply LT. now right.
Qed.
Lemma inter_seed sp k it st : plex_made sp -> legal sp (fst st) -> In (k, it) (sp_inters sp) -> fingers_inter A fl R mn mx st it = fingers_inter A fl' R' mn mx st it.
Proof.
  intros MD L I. destruct (made_two sp k it MD I) as (s0 & s1 & ES & _). unfold fingers_inter. rewrite ES.
  apply bind_same. intros k0 K0. apply bind_same. intros k1 _. apply bind_same. intros c0 C0. apply bind_same. intros c1 _. apply bind_same. intros a0 A0. apply bind_same. intros a1 _. apply bind_same. intros x _. apply bind_same. intros u _.
  assert (Nk0 : normal k0) by (apply is_geom1d_normal; exact (legal_iok sp _ _ _ L K0)). assert (Nc0 : normal c0) by (apply is_geom1d_normal; exact (legal_ich sp _ _ _ L C0)).
  apply ranges_seed. apply normal_lt. rewrite g_sub_ok in A0 by auto. apply Ok_inv in A0 as <-. now apply sub_normal.
Qed.
Theorem swapped_widths_ignore_seed : forall sp st, plex_made sp -> legal sp (fst st) -> single_fingers_random A fl R mn mx st = single_fingers_random A fl' R' mn mx st.
Proof.
  intros sp st MD L. unfold single_fingers_random. apply bind_same. intros (sb & ci) H1. apply hcheck_ok in H1. cbn [fst] in H1. subst sb.
  assert (E : forall d (s : sbuild * nat), (forall e, In e d -> In e (sp_inters sp)) -> legal sp (fst s) -> foldM (fingers_inter A fl R mn mx) (map snd d) s = foldM (fingers_inter A fl' R' mn mx) (map snd d) s).
  { induction d as [|(k, it) d IH]; intros s IN Ls; cbn [map snd foldM]; [reflexivity|]. pose proof (IN _ (or_introl eq_refl)) as I. rewrite (inter_seed sp k it s MD Ls I).
    apply bind_same. intros s' E. apply IH; [intros e Ie; apply IN; now right|]. exact (proj1 (inter_swapped A fl' R' mn mx M0 MM sp k it s s' MD Ls I E)). }
  rewrite (iv_plex sp _ L). change (values (sp_inters sp)) with (map snd (sp_inters sp)). now rewrite (E (sp_inters sp) (fst st, O)) by auto.
Qed.
End Seed.
Print Assumptions swapped_widths_ignore_seed.

(** ** C144: a width of zero stops the step at the first open range *)
Theorem zero_width_no_plan : forall fl R mn mx on0 on1 start end_ k, mn = 0 \/ mx = 0 -> plan_fingers fl R mn mx on0 on1 start end_ k = Err ZeroDivisionError.
Proof.
  intros fl R mn mx on0 on1 start end_ k Z. unfold plan_fingers, count_range, qdivr. destruct (qeqb_spec mx 0) as [|NX]; [reflexivity|]. cbn [bind]. destruct (qeqb_spec mn 0) as [|NN]; [reflexivity|]. destruct Z; contradiction.
Qed.
Theorem zero_width_needs_nothing_open : forall A fl R mn mx sp st st', mn = 0 \/ mx = 0 -> plex_made sp -> legal sp (fst st) -> single_fingers_random A fl R mn mx st = Ok st' ->
  fst st' = fst st /\ forall k it s0 s1, In (k, it) (sp_inters sp) -> it_sides it = [s0; s1] -> forall x, ~ undecided (fst st) (is_id s0) x.
Proof.
  intros A fl R mn mx sp st st' Z MD L H. unfold single_fingers_random in H. apply bind_ok in H as ((sb & ci) & H1 & H). apply hcheck_ok in H1. cbn [fst] in H1. subst sb.
  apply bind_ok in H as ((sb & k) & H2 & H). apply Ok_inv in H as <-. cbn [fst]. rewrite (iv_plex sp _ L) in H2.
  assert (ONE : forall k0 it s s', In (k0, it) (sp_inters sp) -> fst s = fst st -> fingers_inter A fl R mn mx s it = Ok s' -> s' = s /\ forall s0 s1, it_sides it = [s0; s1] -> forall x, ~ undecided (fst st) (is_id s0) x).
  { intros k0 it s s' I ES H. unfold fingers_inter in H. destruct (it_sides it) as [|s0 [|s1 [|]]] eqn:ET; try discriminate H. rewrite ES in H.
    apply bind_ok in H as (v0 & K0 & H). apply bind_ok in H as (v1 & K1 & H). apply bind_ok in H as (c0 & C0 & H). apply bind_ok in H as (c1 & C1 & H).
    apply bind_ok in H as (a0 & A0 & H). apply bind_ok in H as (a1 & A1 & H). apply bind_ok in H as (df & D & H). apply bind_ok in H as (u & ML & H).
    assert (Nk0 : normal v0) by (apply is_geom1d_normal; exact (legal_iok sp _ _ _ L K0)). assert (Nc0 : normal c0) by (apply is_geom1d_normal; exact (legal_ich sp _ _ _ L C0)).
    apply dgetr_ok in K0, C0. assert (E1 : ok_of (fst st) (is_id s0) = v0) by now apply opt_get. assert (E3 : chosen_of (fst st) (is_id s0) = c0) by now apply opt_get.
    assert (E : a0 = [] /\ s' = s).
    { destruct a0 as [|i l]; cbn [foldM] in H; [apply Ok_inv in H; auto|exfalso]. apply bind_ok in H as (s2 & H & _). destruct s as [sb1 k1], i as [[|start|] [|end_|]]; try discriminate H. cbn [fingers_range] in H.
      apply bind_ok in H as (g & _ & H). apply bind_ok in H as (on0 & _ & H). apply bind_ok in H as (on1 & _ & H). rewrite (zero_width_no_plan fl R mn mx on0 on1 start end_ k1 Z) in H. discriminate H. }
    destruct E as (-> & ->). split; [reflexivity|]. intros t0 t1 ET' x. injection ET' as <- <-. unfold undecided. rewrite E1, E3. intros X. apply (sub_pts v0 c0 [] x Nk0 Nc0 A0) in X. destruct X as (? & [] & _). }
  assert (ALL : forall d (s s' : sbuild * nat), (forall e, In e d -> In e (sp_inters sp)) -> fst s = fst st -> foldM (fingers_inter A fl R mn mx) (map snd d) s = Ok s' ->
    s' = s /\ forall k it s0 s1, In (k, it) d -> it_sides it = [s0; s1] -> forall x, ~ undecided (fst st) (is_id s0) x).
  { induction d as [|(k0, it) d IH]; intros s s' IN ES H; cbn [map snd foldM] in H; [apply Ok_inv in H as <-; split; [reflexivity|intros ? ? ? ? []]|]. apply bind_ok in H as (s2 & H1 & H).
    destruct (ONE k0 it s s2 (IN _ (or_introl eq_refl)) ES H1) as (-> & O). destruct (IH s s' (fun e I => IN e (or_intror I)) ES H) as (-> & O'). split; [reflexivity|].
    intros k1 it1 t0 t1 [E|I] ET; [apply pair_inv in E as (_ & <-); exact (O t0 t1 ET)|exact (O' k1 it1 t0 t1 I ET)]. }
  destruct (ALL (sp_inters sp) (fst st, O) (sb, k) (fun e I => I) eq_refl H2) as (E & O). apply pair_inv in E as (-> & _). split; [reflexivity|exact O].
Qed.
Print Assumptions zero_width_no_plan.
Print Assumptions zero_width_needs_nothing_open.

(** ** Non-vacuity: both sides may take all of [0, 9), widths 5 and 3 *)
Module SwapEx.
Definition A0 : arr_impl := mkArr unit unit (fun _ => Ok tt) (fun _ => Ok []) (fun _ _ => Ok []).
Definition R : rng := mkRng (fun _ l => rev l) (fun _ lo hi => (lo + hi) / zq 2) (fun _ lo _ => lo).
Definition sq : geom2d := [mkSpwh [(0, 0); (0, zq 9); (zq 9, zq 9); (zq 9, 0)] []].
Definition sh n := mkSheet n sq sq sq.
Definition sp0 := mkPlex [("s0", sh "s0"); ("s1", sh "s1")]%string [].
Definition fr : frames := fun _ _ => Ok (Some (((1, 0), ((0, 0), [(0, zq 6)])), ((1, 0), ((0, 0), [(0, zq 6)])))).
Definition id0 : id2 := ("s0,s1", "s0")%string.
Definition id1 : id2 := ("s0,s1", "s1")%string.
Definition whole : geom1d := [(Fin 0, Fin (zq 9))].
Definition start (sp : sheetplex) : sbuild := mkSB sp [("s0", sq); ("s1", sq)]%string [("s0", sq); ("s1", sq)]%string [(id0, []); (id1, [])] [(id0, whole); (id1, whole)].
Example swap_ex :
  match create_intersections fr sp0 with
  | Ok sp =>
      match single_fingers_random A0 (fun q => q) R (zq 5) (zq 3) (start sp, 1%Z) with
      | Ok (sb, _) => chosen_of sb id0 = whole /\ chosen_of sb id1 = []
      | Err _ => False
      end
  | Err _ => False
  end.
Proof. vm_compute. auto. Qed.
(** the same with -1 and 3; with 0 and 3 the step fails, unless nothing is open *)
Definition full (sp : sheetplex) : sbuild := mkSB sp [("s0", sq); ("s1", [])]%string [("s0", sq); ("s1", [])]%string [(id0, whole); (id1, [])] [(id0, whole); (id1, [])].
Example zero_ex :
  match create_intersections fr sp0 with
  | Ok sp =>
      match single_fingers_random A0 (fun q => q) R (zq (-1)) (zq 3) (start sp, 1%Z) with
      | Ok (sb, _) => chosen_of sb id0 = whole /\ chosen_of sb id1 = []
      | Err _ => False
      end /\
      single_fingers_random A0 (fun q => q) R 0 (zq 3) (start sp, 1%Z) = Err ZeroDivisionError /\
      single_fingers_random A0 (fun q => q) R (zq 3) 0 (start sp, 1%Z) = Err ZeroDivisionError /\
      match single_fingers_random A0 (fun q => q) R 0 (zq 3) (full sp, 1%Z) with Ok (sb, _) => sb = full sp | Err _ => False end
  | Err _ => False
  end.
Proof. vm_compute. auto 8. Qed.
End SwapEx.
