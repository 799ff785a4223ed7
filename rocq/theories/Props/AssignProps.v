(** * Property C68: the random fingers decide every range that is left *)
From Verif.Spec Require Import PointSet1.
From Verif.Model Require Import Heuristics.
From Verif.Proofs Require Import PyP ExtOrd DictP Geom1dP Geom1dM SheetplexP FingerP SheetbuildP HeuristicsP ClusterP HeuStepsP.
From Verif.Props Require Import Geom1dProps SheetplexProps SheetbuildProps HeuristicsProps.
From Coq Require Import String.
Open Scope Qc_scope.

(** the ranges of a side that are ok but not chosen *)
Definition undecided (sb : sbuild) (id : id2) (x : Qc) : Prop := pts (ok_of sb id) x /\ ~ pts (chosen_of sb id) x.

Lemma only_of (m m' : dict id2 geom1d) k j : only_at id2_eqb k m m' -> j <> k -> opt (dget id2_eqb j m') = opt (dget id2_eqb j m).
Proof. intros O N. now rewrite (O j N). Qed.
Lemma legal_legal1 sp sb : legal sp sb -> legal1 sb.
Proof. intros [_ _ N _]. exact N. Qed.
Lemma choose_undecided A sp sb s o v t sb' : plex_made sp -> legal sp sb -> is_geom1d v -> joint sp s o ->
  choose_interside A sb (is_id s) v t = Ok sb' ->
  legal sp sb' /\ forall j x, undecided sb' j x <-> undecided sb j x /\ ~ ((j = is_id s \/ j = is_id o) /\ pts v x).
Proof.
  intros M L V (Hs & Ho) H. pose proof (iv_plex sp sb L) as EP. split; [exact (legal_steps A sp M sb sb' L (one_choose A (Kc:=geoms_of A) sb _ v t sb' V H))|].
  assert (M' : plex_made (sb_plex sb)) by now rewrite EP. destruct (choose_local A sb (is_id s) v t sb' M' (legal_legal1 sp sb L) V H) as (s' & o' & (Hs' & Ho') & ES & _ & C1 & C2 & K1 & K2 & _).
  rewrite EP in Hs', Ho'. pose proof (made_unique sp s' s M Hs' Hs ES) as ->. rewrite Ho in Ho'. apply Ok_inv in Ho' as <-. destruct (made_opp sp s M Hs) as (o' & O1 & _ & _ & NE & _). rewrite Ho in O1. apply Ok_inv in O1 as <-.
  intros j x. unfold undecided. destruct (eqb_case _ id2_eqb_ok j (is_id s)) as [(_ & ->)|(_ & N1)].
  - rewrite C2. assert (E : ok_of sb' (is_id s) = ok_of sb (is_id s)) by (apply (only_of _ _ _ _ K1); congruence). rewrite E. tauto.
  - destruct (eqb_case _ id2_eqb_ok j (is_id o)) as [(_ & ->)|(_ & N2)].
    + rewrite K2. assert (E : chosen_of sb' (is_id o) = chosen_of sb (is_id o)) by (apply (only_of _ _ _ _ C1); congruence). rewrite E. tauto.
    + assert (E1 : ok_of sb' j = ok_of sb j) by now apply (only_of _ _ _ _ K1). assert (E2 : chosen_of sb' j = chosen_of sb j) by now apply (only_of _ _ _ _ C1). rewrite E1, E2. tauto.
Qed.
Section S.
Variable A : arr_impl.
Variable R : rng.
Variable mn mx : Qc.
Hypothesis RO : rng_ok R.
Hypothesis M1 : 0 < mn.
Hypothesis M2 : mn <= mx.
Lemma range_undecided sp s0 s1 sb k i sb' k' : plex_made sp -> legal sp sb -> joint sp s0 s1 -> elt (fst i) (snd i) ->
  fingers_range A idq R mn mx s0 s1 (sb, k) i = Ok (sb', k') ->
  legal sp sb' /\ forall j x, undecided sb' j x <-> undecided sb j x /\ ~ ((j = is_id s0 \/ j = is_id s1) /\ in_iv x i).
Proof.
  intros M L J LT H. destruct i as [[|start|] [|end_|]]; try discriminate. cbn [fst snd elt] in LT.
  destruct (fingers_range_chooses A R mn mx s0 s1 sb k start end_ sb' k' RO LT M1 M2 H) as (f0 & f1 & sb1 & G0 & G1 & C0 & C1 & DJ & CV).
  destruct (choose_undecided A sp sb s0 s1 f0 false sb1 M L G0 J C0) as (L1 & U1).
  assert (IV : forall x, in_iv x (Fin start, Fin end_) <-> pts f0 x \/ pts f1 x) by (intros x; rewrite CV; unfold in_iv; cbn [fst snd ele elt]; tauto).
  destruct C1 as [C1|(-> & ->)].
  - assert (J' : joint sp s1 s0). { destruct J as (Hs & Ho). destruct (made_opp sp s0 M Hs) as (o & O1 & O2 & O3 & _). rewrite Ho in O1. apply Ok_inv in O1 as <-. split; auto. }
    destruct (choose_undecided A sp sb1 s1 s0 f1 false sb' M L1 G1 J' C1) as (L2 & U2). split; auto. intros j x. rewrite U2, U1, IV. tauto.
  - split; auto. intros j x. rewrite U1, IV. assert (NE : ~ pts [] x) by (intros (? & [] & _)). tauto.
Qed.
Lemma ranges_undecided sp s0 s1 l : forall st st', plex_made sp -> legal sp (fst st) -> joint sp s0 s1 -> (forall i, In i l -> elt (fst i) (snd i)) ->
  foldM (fingers_range A idq R mn mx s0 s1) l st = Ok st' ->
  legal sp (fst st') /\ forall j x, undecided (fst st') j x <-> undecided (fst st) j x /\ ~ ((j = is_id s0 \/ j = is_id s1) /\ pts l x).
Proof.
  induction l as [|i l IH]; intros st st' M L J LT H; cbn [foldM] in H.
  - apply Ok_inv in H as <-. split; auto. intros j x. assert (NE : ~ pts [] x) by (intros (? & [] & _)). tauto.
  - apply bind_ok in H as ((sb1 & k1) & H1 & H). destruct st as [sb k]. cbn [fst] in *. destruct (range_undecided sp s0 s1 sb k i sb1 k1 M L J (LT i (or_introl eq_refl)) H1) as (L1 & U1).
    destruct (IH (sb1, k1) st' M L1 J (fun i' I => LT i' (or_intror I)) H) as (L2 & U2). split; auto. intros j x. rewrite U2. cbn [fst]. rewrite U1.
    assert (E : pts (i :: l) x <-> in_iv x i \/ pts l x). { unfold pts. split; [intros (q & [<-|I] & Q); [auto|right; eauto]|intros [Q|(q & I & Q)]; [exists i; split; [now left|auto]|exists q; split; [now right|auto]]]. }
    rewrite E. tauto.
Qed.
Lemma normal_lt g : normal g -> forall i, In i g -> elt (fst i) (snd i).
Proof. induction g as [|(a, b) g IH]; intros N i H; [destruct H|]. destruct N as (H1 & H2 & _). destruct H as [<-|H]; auto. Qed.
Definition small (g : geom1d) : Prop := exists m, measure1d g = Some (Fin m) /\ m < e8.
(** one intersection *)
Definition decided (sb : sbuild) (s0 s1 : interside) : Prop :=
  (forall x, ~ undecided sb (is_id s0) x) /\ exists d, normal d /\ small d /\ forall x, undecided sb (is_id s1) x -> pts d x.
Lemma inter_undecided sp k it st st' : plex_made sp -> legal sp (fst st) -> In (k, it) (sp_inters sp) -> fingers_inter A idq R mn mx st it = Ok st' ->
  legal sp (fst st') /\ (forall j x, undecided (fst st') j x -> undecided (fst st) j x) /\ forall s0 s1, it_sides it = [s0; s1] -> decided (fst st') s0 s1.
Proof.
  intros M L I H. destruct (made_two sp k it M I) as (s0 & s1 & ES & _ & _ & O1 & _). unfold fingers_inter in H. rewrite ES in H.
  apply bind_ok in H as (k0 & K0 & H). apply bind_ok in H as (k1 & K1 & H). apply bind_ok in H as (c0 & C0 & H). apply bind_ok in H as (c1 & C1 & H).
  apply bind_ok in H as (a0 & A0 & H). apply bind_ok in H as (a1 & A1 & H). apply bind_ok in H as (d & D & H). apply bind_ok in H as (u & ML & H). apply passert_ok in ML.
  assert (J : joint sp s0 s1) by (split; [exists k, it; rewrite ES; split; auto; now left|auto]).
  assert (Nk0 : normal k0) by (apply is_geom1d_normal; exact (legal_iok sp _ _ _ L K0)). assert (Nk1 : normal k1) by (apply is_geom1d_normal; exact (legal_iok sp _ _ _ L K1)).
  assert (Nc0 : normal c0) by (apply is_geom1d_normal; exact (legal_ich sp _ _ _ L C0)). assert (Nc1 : normal c1) by (apply is_geom1d_normal; exact (legal_ich sp _ _ _ L C1)).
  apply dgetr_ok in K0, K1, C0, C1. assert (E1 : ok_of (fst st) (is_id s0) = k0) by now apply opt_get. assert (E2 : ok_of (fst st) (is_id s1) = k1) by now apply opt_get.
  assert (E3 : chosen_of (fst st) (is_id s0) = c0) by now apply opt_get. assert (E4 : chosen_of (fst st) (is_id s1) = c1) by now apply opt_get.
  assert (P0 : forall x, undecided (fst st) (is_id s0) x <-> pts a0 x) by (intros x; unfold undecided; rewrite E1, E3; symmetry; now apply sub_pts).
  assert (P1 : forall x, undecided (fst st) (is_id s1) x <-> pts a1 x) by (intros x; unfold undecided; rewrite E2, E4; symmetry; now apply sub_pts).
  assert (Na0 : normal a0) by (rewrite g_sub_ok in A0 by auto; apply Ok_inv in A0 as <-; now apply sub_normal). assert (Na1 : normal a1) by (rewrite g_sub_ok in A1 by auto; apply Ok_inv in A1 as <-; now apply sub_normal).
  pose proof (g_xor_ok a0 a1 Na0 Na1) as DX. rewrite D in DX. apply Ok_inv in DX. assert (Nd : normal d) by (rewrite DX; now apply xor_normal).
  destruct (ranges_undecided sp s0 s1 a0 st st' M L J (normal_lt a0 Na0) H) as (L' & U). split; auto. split; [intros j x X; now apply U in X|].
  intros t0 t1 ET. rewrite ES in ET. injection ET as <- <-. split; [intros x X; apply U in X as (X & N); apply N; split; auto; now apply P0|].
  exists d. split; auto. split.
  - unfold measure_lt in ML. pose proof (measure_mes d Nd) as MD. rewrite MD in ML. pose proof (mes_nneg d) as NN. unfold nneg, ele in NN. destruct (mes d) as [|m|] eqn:Em; try discriminate; [destruct NN|].
    exists m. split; auto. revert ML. change (eltb (Fin m) (Fin e8)) with (qltb m e8). destruct (qltb_spec m e8); auto; discriminate.
  - intros x X. apply U in X as (X & N). apply P1 in X. rewrite DX. rewrite pts_epts. apply xor_epts; auto; [exact Logic.I|]. rewrite <- !pts_epts.
    assert (Q : ~ pts a0 x) by (intros Q; apply N; auto). tauto.
Qed.
End S.
(** ** C68 (exact arithmetic).  After single_fingers_random every range that is ok for the first side of
    an intersection is chosen, and all but at most 1e-8 of what is ok for the second. *)
Theorem random_fingers_decide_all : forall A R mn mx sp st st', rng_ok R -> 0 < mn -> mn <= mx -> plex_made sp -> legal sp (fst st) ->
  single_fingers_random A idq R mn mx st = Ok st' ->
  forall k it s0 s1, In (k, it) (sp_inters sp) -> it_sides it = [s0; s1] -> decided (fst st') s0 s1.
Proof.
  intros A R mn mx sp st st' RO M1 M2 M L H. unfold single_fingers_random in H. apply bind_ok in H as ((sb & ci) & H1 & H). apply hcheck_ok in H1. cbn [fst] in H1. subst sb.
  apply bind_ok in H as ((sb & k) & H2 & H). apply Ok_inv in H as <-. cbn [fst]. rewrite (iv_plex sp _ L) in H2.
  assert (MONO : forall s0 s1 a b, decided a s0 s1 -> (forall j x, undecided b j x -> undecided a j x) -> decided b s0 s1).
  { intros s0 s1 a b (X & d & Nd & Sd & Y) U. split; [intros x Z; exact (X x (U _ _ Z))|]. exists d. split; [auto|]. split; [auto|]. intros x Z. apply Y. now apply U. }
  assert (GEN : forall l (s s' : sbuild * nat), (forall it, In it l -> exists k, In (k, it) (sp_inters sp)) -> legal sp (fst s) -> foldM (fingers_inter A idq R mn mx) l s = Ok s' ->
    (forall j x, undecided (fst s') j x -> undecided (fst s) j x) /\ forall it s0 s1, In it l -> it_sides it = [s0; s1] -> decided (fst s') s0 s1).
  { clear H2. induction l as [|it l IH]; intros s s' IN Ls H; cbn [foldM] in H; [apply Ok_inv in H as <-; split; [auto|intros ? ? ? []]|].
    apply bind_ok in H as (s1 & H1 & H). destruct (IN it (or_introl eq_refl)) as (kk & Ik). destruct (inter_undecided A R mn mx RO M1 M2 sp kk it s s1 M Ls Ik H1) as (L1 & U1 & D1).
    destruct (IH s1 s' (fun i I => IN i (or_intror I)) L1 H) as (U2 & D2). split; [auto|]. intros i a b [<-|I] E; [exact (MONO a b _ _ (D1 a b E) U2)|exact (D2 i a b I E)]. }
  destruct (GEN (values (sp_inters sp)) (fst st, O) (sb, k)) as (_ & D).
  - intros it I. unfold values in I. apply in_map_iff in I as ((kk & it') & <- & I). exists kk. exact I.
  - exact L.
  - exact H2.
  - intros kk it s0 s1 I E. apply (D it s0 s1); auto. unfold values. apply in_map_iff. exists (kk, it). auto.
Qed.
Print Assumptions random_fingers_decide_all.
(** ** Non-vacuity: both sides may take all of [0, 9); nothing is left open afterwards *)
Section Ex.
Let A0 : arr_impl := mkArr unit unit (fun _ => Ok tt) (fun _ => Ok []) (fun _ _ => Ok []).
Let R : rng := mkRng (fun _ l => rev l) (fun _ lo hi => (lo + hi) / zq 2) (fun _ lo _ => lo).
Let sq : geom2d := [mkSpwh [(0, 0); (0, zq 9); (zq 9, zq 9); (zq 9, 0)] []].
Let sh n := mkSheet n sq sq sq.
Let sp0 := mkPlex [("s0", sh "s0"); ("s1", sh "s1")]%string [].
Let fr : frames := fun _ _ => Ok (Some (((1, 0), ((0, 0), [(0, zq 6)])), ((1, 0), ((0, 0), [(0, zq 6)])))).
Let id0 : id2 := ("s0,s1", "s0")%string.
Let id1 : id2 := ("s0,s1", "s1")%string.
Let iv (a b : Z) : geom1d := [(Fin (zq a), Fin (zq b))].
Let start (sp : sheetplex) : sbuild := mkSB sp [("s0", sq); ("s1", sq)]%string [("s0", sq); ("s1", sq)]%string [(id0, []); (id1, [])] [(id0, iv 0 9); (id1, iv 0 9)].
Example decide_ex : rng_ok R /\
  match create_intersections fr sp0 with
  | Ok sp =>
      match single_fingers_random A0 idq R (zq 3) (zq 5) (start sp, 1%Z) with
      | Ok (sb, _) => (List.length (chosen_of sb id0) = 1)%nat /\ (List.length (chosen_of sb id1) = 2)%nat /\ ok_of sb id0 = chosen_of sb id0 /\ ok_of sb id1 = chosen_of sb id1
      | Err _ => False
      end
  | Err _ => False
  end.
Proof. split; [exact rng_ex|]. vm_compute. repeat split; reflexivity. Qed.
End Ex.
