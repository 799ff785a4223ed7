(** * Why the eighth step raises AttributeError or Exception: C130 *)
From Verif.Spec Require Import Plane Region PointSet1 Fingers Crisp.
From Verif.Model Require Import Arrangement2d Geom2d Geom1d Sheetplex Sheetbuild Heuristics Canned.
From Verif.Proofs Require Import PyP AreaP ExtOrd DictP Geom1dP Geom1dM Geom2dP Geom2dOps ArrSoundP SheetplexP FingerP SheetbuildP CreateP HeuristicsP ClusterP HeuStepsP StepsP TrimP TrimQ CrispP CrispQ BufSharpQ RunSharpP OutcomeP OutcomeQ OutcomeR OutcomeS OutcomeT OutcomeU InteractP.
From Verif.Props Require Import Geom1dProps SheetplexProps Geom2dProps SheetbuildProps CannedProps CrispProps RunSharpProps SpaceProps AssemblyProps CutProps OutcomeProps.
From Coq Require Import String Permutation.
Open Scope Qc_scope.

(** some sheet of the cluster has, on none of its sides in the cluster, an interval of length 3/2 that is ok for the side, outside the cluster and at most 3.2 away from it *)
Definition no_room (sp : sheetplex) (sb : sbuild) (cl : cluster) : Prop := exists C, (exists s, side_of sp s /\ is_sheet s = C /\ In (is_inter s) (keys cl)) /\
  forall s, side_of sp s -> is_sheet s = C -> In (is_inter s) (keys cl) -> forall u v, u < v -> (forall x, u <= x -> x < v -> available sb cl s x) -> v - u < qq 3 2.
(** the extra connection given to an earlier cluster lies over this cluster *)
Definition extra_over (sp : sheetplex) (dec : hstate -> cluster -> result hstate) (st : hstate) (l1 : list cluster) (c : cluster) : Prop :=
  exists l0 c0 l2 st0 s i x, l1 = l0 ++ c0 :: l2 /\ foldM dec l0 st = Ok st0 /\ side_of sp s /\ extra_range (fst st0) c0 s i /\ in_iv x i /\ cpts c (is_inter s) x.

Lemma In_firstn {X} n (l : list X) x : In x (firstn n l) -> In x l.
Proof. intros I. rewrite <- (firstn_skipn n l). apply in_app_iff. auto. Qed.
Section Why.
Variable orc : list segment -> nat -> nat -> nat.
Variable fsqrt fl : Qc -> Qc.
Variable R : rng.
Variable mn mx : Qc.
Variable ord : dict string geom1d -> dict string geom1d.
Variable sord : list string -> list string.
Variable sp : sheetplex.
Hypothesis RO : root_ok fsqrt.
Hypothesis M : plex_made sp.
Hypothesis PC : plex_clean sp.
Hypothesis ORD : forall c, Permutation c (ord c).
Hypothesis SORD : forall l, Permutation l (sord l).
Let A := segment_arrangement orc.
Let F1 : 0 < fsqrt 1 := proj1 RO.
Let F2 : fsqrt 1 < fsqrt (zq 2) := proj1 (proj2 RO).
Let F3 : fsqrt (zq 2) < zq 2 * fsqrt 1 := proj2 (proj2 RO).
Let PN : plex_in neat sp := plex_clean_neat sp PC.
Notation steps := (canned_steps A fsqrt fl R mn mx ord sord).
Notation dec := (decide_cluster A fsqrt ord sord).

Definition because (st : hstate) (e : exn) : Prop := exists ia m l1 c l2 st1, find_interactions A (fst st) = Ok ia /\ find_interaction_clusters sp ia = Ok m /\
  values m = l1 ++ c :: l2 /\ foldM dec l1 st = Ok st1 /\ dec st1 c = Err e /\
  ((e = PlainException /\ no_room sp (fst st1) c) \/ (e = AttributeError /\ extra_over sp dec st l1 c)).
(** the step, on a state on which nothing is chosen *)
Theorem multi_fails_why : forall st e, good sp (fst st) -> (forall id, chosen_of (fst st) id = []) -> heuristic_multi_inter_single_decisions A fsqrt ord sord st = Err e -> check_error e \/ because st e.
Proof.
  intros st e G Z H. destruct (multi_why orc fsqrt F1 F2 F3 sp M PN ord sord ORD SORD st e G Z H) as [CE|(ia & m & l1 & c & st1 & H1 & H2 & ((l2 & H3) & H4 & H5) & H6)]; [now left|right].
  exists ia, m, l1, c, l2, st1. repeat (split; [assumption|]). destruct H6 as [(E & H6)|(E & s & x & l0 & c0 & l3 & st0 & i & X1 & X2 & X3 & X4 & X5 & X6)]; [left; split; [exact E|exact H6]|right]. split; [exact E|].
  exists l0, c0, l3, st0, s, i, x. auto 10.
Qed.
Lemma first_seven op st st' : In op (firstn 7 steps) -> sb_plex (fst st) = sp -> op st = Ok st' -> sb_plex (fst st') = sp /\ sb_ichosen (fst st') = sb_ichosen (fst st).
Proof.
  intros I P H. cbn [canned_steps firstn In] in I.
  assert (T1 : same_but_sok (fst st) (fst st') -> sb_plex (fst st') = sp /\ sb_ichosen (fst st') = sb_ichosen (fst st)) by (intros (E0 & _ & E1 & _); rewrite E0; auto).
  assert (T2 : same_but_iok (fst st) (fst st') -> sb_plex (fst st') = sp /\ sb_ichosen (fst st') = sb_ichosen (fst st)) by (intros (E0 & _ & _ & E1); rewrite E0; auto).
  destruct I as [<-|[<-|[<-|[<-|[<-|[<-|[<-|[]]]]]]]].
  - apply T2, (irrelevant_all orc fsqrt sp M st st' P H).
  - apply T1, (loose_all orc sp st st' M P H).
  - apply T2, (iok_all orc sp st st' M P H).
  - apply T1, (sok_all orc fsqrt sp M st st' P H).
  - apply T2, (iok_all orc sp st st' M P H).
  - apply T1, (loose_all orc sp st st' M P H).
  - apply T2, (iok_all orc sp st st' M P H).
Qed.
Lemma nothing_yet ops : (forall op, In op ops -> In op (firstn 7 steps)) -> forall st st', sb_plex (fst st) = sp -> runs_to ops st st' -> sb_ichosen (fst st') = sb_ichosen (fst st).
Proof.
  induction ops as [|op ops IH]; intros S st st' P H; cbn [runs_to] in H; [now subst|]. destruct H as (st1 & E & H). destruct (first_seven op st st1 (S op (or_introl eq_refl)) P E) as (P1 & E1).
  rewrite (IH (fun o I => S o (or_intror I)) st1 st' P1 H). exact E1.
Qed.
(** a run *)
Theorem run_fails_why : forall rad ci e, exact_num rad -> canned_1 A fsqrt fl R mn mx ord sord None (Some false) sp rad ci = Err e ->
  check_error e \/ (e = ZeroDivisionError /\ (mn = 0 \/ mx = 0)) \/
  exists sb0 ci0 st, create_sheetbuild A fsqrt sp rad = Ok sb0 /\ check A sb0 false ci = Ok ci0 /\ runs_to (firstn 7 steps) (sb0, ci0) st /\ (forall id, chosen_of (fst st) id = []) /\ because st e.
Proof.
  intros rad ci e X H. destruct (run_fails_only orc fsqrt fl R mn mx ord sord sp RO M PC ORD SORD rad ci e X H) as [CE|[ZE|(E & sb0 & ci0 & st & C & K & RT & H')]]; [now left|right; now left|].
  destruct (good_create orc fsqrt F1 F2 F3 sp M PN rad sb0 C) as (G0 & Z0).
  assert (Z : forall id, chosen_of (fst st) id = []). { intros id. unfold chosen_of. rewrite (nothing_yet (firstn 7 steps) (fun o I => I) (sb0, ci0) st (iv_plex _ _ (gd_legal _ _ G0)) RT). apply Z0. }
  assert (G : good sp (fst st)). { refine (good_runs orc fsqrt fl R mn mx ord sord sp RO M PC ORD (firstn 7 steps) _ (sb0, ci0) st G0 RT). intros op I. exact (In_firstn _ _ _ I). }
  destruct (multi_fails_why st e G Z H') as [CE|B]; [now left|right; right]. exists sb0, ci0, st. auto.
Qed.
End Why.
Print Assumptions multi_fails_why.
Print Assumptions run_fails_why.

(** ** It happens.  Sheet s0 has three joints.  The bands of the first two cross in a corner; s0 takes
    the corner together with an extra connection, up to 5.2 along the first joint.  The band of the
    third joint crosses the first one from 5.1999999 on: another cluster, taken by s3, and the range it
    takes from s0 overlaps what s0 has by 1e-7. *)
Module MultiFailEx.
Definition rect (a b c d : Z) : geom2d := [mkSpwh [(zq a, zq b); (zq a, zq d); (zq c, zq d); (zq c, zq b)] []].
Definition sh n := mkSheet n [] [] [].
Definition f (d o p : point) : frame := (d, (o, [p])).
Definition iv (a b : Qc) : geom1d := [(Fin a, Fin b)].
Definition fr : frames := fun a b => if String.eqb (sh_id a) "s0" then Ok (Some (
  if String.eqb (sh_id b) "s1" then (f (1, 0) (0, 0) (0, 1), f (1, 0) (0, 0) (0, 1))
  else if String.eqb (sh_id b) "s2" then (f (0, 1) (0, 0) (zq 2, 0), f (1, 0) (0, 0) (0, 1))
  else (f (0, 1) (qq 51999999 10000000, 0) (zq 6, 0), f (1, 0) (0, 0) (0, zq 3)))) else Ok None.
Definition plex : sheetplex := mkPlex [("s0", sh "s0"); ("s1", sh "s1"); ("s2", sh "s2"); ("s3", sh "s3")]%string [].
Definition sp : sheetplex := match create_intersections fr plex with Ok x => x | Err _ => plex end.
Definition a0 : id2 := ("s0,s1", "s0")%string.
Definition a1 : id2 := ("s0,s1", "s1")%string.
Definition b0 : id2 := ("s0,s2", "s0")%string.
Definition b2 : id2 := ("s0,s2", "s2")%string.
Definition c0 : id2 := ("s0,s3", "s0")%string.
Definition c3 : id2 := ("s0,s3", "s3")%string.
(** [w] is how far the joints reach *)
Definition start (w : Z) : sbuild := mkSB sp [("s0", []); ("s1", []); ("s2", []); ("s3", rect 0 3 9 6)]%string [("s0", rect 0 0 9 9); ("s1", rect 0 0 9 1); ("s2", rect 0 0 9 1); ("s3", rect 0 0 9 6)]%string
  [(a0, []); (a1, []); (b0, []); (b2, []); (c0, []); (c3, [])] [(a0, iv 0 (zq w)); (a1, iv 0 (zq w)); (b0, iv 0 (zq w)); (b2, iv 0 (zq w)); (c0, iv 0 (zq w)); (c3, iv 0 (zq w))].
Definition A := segment_arrangement (fun _ _ _ => O).
Definition fs (q : Qc) : Qc := if qeqb q 1 then 1 else qq 3 2.
Definition multi (w : Z) := heuristic_multi_inter_single_decisions A fs (fun c => c) (fun l => l) (start w, 1%Z).
Lemma made : plex_made sp.
Proof.
  exists fr, plex. split; [|vm_compute; reflexivity]. split; [reflexivity|]. split; [repeat constructor; cbn; intuition discriminate|].
  intros k s I. cbn in I. repeat (destruct I as [E|I]; [injection E as <- <-; split; [reflexivity|]; intros X; vm_compute in X; intuition discriminate|]). destruct I.
Qed.
Lemma clean : plex_clean sp.
Proof.
  intros k s I g J. assert (g = []) as ->. { change (In (k, s) (sp_sheets plex)) in I. cbn in I. repeat (destruct I as [E|I]; [injection E as <- <-; cbn in J; destruct J as [J|[J|[J|[]]]]; now rewrite J|]). destruct I. }
  exact neat_nil.
Qed.
Lemma rng_geom w : (0 < w)%Z -> is_geom1d (iv 0 (zq w)).
Proof.
  intros W. exists (ENew [[NMpq 0; NInt w]]). assert (L : 0 < zq w) by (rewrite <- zq_0; apply zq_lt; exact W).
  change (bind (bind (bind (passert (eleb (Fin 0) (Fin (zq w)))) (fun _ => Ok (Fin 0, Fin (zq w)))) (fun b => Ok [b])) (fun l => Ok (merge None l)) = Ok (iv 0 (zq w))).
  destruct (eleb_spec (Fin 0) (Fin (zq w))) as [_|N]; [|exfalso; apply N; cbn; now apply Qclt_le_weak]. cbn [passert bind merge fst snd].
  destruct (eeqb_spec (Fin 0) (Fin (zq w))) as [E|_]; [|reflexivity]. exfalso. assert (E' : 0 = zq w) by congruence. rewrite <- E' in L. exact (Qclt_not_le _ _ L (Qcle_refl _)).
Qed.
Lemma good_start w : (0 < w)%Z -> good sp (start w) /\ forall id, chosen_of (start w) id = [].
Proof.
  intros W. assert (C0 : forall id, chosen_of (start w) id = []) by (intros id; unfold chosen_of; cbn [start sb_ichosen dget opt]; repeat match goal with |- context [id2_eqb ?a ?b] => destruct (id2_eqb a b) end; reflexivity).
  assert (Wq : 0 < zq w) by (rewrite <- zq_0; apply zq_lt; exact W).
  assert (K0 : forall id, ok_of (start w) id = iv 0 (zq w) \/ ok_of (start w) id = []) by (intros id; unfold ok_of; cbn [start sb_iok dget opt]; repeat match goal with |- context [id2_eqb ?a ?b] => destruct (id2_eqb a b) end; auto).
  split; [|exact C0]. constructor.
  - constructor; [reflexivity| | |].
    + intros s (k & it & I & J).
      assert (K : map (fun e => map is_id (it_sides (snd e))) (sp_inters sp) = [[a0; a1]; [b0; b2]; [c0; c3]]) by (vm_compute; reflexivity).
      assert (K2 : In (is_id s) (List.concat [[a0; a1]; [b0; b2]; [c0; c3]])). { rewrite <- K. apply in_concat. exists (map is_id (it_sides it)). split; [apply in_map_iff; exists (k, it); auto|now apply in_map]. }
      exact (conj K2 K2).
    + intros id. rewrite C0. split; [exists EEmpty; reflexivity|]. destruct (K0 id) as [->| ->]; [exact (rng_geom w W)|exists EEmpty; reflexivity].
    + intros s o x _ _ X. rewrite C0 in X. destruct X as (? & [] & _).
  - intros k. unfold geom_at. cbn [start sb_schosen sb_sok dget opt]. split; cbn; repeat match goal with |- context [String.eqb ?a ?b] => destruct (String.eqb a b) end; first [exact neat_nil|apply sharp_neat; first [apply (rect_sharp 0 3 9 6); vm_compute; reflexivity|apply (rect_sharp 0 0 9 9); vm_compute; reflexivity|apply (rect_sharp 0 0 9 1); vm_compute; reflexivity|apply (rect_sharp 0 0 9 6); vm_compute; reflexivity]].
  - intros k I. vm_compute in I. cbn. exact (conj I I).
  - intros id. destruct (K0 id) as [->| ->]; [|exact bd_nil]. exists 0, (zq w). intros x (i & [<-|[]] & X1 & X2). cbn in X1, X2. split; [exact X1|now apply Qclt_le_weak].
Qed.
End MultiFailEx.

(** a state that passes its own check, with nothing chosen, on which the step raises AttributeError *)
Theorem multi_no_attribute_error_refuted : exists orc fsqrt ord sord sp sb, root_ok fsqrt /\ plex_made sp /\ plex_clean sp /\ (forall c, Permutation c (ord c)) /\ (forall l, Permutation l (sord l)) /\
  good sp sb /\ (forall id, chosen_of sb id = []) /\ check_now (segment_arrangement orc) sb = Ok tt /\ heuristic_multi_inter_single_decisions (segment_arrangement orc) fsqrt ord sord (sb, 1%Z) = Err AttributeError.
Proof.
  exists (fun _ _ _ => O), MultiFailEx.fs, (fun c => c), (fun l => l), MultiFailEx.sp, (MultiFailEx.start 9). destruct (MultiFailEx.good_start 9 eq_refl) as (G & Z).
  split; [repeat split; vm_compute; reflexivity|]. split; [exact MultiFailEx.made|]. split; [exact MultiFailEx.clean|]. do 2 (split; [intros; apply Permutation_refl|]). split; [exact G|]. split; [exact Z|].
  split; vm_compute; reflexivity.
Qed.
(** the joints reach 2 only, and there is no room for the extra connection *)
Theorem multi_no_plain_exception_refuted : exists orc fsqrt ord sord sp sb, root_ok fsqrt /\ plex_made sp /\ plex_clean sp /\ (forall c, Permutation c (ord c)) /\ (forall l, Permutation l (sord l)) /\
  good sp sb /\ (forall id, chosen_of sb id = []) /\ check_now (segment_arrangement orc) sb = Ok tt /\ heuristic_multi_inter_single_decisions (segment_arrangement orc) fsqrt ord sord (sb, 1%Z) = Err PlainException.
Proof.
  exists (fun _ _ _ => O), MultiFailEx.fs, (fun c => c), (fun l => l), MultiFailEx.sp, (MultiFailEx.start 2). destruct (MultiFailEx.good_start 2 eq_refl) as (G & Z).
  split; [repeat split; vm_compute; reflexivity|]. split; [exact MultiFailEx.made|]. split; [exact MultiFailEx.clean|]. do 2 (split; [intros; apply Permutation_refl|]). split; [exact G|]. split; [exact Z|].
  split; vm_compute; reflexivity.
Qed.
Print Assumptions multi_no_attribute_error_refuted.
Print Assumptions multi_no_plain_exception_refuted.
