(** * Properties C118 - C119: which interactions there are, and what deciding a cluster changes *)
From Verif.Spec Require Import PointSet1 Steps.
From Verif.Model Require Import Heuristics Arrangement2d.
From Verif.Proofs Require Import PyP ExtOrd DictP Geom1dP Geom1dM SheetplexP FingerP SheetbuildP HeuristicsP ClusterP HeuStepsP StepsP InteractP.
From Verif.Props Require Import Geom1dProps SheetplexProps SheetbuildProps AssignProps.
From Coq Require Import String Permutation.
Open Scope Qc_scope.

(** the possible fingers of the two sides overlap, over the ranges [di] and [dj] *)
Definition overlap_over (A : arr_impl) (sb : sbuild) (i j : interside) (di dj : geom1d) : Prop := exists fi fj double,
  make_fingers01 A i (ok_of sb (is_id i)) = Ok fi /\ make_fingers01 A j (ok_of sb (is_id j)) = Ok fj /\ g2_and A fi fj = Ok double /\ g2_is_empty double = false /\
  is_project_to_1d i double = Ok di /\ is_project_to_1d j double = Ok dj.
Definition overlap_at (A : arr_impl) (sb : sbuild) (i j : interside) (di dj : geom1d) : Prop :=
  exists sh, In sh (sheets_of sb) /\ before (sp_intersides (sb_plex sb) (Some (sh_id sh))) i j /\ overlap_over A sb i j di dj.

Definition recorded (m : dict string (list interaction)) (k : string) (a : interaction) : Prop := exists l, dget String.eqb k m = Some l /\ In a l.
Lemma recorded_add m k i k' a : recorded (add_ia m k i) k' a <-> recorded m k' a \/ (k' = k /\ a = i).
Proof.
  unfold recorded, add_ia. rewrite (dget_dset _ string_eqb_ok). destruct (eqb_case _ string_eqb_ok k' k) as [(-> & ->)|(-> & N)].
  - split.
    + intros (l & E & I). apply some_inv in E as <-. apply in_app_iff in I as [I|[<-|[]]]; [|auto]. left. destruct (dget String.eqb k m) as [l|]; [exists l; auto|destruct I].
    + intros [(l & E & I)|(_ & ->)]; (eexists; split; [reflexivity|]); apply in_app_iff; [left; now rewrite E|right; now left].
  - split; [auto|intros [X|(-> & _)]; [exact X|congruence]].
Qed.
Section I.
Variable A : arr_impl.
Variable sb : sbuild.
Definition written (i j : interside) (di dj : geom1d) (k : string) (a : interaction) : Prop :=
  (k = is_inter i /\ a = mkIa (is_id i) di (is_id j) dj) \/ (k = is_inter j /\ a = mkIa (is_id j) dj (is_id i) di).
Lemma interact2_exact i fi m j m' : make_fingers01 A i (ok_of sb (is_id i)) = Ok fi -> interact2 A sb i fi m j = Ok m' ->
  forall k a, recorded m' k a <-> recorded m k a \/ exists di dj, overlap_over A sb i j di dj /\ written i j di dj k a.
Proof.
  intros FI H k a. unfold interact2 in H. apply bind_ok in H as (kk & K & H). apply bind_ok in H as (fj & FJ & H). apply bind_ok in H as (d & D & H). apply dgetr_ok in K. assert (E : ok_of sb (is_id j) = kk) by now apply opt_get.
  destruct (g2_is_empty d) eqn:ED.
  - apply Ok_inv in H as <-. split; [auto|]. intros [X|(di & dj & (fi' & fj' & d' & F1 & F2 & F3 & F4 & _) & _)]; [auto|]. rewrite FI in F1. apply Ok_inv in F1 as <-. rewrite E, FJ in F2. apply Ok_inv in F2 as <-. rewrite D in F3. apply Ok_inv in F3 as <-. congruence.
  - apply bind_ok in H as (di & D1 & H). apply bind_ok in H as (dj & D2 & H). apply Ok_inv in H as <-. rewrite !recorded_add. split.
    + intros [[X|X]|X]; [auto| |]; right; exists di, dj; (split; [exists fi, fj, d; rewrite E; auto 7|unfold written; auto]).
    + intros [X|(di' & dj' & (fi' & fj' & d' & F1 & F2 & F3 & F4 & F5 & F6) & W)]; [auto|]. rewrite FI in F1. apply Ok_inv in F1 as <-. rewrite E, FJ in F2. apply Ok_inv in F2 as <-. rewrite D in F3. apply Ok_inv in F3 as <-.
      rewrite D1 in F5. apply Ok_inv in F5 as <-. rewrite D2 in F6. apply Ok_inv in F6 as <-. destruct W; auto.
Qed.
Lemma row_exact i fi l : make_fingers01 A i (ok_of sb (is_id i)) = Ok fi -> forall m m', foldM (interact2 A sb i fi) l m = Ok m' ->
  forall k a, recorded m' k a <-> recorded m k a \/ exists j di dj, In j l /\ overlap_over A sb i j di dj /\ written i j di dj k a.
Proof.
  intros FI. induction l as [|j l IH]; intros m m' H k a; cbn [foldM] in H.
  - apply Ok_inv in H as <-. split; [auto|]. intros [X|(j & _ & _ & [] & _)]. auto.
  - apply bind_ok in H as (m1 & H1 & H). rewrite (IH m1 m' H k a), (interact2_exact i fi m j m1 FI H1 k a). cbn [In]. split.
    + intros [[X|(di & dj & X)]|(j' & di & dj & I & X)]; [auto|right; exists j, di, dj; auto|right; exists j', di, dj; auto].
    + intros [X|(j' & di & dj & [<-|I] & X)]; [auto|left; right; exists di, dj; auto|right; exists j', di, dj; auto].
Qed.
Lemma before_cons {X} (x : X) l a b : before (x :: l) a b <-> (a = x /\ In b l) \/ before l a b.
Proof.
  split.
  - intros ([|y l1] & l2 & l3 & E); cbn [app] in E; injection E as E1 E2.
    + left. split; [auto|]. rewrite E2. apply in_app_iff. right. now left.
    + right. exists l1, l2, l3. exact E2.
  - intros [(-> & I)|(l1 & l2 & l3 & ->)]; [|exists (x :: l1), l2, l3; reflexivity]. apply in_split in I as (l2 & l3 & ->). exists [], l2, l3. reflexivity.
Qed.
Lemma loop_exact l : forall m m', interact_loop A sb l m = Ok m' ->
  forall k a, recorded m' k a <-> recorded m k a \/ exists i j di dj, before l i j /\ overlap_over A sb i j di dj /\ written i j di dj k a.
Proof.
  induction l as [|i l IH]; intros m m' H k a; cbn [interact_loop] in H.
  - apply Ok_inv in H as <-. split; [auto|]. intros [X|(i & j & _ & _ & ([|] & ? & ? & E) & _)]; [auto|discriminate|discriminate].
  - apply bind_ok in H as (kk & K & H). apply bind_ok in H as (fi & FI & H). apply bind_ok in H as (m1 & H1 & H). apply dgetr_ok in K. assert (E : ok_of sb (is_id i) = kk) by now apply opt_get. rewrite <- E in FI.
    rewrite (IH m1 m' H k a), (row_exact i fi l FI m m1 H1 k a). split.
    + intros [[X|(j & di & dj & I & X)]|(i' & j & di & dj & B & X)]; [auto| |]; right; [exists i, j, di, dj|exists i', j, di, dj]; (split; [apply before_cons; auto|exact X]).
    + intros [X|(i' & j & di & dj & B & X)]; [auto|]. apply before_cons in B as [(-> & I)|B]; [left; right; exists j, di, dj; auto|right; exists i', j, di, dj; auto].
Qed.
End I.
(** ** C118: the interactions on record are the overlaps of the possible fingers of two joints of a sheet, each under both joints, with the ranges of the two sides *)
Theorem interactions_exact : forall A sb m, find_interactions A sb = Ok m -> forall k a,
  (exists l, dget String.eqb k m = Some l /\ In a l) <->
  exists i j di dj, overlap_at A sb i j di dj /\
    ((k = is_inter i /\ a = mkIa (is_id i) di (is_id j) dj) \/ (k = is_inter j /\ a = mkIa (is_id j) dj (is_id i) di)).
Proof.
  intros A sb m H k a. fold (recorded m k a). unfold find_interactions in H. unfold overlap_at. revert H. generalize (sheets_of sb). intros l.
  enough (G : forall m0, foldM (fun m sh => interact_loop A sb (sp_intersides (sb_plex sb) (Some (sh_id sh))) m) l m0 = Ok m ->
    (recorded m k a <-> recorded m0 k a \/ exists i j di dj, (exists sh, In sh l /\ before (sp_intersides (sb_plex sb) (Some (sh_id sh))) i j /\ overlap_over A sb i j di dj) /\ written i j di dj k a)).
  { intros H. rewrite (G _ H). unfold written. split; [intros [(? & E & _)|X]; [discriminate|exact X]|auto]. }
  induction l as [|sh l IH]; intros m0 H; cbn [foldM] in H.
  - apply Ok_inv in H as <-. split; [auto|]. intros [X|(? & ? & ? & ? & (? & [] & _) & _)]. auto.
  - apply bind_ok in H as (m1 & H1 & H). rewrite (IH m1 H), (loop_exact A sb _ _ _ H1 k a). split.
    + intros [[X|(i & j & di & dj & B & O & W)]|(i & j & di & dj & (s & I & X) & W)]; [auto| |]; right; exists i, j, di, dj; (split; [|exact W]); [exists sh; split; [now left|auto]|exists s; split; [now right|auto]].
    + intros [X|(i & j & di & dj & (s & [<-|I] & B & O) & W)]; [auto|left; right; exists i, j, di, dj; auto|right; exists i, j, di, dj; split; [exists s; auto|exact W]].
Qed.
Print Assumptions interactions_exact.

(** ** C119: deciding a cluster.  One sheet takes what is ok for its sides in the ranges of the cluster, all other sheets give the ranges up, and nothing else changes.
    The cluster may grow by a longest interval of length 3/2 or more, ok for a side of that sheet, at most 3.2 away from the cluster. *)
Theorem cluster_decision : forall A fsqrt sp ord sord st cl st', plex_made sp -> (forall c, Permutation c (ord c)) -> legal sp (fst st) ->
  NoDup (keys cl) -> (forall k r, In (k, r) cl -> is_geom1d r) -> decide_cluster A fsqrt ord sord st cl = Ok st' -> exists C cl',
  (cl' = cl \/ exists s i, side_of sp s /\ is_sheet s = C /\ extra_range (fst st) cl s i /\ forall j x, cpts cl' j x <-> cpts cl j x \/ (j = is_inter s /\ in_iv x i)) /\
  forall s x, side_of sp s ->
    (pts (chosen_of (fst st') (is_id s)) x <-> pts (chosen_of (fst st) (is_id s)) x \/ (is_sheet s = C /\ cpts cl' (is_inter s) x /\ pts (ok_of (fst st) (is_id s)) x)) /\
    (pts (ok_of (fst st') (is_id s)) x <-> pts (ok_of (fst st) (is_id s)) x /\ ~ (is_sheet s <> C /\ cpts cl' (is_inter s) x)).
Proof.
  intros A fsqrt sp ord sord st cl st' M O L ND G H. assert (CO : cl_ok cl) by (split; [exact ND|]; intros j g D; apply (dget_in _ string_eqb_ok) in D; exact (is_geom1d_normal _ (G _ _ D))).
  exact (proj2 (decide_exact A fsqrt sp M ord sord O st cl st' L CO G H)).
Qed.
Print Assumptions cluster_decision.

(** the joint [k] takes part in an overlap at [y] *)
Definition interacting (A : arr_impl) (sb : sbuild) (k : string) (y : Qc) : Prop := exists i j di dj, overlap_at A sb i j di dj /\ ((k = is_inter i /\ pts di y) \/ (k = is_inter j /\ pts dj y)).
(** the whole step changes a side only within 3.2 of an overlap of its joint *)
Theorem multi_changes_near_overlaps : forall A fsqrt sp ord sord st st', plex_made sp -> (forall c, Permutation c (ord c)) -> legal sp (fst st) ->
  heuristic_multi_inter_single_decisions A fsqrt ord sord st = Ok st' -> forall s x, side_of sp s ->
  (forall y, x - qq 16 5 <= y -> y <= x + qq 16 5 -> ~ interacting A (fst st) (is_inter s) y) ->
  (pts (chosen_of (fst st') (is_id s)) x <-> pts (chosen_of (fst st) (is_id s)) x) /\ (pts (ok_of (fst st') (is_id s)) x <-> pts (ok_of (fst st) (is_id s)) x).
Proof.
  intros A fsqrt sp ord sord st st' M O L H s x Hs FAR. unfold heuristic_multi_inter_single_decisions in H. apply bind_ok in H as (ia & H1 & H). apply bind_ok in H as (m & H2 & H). apply bind_ok in H as (u & _ & H).
  pose proof (iv_plex sp _ L) as EP. pose proof (interactions_geom A _ _ H1) as F. rewrite EP in H2. pose proof (clusters_geom sp _ _ F H2) as G.
  destruct (clusters_ok sp ia m F H2) as (n & cs & F2 & (MO & _ & _ & (_ & CV) & _)). cbn [fst] in *. destruct MO as (ND & MO).
  assert (KD : NoDup (keys ia)).
  { unfold find_interactions in H1. revert H1. generalize (sheets_of (fst st)). intros l. assert (N0 : NoDup (keys (@nil (string * list interaction)))) by constructor. revert N0. generalize (@nil (string * list interaction)). 
    assert (AD : forall m k i, NoDup (keys m) -> NoDup (keys (add_ia m k i))) by (intros; unfold add_ia; now apply (nodup_dset _ string_eqb_ok)).
    assert (RW : forall i fi r m m', NoDup (keys m) -> foldM (interact2 A (fst st) i fi) r m = Ok m' -> NoDup (keys m')).
    { clear -AD. induction r as [|j r IH]; intros m m' N H; cbn [foldM] in H; [now apply Ok_inv in H as <-|]. apply bind_ok in H as (m1 & H1 & H). refine (IH m1 m' _ H). unfold interact2 in H1. apply bind_ok in H1 as (k & _ & H1). apply bind_ok in H1 as (fj & _ & H1). apply bind_ok in H1 as (d & _ & H1).
      destruct (g2_is_empty d); [now apply Ok_inv in H1 as <-|]. apply bind_ok in H1 as (di & _ & H1). apply bind_ok in H1 as (dj & _ & H1). apply Ok_inv in H1 as <-. auto. }
    assert (LP : forall r m m', NoDup (keys m) -> interact_loop A (fst st) r m = Ok m' -> NoDup (keys m')).
    { clear -RW. induction r as [|i r IH]; intros m m' N H; cbn [interact_loop] in H; [now apply Ok_inv in H as <-|]. apply bind_ok in H as (k & _ & H). apply bind_ok in H as (fi & _ & H). apply bind_ok in H as (m1 & H1 & H). exact (IH m1 m' (RW _ _ _ _ _ N H1) H). }
    clear -LP. induction l as [|sh l IH]; intros m0 N H; cbn [foldM] in H; [now apply Ok_inv in H as <-|]. apply bind_ok in H as (m1 & H1 & H). exact (IH m1 (LP _ _ _ N H1) H). }
  assert (IN : forall c j y, In c (values m) -> cpts c j y -> interacting A (fst st) j y).
  { intros c j y C Y. unfold values in C. apply in_map_iff in C as ((k & c') & <- & C). apply (dget_nodup _ string_eqb_ok) in C; [|exact ND]. cbn [snd] in Y. destruct (CV k c' j y C Y) as (t & T & YT & _). apply in_rev in T.
    destruct (forall2_back _ _ _ _ F2 T) as (a & Ia & CA). apply in_flat_map in Ia as ((k' & l) & Il & Ia). cbn [snd] in Ia. apply (dget_nodup _ string_eqb_ok) in Il; [|exact KD].
    destruct (proj1 (interactions_exact A (fst st) ia H1 k' a) (ex_intro _ l (conj Il Ia))) as (i & j' & di & dj & OV & W). exists i, j', di, dj. split; [exact OV|].
    destruct OV as (sh & Ish & B & _). rewrite EP in B. assert (SI : side_of sp i /\ side_of sp j').
    { destruct B as (l1 & l2 & l3 & B). split; apply (sides_in sp M (Some (sh_id sh))); rewrite B; apply in_app_iff; right; [now left|right; apply in_app_iff; right; now left]. }
    destruct SI as (Si & Sj). destruct (made_opp sp i M Si) as (_ & _ & _ & _ & _ & _ & _ & Ei). destruct (made_opp sp j' M Sj) as (_ & _ & _ & _ & _ & _ & _ & Ej).
    unfold cmap_of in CA. destruct W as [(_ & ->)|(_ & ->)]; cbn [ia_side ia_other ia_range ia_other_range] in CA; rewrite Ei, Ej in CA; cbn [bind] in CA; apply Ok_inv in CA as <-; rewrite cpts_dset in YT;
      destruct (eqb_case _ string_eqb_ok j (is_inter j')) as [(E1 & E1')|(E1 & E1')]; destruct (eqb_case _ string_eqb_ok j (is_inter i)) as [(E2 & E2')|(E2 & E2')]; rewrite ?E1, ?E2 in YT; try (rewrite cpts_dset, ?E1, ?E2 in YT); auto;
      unfold cpts in YT; cbn [dget opt] in YT; destruct YT as (? & [] & _). }
  assert (CG : forall c, In c (values m) -> cl_ok c /\ cgeom c).
  { intros c C. unfold values in C. apply in_map_iff in C as ((k & c') & <- & C). split; [apply (MO k); now apply (dget_nodup _ string_eqb_ok)|exact (G _ _ C)]. }
  clear -H L M O Hs FAR IN CG. set (I := interacting A (fst st)) in *. clearbody I. revert st L H. induction (values m) as [|c l IH]; intros st L H; cbn [foldM] in H; [apply Ok_inv in H as <-; tauto|].
  apply bind_ok in H as (s1 & H1 & H). destruct (CG c (or_introl eq_refl)) as (OC & GC). destruct (decide_exact A fsqrt sp M ord sord O st c s1 L OC GC H1) as (L1 & C & cl' & EX & Q). destruct (Q s x Hs) as (Q1 & Q2).
  destruct (IH (fun d j y D => IN d j y (or_intror D)) (fun d D => CG d (or_intror D)) s1 L1 H) as (R1 & R2). rewrite R1, R2, Q1, Q2.
  assert (NC : ~ cpts cl' (is_inter s) x).
  { assert (SELF : forall y, x - qq 16 5 <= y -> y <= x + qq 16 5 -> ~ cpts c (is_inter s) y) by (intros y Y1 Y2 Y; exact (FAR y Y1 Y2 (IN c _ y (or_introl eq_refl) Y))). assert (P : 0 <= qq 16 5) by (vm_compute; discriminate).
    assert (X0 : ~ cpts c (is_inter s) x) by (apply SELF; clear -P; qlra). destruct EX as [->|(t & i & Ht & Et & (ER & _) & PC)]; [exact X0|]. intros X. apply PC in X as [X|(E & X)]; [auto|]. destruct (ER x X) as (_ & _ & y & Y & Y1 & Y2). rewrite <- E in Y. exact (SELF y Y1 Y2 Y). }
  tauto.
Qed.
Print Assumptions multi_changes_near_overlaps.

(** ** Non-vacuity: the bands of two joints of s0, of width 1 and 2, cross in the corner; s0 takes the corner and an extra connection up to 3.2 beyond it; the rest of the joints stays open *)
Section Ex.
Let A : arr_impl := segment_arrangement (fun _ _ _ => O).
Let rect (a b c d : Z) : geom2d := [mkSpwh [(zq a, zq b); (zq a, zq d); (zq c, zq d); (zq c, zq b)] []].
Let sh n := mkSheet n [] [] [].
Let f (d p : point) : frame := (d, ((0, 0), [p])).
Let iv (a b : Qc) : geom1d := [(Fin a, Fin b)].
Let fr : frames := fun a b => if String.eqb (sh_id a) "s0" then Ok (Some (if String.eqb (sh_id b) "s1" then (f (1, 0) (0, 1), f (1, 0) (0, 1)) else (f (0, 1) (zq 2, 0), f (1, 0) (0, 1)))) else Ok None.
Let bd (e : ext) : option Q := match e with Fin q => Some (this q) | _ => None end.
Let rd (g : geom1d) : list (option Q * option Q) := map (fun i => (bd (fst i), bd (snd i))) g.
Let a0 : id2 := ("s0,s1", "s0")%string.
Let a1 : id2 := ("s0,s1", "s1")%string.
Let b0 : id2 := ("s0,s2", "s0")%string.
Let b2 : id2 := ("s0,s2", "s2")%string.
Let start (sp : sheetplex) : sbuild := mkSB sp [("s0", rect 2 1 9 9); ("s1", []); ("s2", [])]%string [("s0", rect 0 0 9 9); ("s1", rect 0 0 9 1); ("s2", rect 0 0 9 1)]%string
  [(a0, []); (a1, []); (b0, []); (b2, [])] [(a0, iv 0 (zq 9)); (a1, iv 0 (zq 9)); (b0, iv 0 (zq 9)); (b2, iv 0 (zq 9))].
Example interact_ex :
  match create_intersections fr (mkPlex [("s0", sh "s0"); ("s1", sh "s1"); ("s2", sh "s2")]%string []) with
  | Ok sp =>
      match find_interactions A (start sp) with
      | Ok m => map (fun e => (fst e, map (fun a => (ia_side a, rd (ia_range a), ia_other a, rd (ia_other_range a))) (snd e))) m =
          [("s0,s1", [(a0, rd (iv 0 (zq 2)), b0, rd (iv 0 1))]); ("s0,s2", [(b0, rd (iv 0 1), a0, rd (iv 0 (zq 2)))])]%string
      | Err _ => False
      end /\
      match heuristic_multi_inter_single_decisions A (fun q => q) (fun c => c) (fun l => l) (start sp, 1%Z) with
      | Ok (sb, _) => (rd (chosen_of sb a0), rd (ok_of sb a1)) = (rd (iv 0 (qq 26 5)), rd (iv (qq 26 5) (zq 9))) /\ (rd (chosen_of sb b0), rd (ok_of sb b2)) = (rd (iv 0 1), rd (iv 1 (zq 9)))
      | Err _ => False
      end
  | Err _ => False
  end.
Proof. vm_compute. repeat split; reflexivity. Qed.
End Ex.
