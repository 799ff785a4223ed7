(** * How a run can fail: C128; what a check tests: C50 *)
From Verif.Spec Require Import Plane Region PointSet1 Fingers Crisp.
From Verif.Model Require Import Arrangement2d Geom2d Geom1d Sheetplex Sheetbuild Heuristics Canned.
From Verif.Proofs Require Import PyP ExtOrd DictP Geom1dP Geom1dM Geom2dP Geom2dOps ArrSoundP SheetplexP FingerP SheetbuildP CreateP HeuristicsP ClusterP HeuStepsP CrispP CrispQ BufSharpQ RunSharpP OutcomeP OutcomeQ OutcomeR OutcomeS OutcomeT.
From Verif.Props Require Import Geom1dProps SheetplexProps Geom2dProps SheetbuildProps CannedProps CrispProps RunSharpProps SpaceProps AssemblyProps CutProps.
From Coq Require Import String Permutation.
Open Scope Qc_scope.

(** ** C50: a check that runs passes exactly on these states *)
Lemma mapM_unit_iff {X} (f : X -> result unit) l : (exists us, mapM f l = Ok us) <-> forall x, In x l -> f x = Ok tt.
Proof.
  split.
  - intros (us & H) x I. apply mapM_unit in H as (H & _). rewrite Forall_forall in H. auto.
  - induction l as [|x l IH]; intros H; cbn [mapM]; [eauto|]. rewrite (H x (or_introl eq_refl)). cbn [bind]. destruct IH as (us & ->); [intros y Y; apply H; now right|]. cbn [bind]. eauto.
Qed.
Theorem check_now_exact : forall A sb, plex_made (sb_plex sb) -> (check_now A sb = Ok tt <->
  (forall k sh, In (k, sh) (sp_sheets (sb_plex sb)) -> exists c ok d a, dget String.eqb k (sb_schosen sb) = Some c /\ dget String.eqb k (sb_sok sb) = Some ok /\
     g2_sub A c ok = Ok d /\ g2_area d = Ok a /\ a < e7) /\
  (forall s o, joint (sb_plex sb) s o -> exists c k ko d sc f x a,
     dget id2_eqb (is_id s) (sb_ichosen sb) = Some c /\ dget id2_eqb (is_id s) (sb_iok sb) = Some k /\ dget id2_eqb (is_id o) (sb_iok sb) = Some ko /\
     g_sub c k = Ok d /\ measure_lt d e7 = true /\ g_and c ko = Ok [] /\
     dget String.eqb (is_sheet s) (sb_schosen sb) = Some sc /\ make_fingers01 A s ko = Ok f /\ g2_and A sc f = Ok x /\ g2_area x = Ok a /\ a < e3)).
Proof.
  intros A sb M. destruct (made_sheets_fresh _ M) as (ND & NI).
  assert (AA : forall g q, assert_area g q = Ok tt <-> exists a, g2_area g = Ok a /\ a < q).
  { intros g q. unfold assert_area, area_lt. destruct (g2_area g) as [a|e]; cbn [bind].
    - destruct (qltb_spec a q) as [L|L]; cbn; split; eauto; [discriminate|]. intros (a' & E & L'). apply Ok_inv in E as <-. contradiction.
    - split; [discriminate|]. intros (a & E & _). discriminate. }
  assert (AL : forall g q (k : result unit), (forall u, k <> Ok u) -> ((b <- area_lt g q ;; if b then Ok tt else k) = Ok tt <-> exists a, g2_area g = Ok a /\ a < q)).
  { intros g q k K. unfold area_lt. destruct (g2_area g) as [a|e]; cbn [bind].
    - destruct (qltb_spec a q) as [L|L]; cbn; split; eauto; [intros H; destruct (K _ H)|]. intros (a' & E & L'). apply Ok_inv in E as <-. contradiction.
    - split; [discriminate|]. intros (a & E & _). discriminate. }
  assert (MSG : forall k m (b : geom1d -> exn), (forall u, (co <- dgetr id2_eqb k m ;; Err (b co)) <> Ok u :> result unit)).
  { intros k m b u H. apply bind_ok in H as (? & _ & H). discriminate H. }
  assert (SH : forall sh, check_sheet A sb sh = Ok tt <-> exists c ok d a, dget String.eqb (sh_id sh) (sb_schosen sb) = Some c /\ dget String.eqb (sh_id sh) (sb_sok sb) = Some ok /\
     g2_sub A c ok = Ok d /\ g2_area d = Ok a /\ a < e7).
  { intros sh. unfold check_sheet, sget. split.
    - intros H. apply bind_ok in H as (c & H1 & H). apply bind_ok in H as (k & H2 & H). apply bind_ok in H as (d & H3 & H). apply AA in H as (a & H4 & H5). apply dgetr_ok in H1, H2. exists c, k, d, a. auto.
    - intros (c & k & d & a & H1 & H2 & H3 & H4 & H5). apply dgetr_ok in H1, H2. rewrite H1, H2. cbn [bind]. rewrite H3. cbn [bind]. apply AA. eauto. }
  assert (SD : forall s o, opposite s (sb_plex sb) = Ok o -> (check_side A sb s = Ok tt <-> exists c k ko d sc f x a,
     dget id2_eqb (is_id s) (sb_ichosen sb) = Some c /\ dget id2_eqb (is_id s) (sb_iok sb) = Some k /\ dget id2_eqb (is_id o) (sb_iok sb) = Some ko /\
     g_sub c k = Ok d /\ measure_lt d e7 = true /\ g_and c ko = Ok [] /\
     dget String.eqb (is_sheet s) (sb_schosen sb) = Some sc /\ make_fingers01 A s ko = Ok f /\ g2_and A sc f = Ok x /\ g2_area x = Ok a /\ a < e3)).
  { intros s o O. unfold check_side, iget, sget. rewrite O. cbn [bind]. split.
    - intros H. apply bind_ok in H as (c & H1 & H). apply bind_ok in H as (k & H2 & H). apply bind_ok in H as (d & H3 & H). apply bind_ok in H as (u & H4 & H).
      apply bind_ok in H as (ko & H5 & H). apply bind_ok in H as (ck & H6 & H). apply bind_ok in H as (u' & H7 & H). apply bind_ok in H as (sc & H8 & H). apply bind_ok in H as (f & H9 & H). apply bind_ok in H as (x & H10 & H).
      apply (AL _ _ _ (MSG _ _ _)) in H as (a & H11 & H12). apply passert_ok in H4, H7. apply dgetr_ok in H1, H2, H5, H8. destruct ck; [|discriminate]. exists c, k, ko, d, sc, f, x, a. repeat (split; [assumption|]). assumption.
    - intros (c & k & ko & d & sc & f & x & a & H1 & H2 & H3 & H4 & H5 & H6 & H7 & H8 & H9 & H10). apply dgetr_ok in H1, H2, H3, H7. rewrite H1, H2. cbn [bind]. rewrite H4. cbn [bind]. rewrite H5. cbn [passert bind]. rewrite H3. cbn [bind]. rewrite H6. cbn [bind is_empty passert].
      rewrite H7. cbn [bind]. rewrite H8. cbn [bind]. rewrite H9. cbn [bind]. apply (AL _ _ _ (MSG _ _ _)). eauto. }
  unfold check_now. split.
  - intros H. apply bind_ok in H as (u1 & H1 & H). apply bind_ok in H as (u2 & H2 & _). pose proof (proj1 (mapM_unit_iff _ _) (ex_intro _ _ H1)) as K1. pose proof (proj1 (mapM_unit_iff _ _) (ex_intro _ _ H2)) as K2. split.
    + intros k sh I. pose proof (NI _ _ I) as Ek. rewrite <- Ek. apply SH, K1, in_map_iff. exists (k, sh). auto.
    + intros s o (Hs & Ho). apply (SD s o Ho), K2. now apply made_list.
  - intros (K1 & K2). destruct (proj2 (mapM_unit_iff (check_sheet A sb) (values (sp_sheets (sb_plex sb))))) as (u1 & ->).
    { intros sh I. apply in_map_iff in I as ((k & sh') & <- & I). cbn [snd]. apply SH. pose proof (NI _ _ I) as Ek. rewrite Ek. exact (K1 k sh' I). }
    cbn [bind]. destruct (proj2 (mapM_unit_iff (check_side A sb) (sp_intersides (sb_plex sb) None))) as (u2 & ->); [|reflexivity].
    intros s I. apply (made_list _ _ M) in I. destruct (made_opp _ _ M I) as (o & O1 & _). apply (SD s o O1). apply K2. split; auto.
Qed.
Print Assumptions check_now_exact.

(** ** C128 *)
Section Fails.
Variable orc : list segment -> nat -> nat -> nat.
Variable fsqrt fl : Qc -> Qc.
Variable R : rng.
Variable mn mx : Qc.
Variable ord : dict string geom1d -> dict string geom1d.
Variable sord : list string -> list string.
Variable sp : sheetplex.
Hypothesis RO : root_ok fsqrt.
Hypothesis M : plex_made sp.
Hypothesis PC : plex_clean sp.
Hypothesis ORD : forall c, Permutation c (ord c).
Hypothesis SORD : forall l, Permutation l (sord l).
Let A := segment_arrangement orc.
Let F1 : 0 < fsqrt 1 := proj1 RO.
Let F2 : fsqrt 1 < fsqrt (zq 2) := proj1 (proj2 RO).
Let F3 : fsqrt (zq 2) < zq 2 * fsqrt 1 := proj2 (proj2 RO).
Let PN : plex_in neat sp := plex_clean_neat sp PC.
Notation steps := (canned_steps A fsqrt fl R mn mx ord sord).
Definition only_assert (e : exn) : Prop := e = AssertionError.
Definition multi_error (e : exn) : Prop := check_error e \/ e = AttributeError \/ e = PlainException.

Definition finger_error (e : exn) : Prop := check_error e \/ (e = ZeroDivisionError /\ (mn = 0 \/ mx = 0)).

Lemma good_step op st st' : In op steps -> good sp (fst st) -> op st = Ok st' -> good sp (fst st').
Proof.
  intros I G H. change steps with (firstn 11 steps ++ [clean_up_thin_ok_parts A fsqrt]) in I. apply in_app_iff in I as [I|[<-|[]]].
  - exact (good_steps orc sp M PN _ _ G (steps_ssteps A fsqrt fl R mn mx ord sord neat sp st op st' (neat_closed orc fsqrt F1 F2 F3) M ORD (gd_legal _ _ G) I H)).
  - exact (good_clean orc fsqrt F1 F2 F3 sp st st' G H).
Qed.
Lemma good_runs ops : (forall op, In op ops -> In op steps) -> forall st st', good sp (fst st) -> runs_to ops st st' -> good sp (fst st').
Proof.
  induction ops as [|op ops IH]; intros S st st' G H; cbn [runs_to] in H; [now subst|]. destruct H as (st1 & E & H). apply (IH (fun o I => S o (or_intror I)) st1 st'); auto. exact (good_step op st st1 (S op (or_introl eq_refl)) G E).
Qed.
Lemma step_errors n op st : nth_error steps n = Some op -> good sp (fst st) -> (n = 0%nat -> forall id, chosen_of (fst st) id = []) -> errs (if Nat.eqb n 7 then multi_error else if Nat.eqb n 10 then finger_error else check_error) (op st).
Proof.
  intros H G Z. pose proof (or_introl eq_refl : check_error AssertionError) as EA. pose proof (or_intror eq_refl : check_error TypeError) as ET. pose proof (or_introl EA : multi_error AssertionError) as EM. pose proof (or_introl ET : multi_error TypeError) as EN.
  assert (UI : errs check_error (update_intersection_ok A st)) by exact (e_update_iok check_error EA ET orc fsqrt F1 F2 F3 sp M PN st G).
  assert (RL : errs check_error (remove_loose A st)) by exact (e_loose check_error EA ET orc fsqrt F1 F2 F3 sp M PN st G).
  destruct n as [|n]; [injection H as <-; exact (e_obviously check_error EA ET orc fsqrt F1 F2 F3 sp M PN st G (or_intror (Z eq_refl)))|].
  do 6 (destruct n as [|n]; [injection H as <-; cbn [Nat.eqb]; first [exact UI|exact RL|exact (e_update_sok check_error EA ET orc fsqrt F1 F2 F3 sp M PN st G)]|]).
  destruct n as [|n]; [injection H as <-; cbn [Nat.eqb]; exact (e_multi multi_error EM EN orc fsqrt F1 F2 F3 sp M PN (or_intror (or_introl eq_refl)) (or_intror (or_intror eq_refl)) ord sord ORD SORD st G)|].
  destruct n as [|n]; [injection H as <-; exact UI|].
  destruct n as [|n]; [injection H as <-; exact (e_ok_side check_error EA ET orc fsqrt F1 F2 F3 sp M PN st G)|].
  destruct n as [|n]; [injection H as <-; exact (e_random finger_error (or_introl EA) (or_introl ET) orc fsqrt F1 F2 F3 sp M PN fl R mn mx (fun Z => or_intror (conj eq_refl Z)) st G)|].
  destruct n as [|n]; [injection H as <-; exact (e_clean check_error EA orc fsqrt F1 F2 F3 sp M PN st G)|]. destruct n; discriminate H.
Qed.

(** with return_on_failure=False: a failed assertion, a zero finger width, or one of two further exceptions of the eighth step *)
Theorem run_fails_only : forall rad ci e, exact_num rad -> canned_1 A fsqrt fl R mn mx ord sord None (Some false) sp rad ci = Err e ->
  check_error e \/ (e = ZeroDivisionError /\ (mn = 0 \/ mx = 0)) \/
  (e = AttributeError \/ e = PlainException) /\ exists sb0 ci0 st, create_sheetbuild A fsqrt sp rad = Ok sb0 /\ check A sb0 false ci = Ok ci0 /\ runs_to (firstn 7 steps) (sb0, ci0) st /\
    heuristic_multi_inter_single_decisions A fsqrt ord sord st = Err e.
Proof.
  intros rad ci e X H. pose proof (eq_refl : only_assert AssertionError) as EA. pose proof (or_introl eq_refl : check_error AssertionError) as EC. pose proof (or_intror eq_refl : check_error TypeError) as ET. apply canned_raises in H as [H|(sb0 & C & H)].
  - left. left. pose proof (e_create only_assert EA orc fsqrt F1 F2 F3 sp M PN rad X) as K. fold A in K. rewrite H in K. exact K.
  - destruct (good_create orc fsqrt F1 F2 F3 sp M PN rad sb0 C) as (G0 & Z0). destruct H as [H|(ci0 & n & st & CK & RT & H)].
    + left. pose proof (e_check check_error EC ET orc fsqrt F1 F2 F3 sp M PN sb0 false ci G0) as K. fold A in K. rewrite H in K. exact K.
    + assert (G : good sp (fst st)). { refine (good_runs (firstn n steps) _ (sb0, ci0) st G0 RT). intros op I. rewrite <- (firstn_skipn n steps). apply in_app_iff. auto. }
      destruct H as [(op & I & H)|(-> & H)].
      * pose proof (step_errors n op st I G) as K. assert (Z : n = 0%nat -> forall id, chosen_of (fst st) id = []) by (intros ->; cbn [firstn runs_to] in RT; subst st; exact Z0). specialize (K Z). rewrite H in K. destruct (Nat.eqb_spec n 7) as [->|N]; [|destruct (Nat.eqb n 10); [destruct K as [K|K]; auto|left; exact K]].
        destruct K as [K|K]; [now left|right; right]. split; [exact K|]. exists sb0, ci0, st. repeat (split; [assumption|]). injection I as <-. exact H.
      * left. pose proof (e_check check_error EC ET orc fsqrt F1 F2 F3 sp M PN (fst st) true (snd st) G) as K. fold A in K. rewrite H in K. exact K.
Qed.
(** with return_on_failure=True nothing is raised once the sheetbuild exists *)
Theorem run_caught : forall rad ci e, exact_num rad -> canned_1 A fsqrt fl R mn mx ord sord None (Some true) sp rad ci = Err e ->
  e = UnboundLocalError /\ create_sheetbuild A fsqrt sp rad = Err AssertionError.
Proof.
  intros rad ci e X H. unfold canned_1 in H. destruct (create_sheetbuild A fsqrt sp rad) as [sb0|e0] eqn:C.
  - destruct (match check A sb0 false ci with Ok _ => _ | Err _ => _ end) as ((st & log) & [e1|]); discriminate H.
  - cbn [on_error] in H. split; [congruence|]. pose proof (e_create only_assert eq_refl orc fsqrt F1 F2 F3 sp M PN rad X) as K. fold A in K. rewrite C in K. cbn in K. now rewrite K.
Qed.
(** the command line *)
Theorem cli_fails_only : forall pord rad dil e, exact_num dil -> (forall m, Permutation m (pord m)) -> main A fsqrt fl R mn mx ord sord pord (Ok sp) rad dil = Err e ->
  (sp_sheets sp = [] /\ e = PlainException) \/
  (exists e', canned_1 A fsqrt fl R mn mx ord sord None (Some false) sp rad 0 = Err e' /\ e = KeyError) \/
  (exists sb h, canned_1 A fsqrt fl R mn mx ord sord None None sp rad 0 = Ok (mkCanned true sb h) /\ mapM (dilate A fsqrt dil) (pord (sb_schosen sb)) = Err e /\ e = AssertionError).
Proof.
  intros pord rad dil e X PO H. unfold main in H. cbn [bind] in H. destruct (sp_sheets sp) as [|e0 l] eqn:ES; [left; cbn [bind] in H; split; congruence|]. cbn [bind] in H.
  destruct (canned_1 A fsqrt fl R mn mx ord sord None None sp rad 0) as [[ok sb h]|e1] eqn:C; cbn [bind] in H.
  - right; right. cbn [cn_sb] in H. destruct ok; [|destruct (canned_failed_state _ _ _ _ _ _ _ _ _ _ _ _ _ _ _ C) as (K & _); discriminate]. exists sb, h. split; [reflexivity|].
    destruct (mapM (dilate A fsqrt dil) (pord (sb_schosen sb))) as [d|e1] eqn:D; cbn [bind] in H; [discriminate|]. assert (E : e1 = e) by congruence. subst e1. split; [reflexivity|].
    enough (K : errs only_assert (mapM (dilate A fsqrt dil) (pord (sb_schosen sb)))) by (rewrite D in K; exact K).
    apply errs_mapM. intros (k & g) I. apply (Permutation_in _ (Permutation_sym (PO _))) in I. unfold dilate. cbn [fst snd]. apply errs_bind; [|intros; exact Logic.I].
    apply errs_buffer; auto; [reflexivity|].
    destruct (run_fine _ _ _ _ _ _ _ _ _ _ _ _ _ _ _ _ RO M PC ORD C) as (S & ND). apply (dget_nodup _ string_eqb_ok _ _ _ ND) in I. rewrite <- (geom_at_get _ _ _ I). apply fine_neat, S.
  - right; left. assert (KE := cli_failure_is_key_error _ _ _ _ _ _ _ _ _ _ _ _ C). destruct (canned_1 A fsqrt fl R mn mx ord sord None (Some false) sp rad 0) as [r|e'] eqn:C'; [|exists e'; split; [reflexivity|congruence]].
    exfalso. unfold canned_1 in C, C'. destruct (create_sheetbuild A fsqrt sp rad) as [sb0|]; [|discriminate C']. destruct (match check A sb0 false 0 with Ok _ => _ | Err _ => _ end) as ((st & log) & [e2|]); [discriminate C'|discriminate C].
Qed.
End Fails.
Print Assumptions run_fails_only.
Print Assumptions run_caught.
Print Assumptions cli_fails_only.

(** Non-vacuity: one square sheet, allowed region shrunk by 2, and a check that runs at once.  The
    run fails with an assertion, and with KeyError from the command line's parameters. *)
Module FailEx.
Definition sq : geom2d := [mkSpwh [(0, 0); (0, zq 20); (zq 20, zq 20); (zq 20, 0)] []].
Definition sp : sheetplex := mkPlex [("s0", mkSheet "s0" sq sq sq)]%string [].
Definition R : rng := mkRng (fun _ l => l) (fun _ lo _ => lo) (fun _ lo _ => lo).
Definition run rof := canned_1 (segment_arrangement (fun _ _ _ => O)) AssemblyEx.fs (fun q => q) R (zq 3) (zq 5) (fun c => c) (fun l => l) None rof sp (NInt (-2)) 151.
End FailEx.
Example fails_ex : root_ok AssemblyEx.fs /\ plex_made FailEx.sp /\ plex_clean FailEx.sp /\ exact_num (NInt (-2)) /\ FailEx.run (Some false) = Err AssertionError.
Proof.
  split; [exact (proj1 assembly_ex)|]. split; [|split; [|split]].
  - exists (fun _ _ => Ok None), FailEx.sp. split; [|reflexivity]. split; [reflexivity|]. split; [repeat constructor; intros []|].
    intros k s [E|[]]. injection E as <- <-. split; [reflexivity|]. intros X. vm_compute in X. intuition discriminate.
  - intros k sh [E|[]] g I. injection E as <- <-. assert (g = FailEx.sq) as -> by (cbn in I; destruct I as [<-|[<-|[<-|[]]]]; reflexivity).
    assert (S : sharp FailEx.sq) by (apply (rect_sharp 0 0 20 20); vm_compute; reflexivity). exact (conj (proj1 S) (proj2 (proj2 S))).
  - exists (zq (-2)). reflexivity.
  - vm_compute. reflexivity.
Qed.
