(** * C145: whole runs with finger widths that leave no choice. *)
From Verif.Spec Require Import PointSet1 Steps.
From Verif.Model Require Import Sheetbuild Heuristics Canned.
From Verif.Proofs Require Import PyP ExtOrd DictP Geom1dP SheetplexP FingerP SheetbuildP HeuristicsP HeuStepsP StepsP FullP.
From Verif.Props Require Import Geom1dProps SheetplexProps SheetbuildProps CannedProps StepsProps AssignProps SwapProps.
From Coq Require Import String Permutation.
Open Scope Qc_scope.

(** the states before and after the finger step of a run with ok=True; the step after it keeps all choices *)
Lemma finger_step A fsqrt fl R mn mx ord sord rof sp rad ci sb h : plex_made sp -> (forall c, Permutation c (ord c)) ->
  canned_1 A fsqrt fl R mn mx ord sord None rof sp rad ci = Ok (mkCanned true sb h) ->
  exists st st', nth_error h 11 = Some (fst st) /\ legal sp (fst st) /\ single_fingers_random A fl R mn mx st = Ok st' /\ forall id, chosen_of sb id = chosen_of (fst st') id.
Proof.
  intros M O H. destruct (canned_history _ _ _ _ _ _ _ _ _ _ _ _ _ _ H) as (sb0 & ci0 & sts & C & -> & S0 & (SL & F) & SE).
  pose proof (proj1 (create_inv1 _ _ _ _ _ M C)) as L0. set (steps := canned_steps A fsqrt fl R mn mx ord sord) in *.
  assert (LG : forall n st, (n <= 12)%nat -> nth_error sts n = Some st -> legal sp (fst st)).
  { induction n as [|n IH]; intros st LE E; [rewrite S0 in E; apply some_inv in E as <-; exact L0|]. destruct (nth_error steps n) as [op|] eqn:EO; [|apply nth_error_None in EO; unfold steps in EO; cbn [canned_steps List.length] in EO; lia].
    destruct (F n op EO) as (a & b & Ea & Eb & OP). pose proof (some_inv _ _ (eq_trans (eq_sym E) Eb)) as <-. apply (steps_legal A fsqrt fl R mn mx ord sord sp a op st M O (IH a ltac:(lia) Ea)); [|exact OP]. exact (nth_error_In _ _ EO). }
  destruct (F 10%nat _ eq_refl) as (s10 & s11 & E10 & E11 & H10).
  destruct (F 11%nat _ eq_refl) as (s11' & s12 & E11' & E12 & H11). pose proof (some_inv _ _ (eq_trans (eq_sym E11) E11')) as <-. clear E11'.
  assert (EB : fst s12 = sb). { change (nth_error (map fst sts) 12 = Some sb) in SE. pose proof (eq_trans (eq_sym (nth_error_map fst 12 sts)) SE) as X. unfold hstate in *. rewrite E12 in X. cbn [option_map] in X. now apply some_inv in X. }
  exists s10, s11. split; [change (nth_error (map fst sts) 10 = Some (fst s10)); rewrite nth_error_map; unfold hstate in *; now rewrite E10|].
  split; [apply (LG 10%nat); [lia|exact E10]|]. split; [exact H10|]. destruct (clean_frame A fsqrt _ _ H11) as (sok & EF). rewrite EB in EF. intros id. rewrite EF. reflexivity.
Qed.

(** no room for fingers: what was open before the finger step goes to the first side of each joint *)
Theorem swapped_widths_run : forall A fsqrt fl R mn mx ord sord rof sp rad ci sb h, 0 < mx -> mx < mn \/ mn < 0 -> plex_made sp -> (forall c, Permutation c (ord c)) ->
  canned_1 A fsqrt fl R mn mx ord sord None rof sp rad ci = Ok (mkCanned true sb h) ->
  exists b, nth_error h 11 = Some b /\ forall k it, In (k, it) (sp_inters sp) -> exists s0 s1, it_sides it = [s0; s1] /\ all_to_first b sb s0 s1.
Proof.
  intros A fsqrt fl R mn mx ord sord rof sp rad ci sb h M0 MM M O H. destruct (finger_step _ _ _ _ _ _ _ _ _ _ _ _ _ _ M O H) as (st & st' & E & L & F & K).
  exists (fst st). split; [exact E|]. intros k it I. destruct (swapped_widths_no_fingers A fl R mn mx sp st st' M0 MM M L F k it I) as (s0 & s1 & ES & T1 & T2). exists s0, s1. split; [exact ES|]. split; [intros x; rewrite K; apply T1|now rewrite K].
Qed.
(** a width of zero: a run succeeds only if the earlier steps have decided every joint *)
Theorem zero_width_run : forall A fsqrt fl R mn mx ord sord rof sp rad ci sb h, mn = 0 \/ mx = 0 -> plex_made sp -> (forall c, Permutation c (ord c)) ->
  canned_1 A fsqrt fl R mn mx ord sord None rof sp rad ci = Ok (mkCanned true sb h) ->
  exists b, nth_error h 11 = Some b /\ (forall id, chosen_of sb id = chosen_of b id) /\ forall k it s0 s1, In (k, it) (sp_inters sp) -> it_sides it = [s0; s1] -> forall x, ~ undecided b (is_id s0) x.
Proof.
  intros A fsqrt fl R mn mx ord sord rof sp rad ci sb h Z M O H. destruct (finger_step _ _ _ _ _ _ _ _ _ _ _ _ _ _ M O H) as (st & st' & E & L & F & K).
  destruct (zero_width_needs_nothing_open A fl R mn mx sp st st' Z M L F) as (EQ & U). exists (fst st). split; [exact E|]. split; [intros id; rewrite K, EQ; reflexivity|exact U].
Qed.
Print Assumptions swapped_widths_run.
Print Assumptions zero_width_run.
(** ** Non-vacuity: whole runs with ok=True, with widths 5 and 3, -1 and 3, and 0 and 3, on a trivial
    arrangement code; what the finger step does with something open is in SwapProps *)
Section Ex.
Let A0 : arr_impl := mkArr unit unit (fun _ => Ok tt) (fun _ => Ok []) (fun _ _ => Ok []).
Let R : rng := mkRng (fun _ l => rev l) (fun _ lo hi => (lo + hi) / zq 2) (fun _ lo _ => lo).
Let sq : geom2d := [mkSpwh [(0, 0); (0, zq 9); (zq 9, zq 9); (zq 9, 0)] []].
Let sh n := mkSheet n sq sq sq.
Let fr : frames := fun _ _ => Ok (Some (((1, 0), ((0, 0), [(0, zq 6)])), ((1, 0), ((0, 0), [(0, zq 6)])))).
Let good (r : result canned) : Prop := match r with Ok r => cn_ok r = true /\ List.length (cn_history r) = 14%nat | Err _ => False end.
Example width_run_ex :
  match create_intersections fr (mkPlex [("s0", sh "s0"); ("s1", sh "s1")]%string []) with
  | Ok sp =>
      let run mn := canned_1 A0 (fun q => q) (fun q => q) R mn (zq 3) (fun c => c) (fun l => l) None None sp (NInt 12) 0 in
      good (run (zq 5)) /\ good (run (zq (-1))) /\ good (run 0)
  | Err _ => False
  end.
Proof. vm_compute. repeat split; reflexivity. Qed.
End Ex.
