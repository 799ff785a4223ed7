(** * C142: the random seed must be between 0 and 2**32-1. *)
From Verif.Spec Require Import PointSet1.
From Verif.Model Require Import Seeds.
From Verif.Proofs Require Import PyP.
From Verif.Props Require Import CannedProps.
From Coq Require Import String.

Section P.
Variable A : arr_impl.
Variable fsqrt fl : Qc -> Qc.
Variable rng_of : Z -> rng.
Variable mn mx : Qc.
Variable ord : dict string geom1d -> dict string geom1d.
Variable sord : list string -> list string.
Variable pord : dict string geom2d -> dict string geom2d.
Local Notation ssteps z := (seeded_steps A fsqrt fl rng_of z mn mx ord sord).
Local Notation steps z := (canned_steps A fsqrt fl (rng_of z) mn mx ord sord).
Local Notation cseeded z := (canned_seeded A fsqrt fl rng_of z mn mx ord sord).
Local Notation canned1 z := (canned_1 A fsqrt fl (rng_of z) mn mx ord sord).
Local Notation mseeded z := (main_seeded A fsqrt fl rng_of z mn mx ord sord pord).
Local Notation main1 z := (main A fsqrt fl (rng_of z) mn mx ord sord pord).

Lemma state_in z : (0 <= z < 2 ^ 32)%Z -> random_state rng_of z = Ok (rng_of z).
Proof. intros H. unfold random_state. destruct (Z.leb_spec 0 z); [|lia]. destruct (Z.leb_spec z (2 ^ 32 - 1)); [reflexivity|lia]. Qed.
Lemma state_out z : ~ (0 <= z < 2 ^ 32)%Z -> random_state rng_of z = Err ValueError.
Proof. intros H. unfold random_state. destruct (Z.leb_spec 0 z); [|reflexivity]. destruct (Z.leb_spec z (2 ^ 32 - 1)); [lia|reflexivity]. Qed.

Lemma run_ext ops1 ops2 : Forall2 (fun f g : hstate -> result hstate => forall st, f st = g st) ops1 ops2 -> forall st log, run_steps A false ops1 st log = run_steps A false ops2 st log.
Proof.
  induction 1 as [|f g l l' E _ IH]; intros st log; cbn [run_steps]; [reflexivity|]. rewrite E. destruct (g st); [apply IH|reflexivity].
Qed.
Lemma steps_in z : (0 <= z < 2 ^ 32)%Z -> Forall2 (fun f g : hstate -> result hstate => forall st, f st = g st) (ssteps z) (steps z).
Proof.
  intros H. unfold seeded_steps, canned_steps. repeat (constructor; [try (intros st; exact eq_refl)|]); [|constructor].
  intros st. unfold single_fingers_seeded, single_fingers_random. rewrite (state_in z H). destruct (hcheck A st) as [(sb, ci)|e]; reflexivity.
Qed.
(** a seed in range: the run is the one of the generator with that seed *)
Theorem seed_in_range_canned : forall z rof sp rad ci, (0 <= z < 2 ^ 32)%Z -> cseeded z rof sp rad ci = canned1 z None rof sp rad ci.
Proof.
  intros z rof sp rad ci H. unfold canned_seeded, canned_1. destruct (create_sheetbuild A fsqrt sp rad) as [sb|e]; [|reflexivity]. destruct (check A sb false ci) as [c|e]; [|reflexivity].
  rewrite (run_ext _ _ (steps_in z H)). reflexivity.
Qed.
Theorem seed_in_range : forall z load rad dil, (0 <= z < 2 ^ 32)%Z -> mseeded z load rad dil = main1 z load rad dil.
Proof.
  intros z load rad dil H. unfold main_seeded, main. destruct load as [sp|e]; cbn [bind]; [|reflexivity]. destruct (sp_sheets sp); cbn [bind]; [reflexivity|].
  now rewrite (seed_in_range_canned z None sp rad 0 H).
Qed.

(** a seed out of range: the finger step always fails *)
Theorem seed_out_of_range_step : forall z st, ~ (0 <= z < 2 ^ 32)%Z ->
  single_fingers_seeded A fl rng_of z mn mx st = match hcheck A st with Ok _ => Err ValueError | Err e => Err e end.
Proof. intros z st H. unfold single_fingers_seeded. rewrite (state_out z H). destruct (hcheck A st) as [(sb, ci)|e]; reflexivity. Qed.
Lemma run_fails ops op : In op ops -> (forall st, exists e, op st = Err e) -> forall st log, exists st' log' e, run_steps A false ops st log = (st', log', Some e).
Proof.
  induction ops as [|f ops IH]; intros I B st log; [destruct I|]. cbn [run_steps]. destruct (f st) as [st1|e] eqn:E; [|eauto]. destruct I as [->|I]; [|now apply IH].
  destruct (B st) as (e & K). rewrite E in K. discriminate.
Qed.
(** no run is ok, and the command line ends with KeyError *)
Theorem seed_out_of_range_not_ok : forall z rof sp rad ci sb h, ~ (0 <= z < 2 ^ 32)%Z -> cseeded z rof sp rad ci <> Ok (mkCanned true sb h).
Proof.
  intros z rof sp rad ci sb h H K. unfold canned_seeded in K. destruct (create_sheetbuild A fsqrt sp rad) as [sb0|e]; [|destruct rof as [[|]|]; discriminate K].
  destruct (check A sb0 false ci) as [c|e]; [|destruct rof as [[|]|]; discriminate K].
  destruct (run_fails (ssteps z) (single_fingers_seeded A fl rng_of z mn mx)) with (st := (sb0, c)) (log := [sb0]) as (st' & log' & e & E).
  - unfold seeded_steps. do 10 right. now left.
  - intros st. rewrite (seed_out_of_range_step z st H). destruct (hcheck A st); eauto.
  - rewrite E in K. destruct rof as [[|]|]; discriminate K.
Qed.
Theorem seed_out_of_range : forall z sp rad dil, ~ (0 <= z < 2 ^ 32)%Z -> sp_sheets sp <> [] -> mseeded z (Ok sp) rad dil = Err KeyError.
Proof.
  intros z sp rad dil H N. unfold main_seeded. cbn [bind]. destruct (sp_sheets sp) as [|s0 l]; [now destruct N|]. cbn [bind].
  assert (E : cseeded z None sp rad 0 = Err KeyError).
  { destruct (cseeded z None sp rad 0) as [[ok sb h]|e] eqn:K.
    - exfalso. destruct ok; [now apply (seed_out_of_range_not_ok z None sp rad 0 sb h H)|]. unfold canned_seeded in K. destruct (create_sheetbuild A fsqrt sp rad) as [sb0|e]; [|discriminate K].
      destruct (check A sb0 false 0) as [c|e]; [|discriminate K]. destruct (run_steps A false (ssteps z) (sb0, c) [sb0]) as [[st log] [e|]]; discriminate K.
    - unfold canned_seeded in K. destruct (create_sheetbuild A fsqrt sp rad) as [sb0|e0]; [|cbn in K; congruence].
      destruct (check A sb0 false 0) as [c|e0]; [|cbn in K; congruence]. destruct (run_steps A false (ssteps z) (sb0, c) [sb0]) as [[st log] [e0|]]; cbn in K; congruence. }
  now rewrite E.
Qed.
(** with return_on_failure=False the exception is numpy's, provided the steps before it and the check succeed *)
Theorem seed_out_of_range_raises : forall z sp rad ci sb c st, ~ (0 <= z < 2 ^ 32)%Z -> create_sheetbuild A fsqrt sp rad = Ok sb -> check A sb false ci = Ok c ->
  runs_to (firstn 10 (ssteps z)) (sb, c) st -> (exists st', hcheck A st = Ok st') -> cseeded z (Some false) sp rad ci = Err ValueError.
Proof.
  intros z sp rad ci sb c st H CS CH RT (st' & HC). unfold canned_seeded. rewrite CS, CH.
  assert (E : forall a b, forall log, runs_to a (sb, c) st -> exists log', run_steps A false (a ++ b) (sb, c) log = run_steps A false b st log').
  { intros a b. generalize (sb, c). induction a as [|f a IH]; intros s0 log R; cbn [runs_to app run_steps] in *; [subst; eauto|]. destruct R as (s1 & F & R). rewrite F. now apply IH. }
  destruct (E (firstn 10 (ssteps z)) (skipn 10 (ssteps z)) [sb] RT) as (log' & K). rewrite firstn_skipn in K. rewrite K.
  change (skipn 10 (ssteps z)) with [single_fingers_seeded A fl rng_of z mn mx; clean_up_thin_ok_parts A fsqrt]. cbn [run_steps]. rewrite (seed_out_of_range_step z st H), HC. reflexivity.
Qed.
End P.
Print Assumptions seed_in_range_canned.
Print Assumptions seed_in_range.
Print Assumptions seed_out_of_range_step.
Print Assumptions seed_out_of_range_not_ok.
Print Assumptions seed_out_of_range.
Print Assumptions seed_out_of_range_raises.

(** the two sheets of CannedProps.v: seeds -1 and 2**32 fail in the finger step, the largest seed works *)
Section Ex.
Let A0 : arr_impl := mkArr unit unit (fun _ => Ok tt) (fun _ => Ok []) (fun _ _ => Ok []).
Let R : rng := mkRng (fun _ l => rev l) (fun _ lo hi => (lo + hi) / zq 2)%Qc (fun _ lo _ => lo).
Let sq : geom2d := [mkSpwh [(0, 0); (0, zq 9); (zq 9, zq 9); (zq 9, 0)]%Qc []].
Let sh n := mkSheet n sq sq sq.
Let sp0 := mkPlex [("s0", sh "s0"); ("s1", sh "s1")]%string [].
Let fr : frames := fun _ _ => Ok (Some (((1, 0), ((0, 0), [(0, zq 6)])), ((1, 0), ((0, 0), [(0, zq 6)]))))%Qc.
Let run seed rof sp := canned_seeded A0 (fun q => q) (fun q => q) (fun _ => R) seed (zq 3) (zq 5) (fun c => c) (fun l => l) rof sp (NInt 12) 0.
Example seed_ex :
  match create_intersections fr sp0 with
  | Ok sp =>
      run (-1) (Some false) sp = Err ValueError /\ run (2 ^ 32) (Some false) sp = Err ValueError /\ run (-1) None sp = Err KeyError /\
      match run (2 ^ 32 - 1) None sp with Ok r => cn_ok r = true | Err _ => False end /\
      match run (-1) (Some true) sp with Ok r => cn_ok r = false /\ List.length (cn_history r) = 12%nat | Err _ => False end
  | Err _ => False
  end%Z.
Proof. vm_compute. repeat split; reflexivity. Qed.
End Ex.
