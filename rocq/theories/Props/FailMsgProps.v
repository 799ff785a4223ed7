(** * What a failing check raises: C134. *)
From Verif.Spec Require Import Plane Region PointSet1 Fingers Crisp.
From Verif.Model Require Import Arrangement2d Geom2d Geom1d Sheetplex Sheetbuild Heuristics.
From Verif.Proofs Require Import PyP ExtOrd DictP Geom1dP Geom2dP Geom2dOps ArrSoundP SheetplexP FingerP SheetbuildP CreateP HeuristicsP HeuStepsP BufSharpQ RunSharpP OutcomeP OutcomeQ OutcomeR.
From Verif.Props Require Import Geom1dProps SheetplexProps Geom2dProps SheetbuildProps CrispProps RunSharpProps NeighbourProps.
From Coq Require Import String.
Open Scope Qc_scope.

(** an operation that selects no cell gives the empty geometry *)
Lemma poly_none a r : poly_cells a [] = Ok r -> r = [].
Proof. unfold poly_cells. cbn -[Nat.add]. intros H. now apply Ok_inv in H. Qed.
Lemma select_none A gs op : (forall pt b, op_at gs op pt = Ok b -> b = false) -> forall cps cs, select_cells A gs op cps = Ok cs -> cs = [].
Proof.
  intros N. induction cps as [|(c & pt) cps IH]; intros cs H; cbn [select_cells] in H; [now apply Ok_inv in H|].
  apply bind_ok in H as (b & B & H). apply bind_ok in H as (r & R & H). apply Ok_inv in H as <-. rewrite (N _ _ B). exact (IH _ R).
Qed.
Lemma op_none orc gs op x : (forall pt b, op_at gs op pt = Ok b -> b = false) -> arrangement_op (segment_arrangement orc) gs op = Ok x -> x = [].
Proof.
  intros N H. unfold arrangement_op in H. apply bind_ok in H as (arr & _ & H). apply bind_ok in H as (cps & _ & H). apply bind_ok in H as (cs & C & H). apply bind_ok in H as (ps & P & H). apply bind_ok in H as (u & _ & H). apply Ok_inv in H as <-.
  rewrite (select_none _ gs op N cps cs C) in P. exact (poly_none arr ps P).
Qed.
Lemma fingers_none orc s f : make_fingers01 (segment_arrangement orc) s [] = Ok f -> f = [].
Proof.
  intros H. unfold make_fingers01, make_fingers in H. cbn [mapM bind] in H. unfold g2_union in H. cbn [List.length Nat.ltb Nat.leb UNION_N] in H. refine (op_none orc [] any_op f _ H).
  intros pt b B. unfold op_at in B. cbn in B. now apply Ok_inv in B.
Qed.
Lemma and_none orc g x : g2_and (segment_arrangement orc) g [] = Ok x -> x = [].
Proof.
  apply op_none. intros pt b B. unfold op_at in B. apply bind_ok in B as (ls & L & B). apply bind_ok in B as (u & _ & B). apply Ok_inv in B as <-.
  apply PyP.mapM_ok in L. inversion L as [|? l0 ? ls' _ L1]; subst. inversion L1 as [|? l1 ? ls'' L2 L3]; subst. inversion L3; subst. cbn in L2. apply Ok_inv in L2 as <-. cbn. apply Bool.andb_false_r.
Qed.

(** the parts of the sheet of [s] that are chosen although the other side could still take them *)
Definition taken (A : arr_impl) (sb : sbuild) (s o : interside) (a : Qc) : Prop :=
  exists sc ko f x, dget String.eqb (is_sheet s) (sb_schosen sb) = Some sc /\ dget id2_eqb (is_id o) (sb_iok sb) = Some ko /\
    make_fingers01 A s ko = Ok f /\ g2_and A sc f = Ok x /\ g2_area x = Ok a.
(** chosen ranges are ok, up to 1e-7, and not ok on the other side *)
Definition ranges_pass (sb : sbuild) (s o : interside) : Prop :=
  exists c k ko d, dget id2_eqb (is_id s) (sb_ichosen sb) = Some c /\ dget id2_eqb (is_id s) (sb_iok sb) = Some k /\ dget id2_eqb (is_id o) (sb_iok sb) = Some ko /\
    g_sub c k = Ok d /\ measure_lt d e7 = true /\ g_and c ko = Ok [].
Section Msg.
Variable orc : list segment -> nat -> nat -> nat.
Let A := segment_arrangement orc.

(** the last assertion of a joint: if it fails, what is raised is TypeError *)
Theorem joint_check_raises : forall sb s o a co, opposite s (sb_plex sb) = Ok o -> ranges_pass sb s o -> taken A sb s o a -> dget id2_eqb (is_id o) (sb_ichosen sb) = Some co ->
  check_side A sb s = if qltb a e3 then Ok tt else Err TypeError.
Proof.
  intros sb s o a co O (c & k & ko & d & C & K & KO & D & ML & AN) (sc & ko' & f & x & SC & KO' & FI & X & AR) CO. assert (ko' = ko) by congruence. subst ko'.
  unfold check_side, iget, sget. rewrite O. cbn [bind]. apply dgetr_ok in C, K, KO, SC, CO. rewrite C, K. cbn [bind]. rewrite D. cbn [bind]. rewrite ML. cbn [passert bind]. rewrite KO. cbn [bind]. rewrite AN. cbn [bind is_empty passert]. rewrite SC. cbn [bind].
  rewrite FI. cbn [bind]. rewrite X. cbn [bind]. unfold area_lt. rewrite AR. cbn [bind]. destruct (qltb_spec a e3) as [L|L]; [reflexivity|]. rewrite CO. cbn [bind]. do 2 f_equal.
  destruct ko as [|i ko]; [|cbn [is_empty]; rewrite Bool.andb_false_r; reflexivity]. exfalso. apply L. apply fingers_none in FI. subst f. apply and_none in X. subst x. cbn in AR. apply Ok_inv in AR as <-. reflexivity.
Qed.
(** on the states of a run: TypeError from that assertion, AssertionError from the two before it *)
Theorem joint_check_why : forall sp sb s o e fsqrt, root_ok fsqrt -> plex_made sp -> plex_in neat sp -> good sp sb -> joint sp s o -> check_side A sb s = Err e ->
  (e = TypeError /\ ranges_pass sb s o /\ exists a, taken A sb s o a /\ e3 <= a) \/ e = AssertionError.
Proof.
  intros sp sb s o e fsqrt (F1 & F2 & F3) M PN G (Hs & Ho) H.
  set (EB := fun e => e = AssertionError). pose proof (eq_refl : EB AssertionError) as EA.
  pose proof (gd_legal _ _ G) as L. pose proof (iv_plex _ _ L) as P. destruct (lk_opp sp M s Hs) as (o' & EO & O & _). assert (o' = o) by congruence. subst o'.
  destruct (lk_ich sp sb s L Hs) as (C & Nc), (lk_iok sp sb s L Hs) as (K & Nk), (lk_iok sp sb o L O) as (KO & No), (lk_ich sp sb o L O) as (CO & Nco).
  destruct (lk_sch sp sb _ G (sheet_of_side sp M s Hs)) as (SC & N1).
  pose proof H as H0. unfold check_side in H. rewrite P, EO in H. cbn [bind] in H. rewrite C, K in H. cbn [bind] in H.
  pose proof (errs_g_sub EB _ _ Nc Nk) as W. destruct (g_sub _ _) as [d|e1] eqn:D; cbn [bind] in H; [clear W|right; cbn in W; congruence].
  destruct (measure_lt d e7) eqn:ML; cbn [passert bind] in H; [|right; congruence]. rewrite KO in H. cbn [bind] in H.
  pose proof (errs_g_and EB _ _ Nc No) as W. destruct (g_and _ _) as [ck|e1] eqn:AN; cbn [bind] in H; [clear W|right; cbn in W; congruence].
  destruct ck as [|i ck]; cbn [is_empty passert bind] in H; [|right; congruence]. rewrite SC in H. cbn [bind] in H.
  pose proof (e_fing EB EA orc s (ok_of sb (is_id o))) as W. fold A in W. destruct (make_fingers01 _ _ _) as [f|e1] eqn:FI; cbn [bind] in H; [clear W|right; cbn in W; congruence].
  pose proof (n_fing orc fsqrt F1 F2 F3 sp M _ _ _ Hs No FI) as Nf.
  pose proof (e_and EB EA orc _ _ N1 Nf) as W. fold A in W. destruct (g2_and _ _ _) as [x|e1] eqn:X; cbn [bind] in H; [clear W|right; cbn in W; congruence].
  destruct (oc_and _ _ _ (neat_closed orc fsqrt F1 F2 F3) _ _ _ N1 Nf X) as (Gx & _). unfold area_lt in H. destruct (g2_area x) as [a|e1] eqn:AR; [|rewrite g2_area_ok in AR by auto; discriminate AR]. cbn [bind] in H.
  left. unfold iget, sget in *. apply dgetr_ok in C, K, KO, SC, CO.
  assert (R : ranges_pass sb s o) by (exists (chosen_of sb (is_id s)), (ok_of sb (is_id s)), (ok_of sb (is_id o)), d; auto 10).
  assert (T : taken A sb s o a) by (eexists _, _, f, x; eauto 10).
  assert (O' : opposite s (sb_plex sb) = Ok o) by now rewrite P.
  pose proof (joint_check_raises sb s o a _ O' R T CO) as J. destruct (qltb_spec a e3) as [LT|LT]; [congruence|]. split; [congruence|]. split; [exact R|]. exists a. split; [exact T|]. now apply Qcnot_lt_le.
Qed.
Lemma mapM_err {X Y} (f : X -> result Y) l e : mapM f l = Err e -> exists x, In x l /\ f x = Err e.
Proof.
  induction l as [|x l IH]; intros H; cbn [mapM] in H; [discriminate H|]. destruct (f x) as [y|e1] eqn:E; cbn [bind] in H; [|exists x; split; [now left|congruence]].
  destruct (mapM f l) as [ys|e1] eqn:M; cbn [bind] in H; [discriminate H|]. destruct (IH H) as (z & I & Z). exists z. split; [now right|exact Z].
Qed.
(** the whole check *)
Theorem check_raises_why : forall sp sb force ci e fsqrt, root_ok fsqrt -> plex_made sp -> plex_in neat sp -> good sp sb -> check A sb force ci = Err e ->
  (e = TypeError /\ exists s o a, joint sp s o /\ ranges_pass sb s o /\ taken A sb s o a /\ e3 <= a) \/ e = AssertionError.
Proof.
  intros sp sb force ci e fsqrt RO M PN G H. pose proof RO as (F1 & F2 & F3). unfold check in H. destruct (check_step force ci) as ([|] & c); cbn [bind] in H; [|discriminate H].
  destruct (check_now A sb) as [u|e1] eqn:CN; cbn [bind] in H; [discriminate H|]. assert (e1 = e) by congruence. subst e1. clear H. unfold check_now in CN. rewrite (iv_plex _ _ (gd_legal _ _ G)) in CN.
  destruct (mapM (check_sheet A sb) _) as [us|e1] eqn:SH; cbn [bind] in CN.
  - destruct (mapM (check_side A sb) _) as [us'|e1] eqn:SD; cbn [bind] in CN; [discriminate CN|]. assert (e1 = e) by congruence. subst e1. apply mapM_err in SD as (s & I & E). apply (made_list sp s M) in I.
    destruct (lk_opp sp M s I) as (o & EO & O & _). destruct (joint_check_why sp sb s o e fsqrt RO M PN G (conj I EO) E) as [(E1 & R & a & T & L)|E1]; [left|now right].
    split; [exact E1|]. exists s, o, a. split; [exact (conj I EO)|]. auto.
  - right. assert (e1 = e) by congruence. subst e1. apply mapM_err in SH as (sh & I & E).
    pose proof (e_check_sheet (fun e => e = AssertionError) eq_refl orc fsqrt F1 F2 F3 sp M PN sb sh G I) as W. fold A in W. rewrite E in W. exact W.
Qed.
End Msg.
Print Assumptions joint_check_raises.
Print Assumptions joint_check_why.
Print Assumptions check_raises_why.

(** Non-vacuity: a state whose ranges are as they should be; the check raises TypeError. *)
Example fail_msg_ex : let A := segment_arrangement (fun _ _ _ => O) in let sb := NeighbourEx.sb in
  plex_made NeighbourEx.sp /\ joint NeighbourEx.sp NeighbourEx.s0 NeighbourEx.s1 /\ legal NeighbourEx.sp sb /\ check_side A sb NeighbourEx.s0 = Err TypeError /\ check A sb true 0 = Err TypeError.
Proof. destruct NeighbourEx.good as (G1 & G2 & G3). do 3 (split; [assumption|]). split; vm_compute; reflexivity. Qed.
