(** * C135: the random fingers in floating-point arithmetic. *)
From Verif.Spec Require Import Tiling Double.
From Verif.Model Require Import Heuristics.
From Verif.Proofs Require Import PyP FingerP HeuristicsP RoundP.
From Coq Require Import String Permutation Qround Qpower.
Open Scope Qc_scope.

(** ** The spans are right up to the rounding errors.
    [d] bounds the error of one rounding and of one draw for numbers up to [M]. *)
Theorem random_min_max_rounded : forall fl R d M n mn mx total k l k', 0 <= d ->
  (forall x, - M <= x -> x <= M -> x - d <= fl x /\ fl x <= x + d) ->
  (forall k l, Permutation l (r_shuffle R k l)) ->
  (forall k lo hi, - M <= lo -> lo <= hi -> hi <= M -> lo - d <= r_uniform R k lo hi /\ r_uniform R k lo hi <= hi + d) ->
  0 <= mn -> mn <= mx -> zq (Z.of_nat n) * (mx + zq 2 * d) + d <= M ->
  random_min_max fl R n mn mx total k = Ok (l, k') ->
  List.length l = n /\
  exists e, chain 0 l e /\ total - (zq 2 * zq (Z.of_nat n) + zq 2) * d <= e /\ e <= total + (zq 2 * zq (Z.of_nat n) + zq 2) * d /\
    forall s, In s l -> mn - zq 2 * d <= snd s - fst s /\ snd s - fst s <= mx + zq 2 * d.
Proof.
  intros fl R d M n mn mx total k l k' D0 FL SH UN M0 MM BM H.
  assert (Z2 : zq 2 = 1 + 1) by (apply Qc_is_canon; reflexivity). rewrite Z2 in *. exact (random_near fl R d M D0 FL UN n mn mx total k l k' SH M0 MM BM H).
Qed.
Print Assumptions random_min_max_rounded.
(** The assertion after the loop (432) can not fail: if the loop comes to its end the spans are returned. *)
Theorem sum_check_passes : forall fl R d M n mn mx total k ls k1, 0 <= d ->
  (forall x, - M <= x -> x <= M -> x - d <= fl x /\ fl x <= x + d) ->
  (forall k l, Permutation l (r_shuffle R k l)) ->
  (forall k lo hi, - M <= lo -> lo <= hi -> hi <= M -> lo - d <= r_uniform R k lo hi /\ r_uniform R k lo hi <= hi + d) ->
  0 <= mn -> mn <= mx -> zq (Z.of_nat n) * (mx + zq 2 * d) + d <= M ->
  mn * zq (Z.of_nat n) <= total -> total <= mx * zq (Z.of_nat n) -> (zq 2 * zq (Z.of_nat n) + zq 3) * d < e8 -> e8 <= M ->
  draw_loop fl R n mn mx total (r_shuffle R k (seq 0 n)) (repeat 0 n) (FX 0) 0 (S k) = Ok (ls, k1) ->
  exists l, random_min_max fl R n mn mx total k = Ok (l, k1).
Proof.
  intros fl R d M n mn mx total k ls k1 D0 FL SH UN M0 MM BM T0 T1 SM EM H.
  assert (Z2 : zq 2 = 1 + 1) by (apply Qc_is_canon; reflexivity). assert (Z3 : zq 3 = 1 + 1 + 1) by (apply Qc_is_canon; reflexivity). rewrite Z2, ?Z3 in *.
  refine (random_done fl R d M D0 FL UN n mn mx total k ls k1 SH M0 MM BM T0 T1 _ EM H).
  replace ((1 + 1) * zq (Z.of_nat n) + (1 + 1) + 1) with ((1 + 1) * zq (Z.of_nat n) + (1 + 1 + 1)) by ring. exact SM.
Qed.
Print Assumptions sum_check_passes.

(** ** Rounding to 53 bits has relative error 2^-53 *)
Lemma pow2_add a b : pow2 (a + b) = pow2 a * pow2 b.
Proof. apply Qc_is_canon. unfold pow2, Qcmult. cbn [this Q2Qc]. rewrite !Qred_correct. apply Qpower_plus. discriminate. Qed.
Lemma pow2_pos k : 0 < pow2 k.
Proof. unfold Qclt, pow2. cbn [this Q2Qc]. rewrite !Qred_correct. apply Qpower_0_lt. reflexivity. Qed.
Lemma pow2_z k : (0 <= k)%Z -> pow2 k = zq (2 ^ k).
Proof. intros H. apply Qc_is_canon. unfold pow2, zq. cbn [this Q2Qc]. rewrite !Qred_correct. symmetry. now apply (Zpower_Qpower 2). Qed.
Lemma half_even_near q : q - qq 1 2 <= zq (half_even q) /\ zq (half_even q) <= q + qq 1 2.
Proof.
  assert (F1 : zq (Qfloor (this q)) <= q). { unfold Qcle, zq. cbn [this Q2Qc]. rewrite Qred_correct. apply Qfloor_le. }
  assert (F2 : q < zq (Qfloor (this q)) + 1). { rewrite <- (zq_add _ 1). unfold Qclt, zq. cbn [this Q2Qc]. rewrite Qred_correct. apply Qlt_floor. }
  assert (H2 : qq 1 2 + qq 1 2 = 1) by (apply Qc_is_canon; reflexivity).
  unfold half_even. set (f := Qfloor (this q)) in *. pose proof (zq_add f 1 : zq (f + 1) = zq f + 1) as E.
  destruct (qltb_spec (q - zq f) (qq 1 2)); [split; qlra|]. destruct (qltb_spec (qq 1 2) (q - zq f)); [rewrite E; split; qlra|].
  destruct (Z.even f); [split; qlra|rewrite E; split; qlra].
Qed.
Lemma expo_le q : q <> 0 -> pow2 (expo q) <= qabs q.
Proof.
  intros H. unfold expo. set (e := (_ - _)%Z). destruct (qleb_spec (pow2 e) (qabs q)) as [|_]; auto.
  assert (N0 : (Qnum (this q) <> 0)%Z). { intros E. apply H. apply Qc_is_canon. unfold Qeq. rewrite E. reflexivity. }
  set (n := Z.abs (Qnum (this q))) in *. set (dn := Zpos (Qden (this q))) in *.
  assert (NP : (0 < n)%Z) by (unfold n; lia). assert (DP : (0 < dn)%Z) by (unfold dn; lia).
  pose proof (Z.log2_spec n NP) as (L1 & _). pose proof (Z.log2_spec dn DP) as (_ & L2).
  set (a := Z.log2 n) in *. set (b := Z.log2 dn) in *. assert (A0 : (0 <= a)%Z) by apply Z.log2_nonneg. assert (B0 : (0 <= b)%Z) by apply Z.log2_nonneg.
  assert (QA : qabs q * zq dn = zq n).
  { unfold qabs. assert (X : q * zq dn = zq (Qnum (this q))). { apply Qc_is_canon. unfold Qcmult, zq. cbn [this Q2Qc]. rewrite !Qred_correct. unfold dn. destruct (this q) as [u v]. unfold Qeq. cbn [Qnum Qden Qmult inject_Z]. lia. }
    destruct (qleb_spec 0 q) as [L|L].
    - rewrite X. f_equal. unfold n. unfold Qcle, Qle in L. change (Qnum (this 0)) with 0%Z in L. change (Qden (this 0)) with 1%positive in L. lia.
    - replace (- q * zq dn) with (- zq (Qnum (this q))) by (rewrite <- X; ring). rewrite <- zq_opp. f_equal. unfold n. apply Qcnot_le_lt in L. unfold Qclt, Qlt in L. change (Qnum (this 0)) with 0%Z in L. change (Qden (this 0)) with 1%positive in L. lia. }
  assert (PE : pow2 (e - 1) * pow2 (b + 1) = pow2 a). { rewrite <- pow2_add. f_equal. unfold e. lia. }
  rewrite (pow2_z (b + 1)), (pow2_z a) in PE by lia. apply zq_le in L1. assert (L2' : zq dn <= zq (2 ^ (b + 1))) by (apply zq_le; lia).
  assert (D' : 0 < zq dn) by (apply (zq_lt 0); lia). pose proof (pow2_pos (e - 1)) as PP. set (p := pow2 (e - 1)) in *. clearbody p.
  set (x := qabs q) in *. clearbody x. set (D := zq dn) in *. clearbody D. set (T := zq (2 ^ (b + 1))) in *. clearbody T.
  destruct (Qclt_le_dec x p) as [K|K]; auto. exfalso. assert (x * D < p * D) by (clear - K D'; qnra). assert (p * D <= p * T) by (clear - PP L2'; qnra). qlra.
Qed.
Theorem dbl_error : forall x, x - pow2 (-53) * qabs x <= dbl x /\ dbl x <= x + pow2 (-53) * qabs x.
Proof.
  intros x. unfold dbl. destruct (qeqb_spec x 0) as [->|NE].
  - replace (qabs 0) with 0 by (apply Qc_is_canon; reflexivity). split; qlra.
  - set (k := (52 - expo x)%Z). destruct (half_even_near (x * pow2 k)) as (H1 & H2). set (h := zq _) in *. clearbody h.
    pose proof (pow2_pos (- k)) as P. assert (E1 : pow2 k * pow2 (- k) = 1). { rewrite <- pow2_add. replace (k + - k)%Z with 0%Z by lia. apply Qc_is_canon. reflexivity. }
    assert (E2 : qq 1 2 * pow2 (- k) <= pow2 (-53) * qabs x).
    { replace (qq 1 2 * pow2 (- k)) with (pow2 (-53) * pow2 (expo x)). - pose proof (expo_le x NE). pose proof (pow2_pos (-53)). set (a := pow2 (expo x)) in *. set (b := qabs x) in *. set (c := pow2 (-53)) in *. clearbody a b c. qnra.
      - replace (qq 1 2) with (pow2 (-1)) by (apply Qc_is_canon; reflexivity). rewrite <- !pow2_add. f_equal. unfold k. lia. }
    set (p := pow2 (- k)) in *. assert (E3 : x = x * pow2 k * p) by (rewrite <- Qcmult_assoc, E1; ring). set (y := x * pow2 k) in *.
    assert (h * p <= (y + qq 1 2) * p) by (clear - H2 P; clearbody p y; set (z := y + qq 1 2) in *; clearbody z; qnra).
    assert ((y - qq 1 2) * p <= h * p) by (clear - H1 P; clearbody p y; set (z := y - qq 1 2) in *; clearbody z; qnra).
    replace ((y + qq 1 2) * p) with (x + qq 1 2 * p) in * by (rewrite E3 at 1; ring). replace ((y - qq 1 2) * p) with (x - qq 1 2 * p) in * by (rewrite E3 at 1; ring).
    set (c := qq 1 2 * p) in *. set (c' := pow2 (-53) * qabs x) in *. clearbody c c'. split; qlra.
Qed.
Print Assumptions dbl_error.

(** with float64: up to [M], numbers are rounded by at most 2^-53 M; a draw adds and multiplies, two roundings *)
Theorem random_min_max_double : forall R M n mn mx total k l k', M <= pow2 50 ->
  (forall k l, Permutation l (r_shuffle R k l)) ->
  (forall k lo hi, - M <= lo -> lo <= hi -> hi <= M -> lo - pow2 (-52) * M <= r_uniform R k lo hi /\ r_uniform R k lo hi <= hi + pow2 (-52) * M) ->
  0 <= mn -> mn <= mx -> zq (Z.of_nat n) * (mx + 1) + 1 <= M ->
  random_min_max dbl R n mn mx total k = Ok (l, k') ->
  List.length l = n /\
  exists e, chain 0 l e /\ total - (zq 2 * zq (Z.of_nat n) + zq 2) * (pow2 (-52) * M) <= e /\ e <= total + (zq 2 * zq (Z.of_nat n) + zq 2) * (pow2 (-52) * M) /\
    forall s, In s l -> mn - zq 2 * (pow2 (-52) * M) <= snd s - fst s /\ snd s - fst s <= mx + zq 2 * (pow2 (-52) * M).
Proof.
  intros R M n mn mx total k l k' MB SH UN M0 MM BM H.
  pose proof (zn_mul n (mx + 1) ltac:(qlra)) as Z0. assert (MP : 0 <= M) by qlra. pose proof (pow2_pos (-53)) as P53. pose proof (pow2_pos (-52)) as P52.
  assert (E : pow2 (-52) = zq 2 * pow2 (-53)) by (apply Qc_is_canon; reflexivity). assert (E4 : pow2 (-52) * pow2 50 = qq 1 4) by (apply Qc_is_canon; reflexivity).
  assert (Z2 : zq 2 = 1 + 1) by (apply Qc_is_canon; reflexivity). assert (Q4 : zq 2 * qq 1 4 <= 1) by (vm_compute; congruence).
  assert (D1 : pow2 (-52) * M <= qq 1 4). { rewrite <- E4. set (a := pow2 50) in *. set (b := pow2 (-52)) in *. clearbody a b. clear - MB P52. qnra. }
  apply (random_min_max_rounded dbl R (pow2 (-52) * M) M n mn mx total k l k'); auto.
  - set (b := pow2 (-52)) in *. clearbody b. clear - MP P52. qnra.
  - intros x X1 X2. destruct (dbl_error x) as (A1 & A2). assert (AB : qabs x <= M) by (unfold qabs; destruct (qleb_spec 0 x); qlra).
    assert (pow2 (-53) * qabs x <= pow2 (-52) * M). { rewrite E, Z2. set (b := pow2 (-53)) in *. set (y := qabs x) in *. clearbody b y. clear - AB P53 MP. qnra. } split; qlra.
  - set (t := pow2 (-52) * M) in *. clearbody t. pose proof (zn_nonneg n) as N0. set (z := zq (Z.of_nat n)) in *. clearbody z. rewrite Z2 in *. assert (T : (1 + 1) * t <= 1) by (set (u := qq 1 4) in *; clearbody u; qlra).
    set (u := (1 + 1) * t) in *. assert (z * (mx + u) <= z * (mx + 1)) by (clear - N0 T; clearbody u; qnra). assert (t <= 1) by (set (v := qq 1 4) in *; assert (v <= 1) by (vm_compute; congruence); clearbody v; qlra). qlra.
Qed.
Print Assumptions random_min_max_double.
Module RoundEx.
(** the draw 0.5 of the generator *)
Definition R : rng := mkRng (fun _ l => l) (fun _ lo hi => dbl (dbl lo + dbl (dbl (dbl hi - dbl lo) * qq 1 2))) (fun _ lo _ => lo).
Example double_ex : match random_min_max dbl R 3 (zq 3) (zq 5) (qq 101 10) 0 with
  | Ok (l, _) => List.length l = 3%nat /\ forallb (fun s => qleb (zq 3) (snd s - fst s) && qleb (snd s - fst s) (zq 5)) l = true /\ snd (last l (0, 0)) <> qq 101 10
  | _ => False end.
Proof. vm_compute. repeat split. intros E. apply (f_equal this) in E. vm_compute in E. discriminate E. Qed.
Example feasible_fails : random_min_max dbl R 3 (qq 16 5) (zq 5) (qq 48 5) 0 = Err AssertionError.
Proof. vm_compute. reflexivity. Qed.
End RoundEx.

(** ** Rounding makes a feasible division fail.
    Three fingers of 3.2 fill a range of 9.6, and no other number is allowed when the material at
    both ends is on the same side.  Whatever the seed, the run stops with an AssertionError. *)
Definition len96 : Qc := qq 48 5.
Definition w32 : Qc := qq 16 5.
Theorem rounding_stops_run_refuted : forall R on start k,
  (forall k l, Permutation l (r_shuffle R k l)) -> (forall k x, r_uniform R k x x = dbl x) ->
  (forall k lo hi, (lo < hi)%Z -> (lo <= r_randint R k lo hi < hi)%Z) ->
  (w32 * zq 3 <= len96 /\ len96 <= zq 5 * zq 3) /\
  random_min_max dbl R 3 w32 (zq 5) len96 k = Err AssertionError /\
  plan_fingers dbl R w32 (zq 5) on on start (start + len96) k = Err AssertionError.
Proof.
  intros R on start k SH UN RI.
  assert (RM : forall k, random_min_max dbl R 3 w32 (zq 5) len96 k = Err AssertionError).
  { clear k. intros k. unfold random_min_max.
    assert (B : qleb (w32 * zq (Z.of_nat 3)) len96 && qleb len96 (zq 5 * zq (Z.of_nat 3)) = true) by (vm_compute; reflexivity). rewrite B. cbn [passert bind].
    pose proof (Permutation_length (SH k (seq 0 3))) as PL. destruct (r_shuffle R k (seq 0 3)) as [|a [|b r]]; [discriminate PL|discriminate PL|]. clear PL.
    cbn [draw_loop]. cbn zeta.
    set (lo := qmax (fval (fsub dbl (fsub dbl (FX len96) (FX 0)) (FX (zq (Z.of_nat 3 - Z.of_nat 0 - 1) * zq 5)))) w32).
    set (hi := qmin (fval (fsub dbl (fsub dbl (FX len96) (FX 0)) (FX (zq (Z.of_nat 3 - Z.of_nat 0 - 1) * w32)))) (zq 5)).
    assert (EL : lo = w32) by (apply Qc_is_canon; vm_compute; reflexivity). assert (EH : hi = w32) by (apply Qc_is_canon; vm_compute; reflexivity).
    rewrite EL, EH. replace (qleb w32 w32) with true by (vm_compute; reflexivity). cbn [passert bind]. rewrite UN.
    set (c := qleb _ _). assert (C : c = false) by (vm_compute; reflexivity). rewrite C. reflexivity. }
  split; [split; vm_compute; congruence|]. split; [apply RM|].
  unfold plan_fingers. rewrite Bool.xorb_nilpotent. replace (start + len96 - start) with len96 by ring.
  replace (count_range false len96 w32 (zq 5)) with (@Ok (Z * Z) (3, 3)%Z) by (vm_compute; reflexivity). cbn [bind].
  change (3 <? 3)%Z with false. cbn iota. change (raise_min 3 3) with 3%Z. change (3 + 1)%Z with 4%Z.
  assert (N : r_randint R k 3 4 = 3%Z). { pose proof (RI k 3%Z 4%Z ltac:(lia)). lia. } rewrite N. change (Z.to_nat 3) with 3%nat. rewrite RM. reflexivity.
Qed.
Print Assumptions rounding_stops_run_refuted.
