(** * random_min_max with rounded arithmetic *)
From Verif.Spec Require Import Tiling.
From Verif.Model Require Import Heuristics.
From Verif.Proofs Require Import PyP FingerP HeuristicsP.
From Coq Require Import String Permutation.
Open Scope Qc_scope.

Lemma zn_nonneg n : 0 <= zq (Z.of_nat n).
Proof. apply (zq_le 0). lia. Qed.
Lemma zn_mul n x : 0 <= x -> 0 <= zq (Z.of_nat n) * x.
Proof. intros. pose proof (zn_nonneg n). set (z := zq (Z.of_nat n)) in *. clearbody z. qnra. Qed.

Section Round.
Variables (fl : Qc -> Qc) (R : rng) (d M : Qc).
Hypothesis D0 : 0 <= d.
Hypothesis FL : forall x, - M <= x -> x <= M -> x - d <= fl x /\ fl x <= x + d.
Hypothesis UN : forall k lo hi, - M <= lo -> lo <= hi -> hi <= M -> lo - d <= r_uniform R k lo hi /\ r_uniform R k lo hi <= hi + d.
Notation zn n := (zq (Z.of_nat n)).
Lemma fadd_near a b : - M <= fval a + fval b -> fval a + fval b <= M -> fval a + fval b - d <= fval (fadd fl a b) /\ fval (fadd fl a b) <= fval a + fval b + d.
Proof. intros H1 H2. destruct (FL _ H1 H2). destruct a, b; cbn [fadd fval] in *; split; qlra. Qed.
Lemma fsub_near a b : - M <= fval a - fval b -> fval a - fval b <= M -> fval a - fval b - d <= fval (fsub fl a b) /\ fval (fsub fl a b) <= fval a - fval b + d.
Proof. intros H1 H2. destruct (FL _ H1 H2). destruct a, b; cbn [fsub fval] in *; split; qlra. Qed.
Lemma draw_near n mn mx total : 0 <= mn -> mn <= mx -> 0 <= total -> total <= mx * zn n -> zn n * (mx + (1 + 1) * d) + d <= M ->
  forall order lengths running h k lengths' k',
  NoDup order -> (forall i, In i order -> (i < n)%nat /\ nth i lengths 0 = 0) -> List.length lengths = n -> (h + List.length order = n)%nat ->
  qadds lengths - zn h * d <= fval running -> fval running <= qadds lengths + zn h * d ->
  - (zn h * d) <= qadds lengths -> qadds lengths <= zn h * (mx + d) ->
  draw_loop fl R n mn mx total order lengths running h k = Ok (lengths', k') ->
  List.length lengths' = n /\
  (forall i, In i order -> mn - d <= nth i lengths' 0 /\ nth i lengths' 0 <= mx + d) /\ (forall i, ~ In i order -> nth i lengths' 0 = nth i lengths 0) /\
  - (zn n * d) <= qadds lengths' /\ qadds lengths' <= zn n * (mx + d) /\
  (order <> [] -> total - zn n * d - (1 + 1) * d <= qadds lengths' /\ qadds lengths' <= total + zn n * d + (1 + 1) * d).
Proof.
  intros M0 MM T0 T1 BM. induction order as [|i order IH]; intros lengths running h k lengths' k' ND B L HN R1 R2 S1 S2 H.
  - cbn [draw_loop] in H. apply Ok_inv in H. apply pair_inv in H as (<- & <-). cbn [List.length] in HN. assert (h = n) as -> by lia. repeat split; auto; now intros [].
  - cbn [draw_loop] in H. cbn zeta in H. apply NoDup_cons_iff in ND as (NI & ND').
    destruct (B i (or_introl eq_refl)) as (Bi & Zi). cbn [List.length] in HN.
    apply bind_ok in H as (u & HP & H). apply passert_ok in HP.
    set (left := fsub fl (FX total) running) in *. set (rest := (Z.of_nat n - Z.of_nat h - 1)%Z) in *.
    set (lo := qmax (fval (fsub fl left (FX (zq rest * mx)))) mn) in *. set (hi := qmin (fval (fsub fl left (FX (zq rest * mn)))) mx) in *.
    assert (HL : lo <= hi). { now destruct (qleb_spec lo hi). } clear HP.
    assert (Nn : zn n = zn h + 1 + zn (List.length order)). { rewrite <- HN. rewrite Nat2Z.inj_add, zq_add, zq_nat_S. qlra. }
    pose proof (zn_nonneg h) as Z1. pose proof (zn_nonneg (List.length order)) as Z2.
    pose proof (zn_mul h d D0) as Z3. pose proof (zn_mul (List.length order) d D0) as Z4. pose proof (zn_mul h mx ltac:(qlra)) as Z5. pose proof (zn_mul (List.length order) mx ltac:(qlra)) as Z6.
    rewrite Nn in BM, T1.
    assert (LO : mn <= lo) by apply qmax_r. assert (HI : hi <= mx) by apply qmin_r.
    set (a := zn h) in *. set (w := zn (List.length order)) in *. set (ad := a * d) in *. set (wd := w * d) in *. set (am := a * mx) in *. set (wm := w * mx) in *.
    assert (BM' : am + wm + mx + (1 + 1) * ad + (1 + 1) * wd + (1 + 1) * d + d <= M). { replace (am + wm + mx + (1 + 1) * ad + (1 + 1) * wd + (1 + 1) * d + d) with ((a + 1 + w) * (mx + (1 + 1) * d) + d) by (unfold am, wm, ad, wd; ring). exact BM. }
    assert (T1' : total <= am + wm + mx). { replace (am + wm + mx) with (mx * (a + 1 + w)) by (unfold am, wm; ring). exact T1. }
    assert (S2' : qadds lengths <= am + ad). { replace (am + ad) with (a * (mx + d)) by (unfold am, ad; ring). exact S2. }
    destruct (UN k lo hi) as (U1 & U2); [qlra|auto|qlra|]. set (cur := r_uniform R k lo hi) in *.
    destruct (fadd_near running (FF cur)) as (A1 & A2); [cbn [fval]; qlra|cbn [fval]; qlra|]. cbn [fval] in A1, A2.
    assert (SN : qadds (set_nth i cur lengths) = qadds lengths + cur). { rewrite qadds_set_nth by lia. rewrite Zi. qlra. }
    assert (ZS : zn (S h) = 1 + a) by apply zq_nat_S.
    assert (Ead : (1 + a) * d = d + ad) by (unfold ad; ring). assert (Eam : (1 + a) * (mx + d) = mx + d + am + ad) by (unfold am, ad; ring).
    edestruct (IH (set_nth i cur lengths)) as (I1 & I2 & I3 & I4 & I5 & I6); [exact ND'| | | | | | | |exact H|].
    + intros j Hj. destruct (B j (or_intror Hj)) as (Bj & Zj). split; auto. rewrite nth_set_nth by lia. destruct (Nat.eqb_spec j i) as [->|]; auto. contradiction.
    + now rewrite set_nth_length.
    + lia.
    + rewrite SN, ZS, Ead. qlra.
    + rewrite SN, ZS, Ead. qlra.
    + rewrite SN, ZS, Ead. qlra.
    + rewrite SN, ZS, Eam. qlra.
    + split; auto. split; [|split; [|split; [exact I4|split; [exact I5|]]]].
      * intros j [<-|Hj]; auto. rewrite I3 by auto. rewrite nth_set_nth by lia. rewrite Nat.eqb_refl. split; qlra.
      * intros j Hj. rewrite I3 by (intros K; apply Hj; right; auto). rewrite nth_set_nth by lia. destruct (Nat.eqb_spec j i) as [->|]; auto. exfalso. apply Hj. now left.
      * intros _. destruct order as [|j order]; [|apply I6; discriminate].
        assert (RZ : zq rest = 0). { unfold rest. replace (Z.of_nat n - Z.of_nat h - 1)%Z with 0%Z by (cbn [List.length] in HN; lia). apply Qc_is_canon. reflexivity. }
        cbn [draw_loop] in H. apply Ok_inv in H. apply pair_inv in H as (<- & <-). rewrite SN.
        assert (W0 : w = 0). { unfold w. cbn [List.length]. apply Qc_is_canon. reflexivity. }
        assert (wd = 0) by (unfold wd; rewrite W0; ring). assert (wm = 0) by (unfold wm; rewrite W0; ring).
        destruct (fsub_near (FX total) running) as (L1 & L2); [cbn [fval]; qlra|cbn [fval]; qlra|]. fold left in L1, L2. cbn [fval] in L1, L2.
        assert (E : forall m, zq rest * m = 0) by (intros; rewrite RZ; ring).
        assert (EM : lo = qmax (fval (fsub fl left (FX 0))) mn /\ hi = qmin (fval (fsub fl left (FX 0))) mx) by (unfold lo, hi; now rewrite !E).
        destruct EM as (EL & EH). pose proof (qmax_l (fval (fsub fl left (FX 0))) mn) as Q1. rewrite <- EL in Q1. pose proof (qmin_l (fval (fsub fl left (FX 0))) mx) as Q2. rewrite <- EH in Q2.
        destruct (fsub_near left (FX 0)) as (L3 & L4); [cbn [fval]; qlra|cbn [fval]; qlra|]. cbn [fval] in L3, L4.
        rewrite Nn, W0. replace ((a + 1 + 0) * d) with (ad + d) by (unfold ad; ring). split; qlra.
Qed.

Lemma spans_near mx mn lengths : forall cur l c B, - B <= fval cur -> fval cur <= B -> 0 <= mx -> 0 <= mn -> mn <= mx ->
  (forall x, In x lengths -> mn - d <= x /\ x <= mx + d) -> B + zn (List.length lengths) * (mx + (1 + 1) * d) <= M ->
  spans_loop fl lengths cur = (l, c) ->
  fval cur + qadds lengths - zn (List.length lengths) * d <= fval c /\ fval c <= fval cur + qadds lengths + zn (List.length lengths) * d /\
  (forall s, In s l -> mn - (1 + 1) * d <= snd s - fst s /\ snd s - fst s <= mx + (1 + 1) * d).
Proof.
  induction lengths as [|x r IH]; intros cur l c B C1 C2 X0 N0 NX HX BM H; cbn [spans_loop] in H.
  - apply pair_inv in H as (<- & <-). cbn [qadds List.length]. assert (Z : zn 0 = 0) by (apply Qc_is_canon; reflexivity). rewrite Z. split; [qlra|]. split; [qlra|]. intros s [].
  - destruct (spans_loop fl r _) as [l' c'] eqn:E. apply pair_inv in H as (<- & <-). cbn [List.length] in *. rewrite zq_nat_S in *.
    destruct (HX x (or_introl eq_refl)) as (X1 & X2). pose proof (zn_mul (List.length r) (mx + (1 + 1) * d) ltac:(qlra)) as Z.
    set (w := zn (List.length r)) in *. replace (B + (1 + w) * (mx + (1 + 1) * d)) with (B + (mx + (1 + 1) * d) + w * (mx + (1 + 1) * d)) in BM by ring.
    set (wm := w * (mx + (1 + 1) * d)) in *.
    destruct (fadd_near cur (FF x)) as (A1 & A2); [cbn [fval]; qlra|cbn [fval]; qlra|]. cbn [fval] in A1, A2.
    destruct (IH (fadd fl cur (FF x)) l' c' (B + (mx + (1 + 1) * d)) ltac:(qlra) ltac:(qlra) X0 N0 NX (fun y Hy => HX y (or_intror Hy)) ltac:(exact BM) E) as (I1 & I2 & I3).
    fold w in I1, I2. cbn [qadds]. replace ((1 + w) * d) with (d + w * d) by ring. set (wd := w * d) in *. split; [qlra|]. split; [qlra|].
    intros s [<-|Hs]; auto. cbn [fst snd]. split; qlra.
Qed.

Lemma random_core n mn mx total k ls k1 l' c : (forall k l, Permutation l (r_shuffle R k l)) -> 0 <= mn -> mn <= mx -> zn n * (mx + (1 + 1) * d) + d <= M ->
  mn * zn n <= total -> total <= mx * zn n ->
  draw_loop fl R n mn mx total (r_shuffle R k (seq 0 n)) (repeat 0 n) (FX 0) 0 (S k) = Ok (ls, k1) -> spans_loop fl ls (FX 0) = (l', c) ->
  List.length l' = n /\ chain 0 l' (fval c) /\ total - ((1 + 1) * zn n + (1 + 1)) * d <= fval c /\ fval c <= total + ((1 + 1) * zn n + (1 + 1)) * d /\
  forall s, In s l' -> mn - (1 + 1) * d <= snd s - fst s /\ snd s - fst s <= mx + (1 + 1) * d.
Proof.
  intros SH M0 MM BM T0' T1' HD ES. pose proof (zn_mul n mn M0) as Z0.
  pose proof (SH k (seq 0 n)) as P. set (order := r_shuffle R k (seq 0 n)) in *. pose proof (Permutation_length P) as PL. rewrite seq_length in PL.
  assert (Z : zn 0 = 0) by (apply Qc_is_canon; reflexivity).
  destruct (draw_near n mn mx total M0 MM ltac:(qlra) T1' BM order (repeat 0 n) (FX 0) 0 (S k) ls k1) as (L1 & L2 & _ & L4 & L5 & L6); [ | | | | | | | |exact HD|].
  - eapply Permutation_NoDup; [exact P|]. apply seq_NoDup.
  - intros i Hi. apply (Permutation_in _ (Permutation_sym P)) in Hi. apply in_seq in Hi. split; [lia|]. clear. revert n. induction i as [|i IH]; intros [|n]; cbn; auto.
  - apply repeat_length.
  - lia.
  - rewrite qadds_zeros, Z. cbn [fval]. qlra.
  - rewrite qadds_zeros, Z. cbn [fval]. qlra.
  - rewrite qadds_zeros, Z. qlra.
  - rewrite qadds_zeros, Z. qlra.
  - destruct (spans_chain _ _ _ _ _ ES) as (C1 & C2). cbn [fval] in C1.
    destruct (spans_near mx mn ls (FX 0) l' c 0) as (N1 & N2 & N3); auto; try (cbn [fval]; qlra).
    + intros x Hx. apply (In_nth _ _ 0) in Hx as (i & Hi & <-). apply L2. apply (Permutation_in _ P), in_seq. lia.
    + rewrite L1. qlra.
    + cbn [fval] in N1, N2. rewrite L1 in N1, N2. split; [congruence|]. split; [exact C1|].
      assert (X : total - (zn n * d + (1 + 1) * d) <= qadds ls /\ qadds ls <= total + (zn n * d + (1 + 1) * d)).
      { destruct order as [|o order2] eqn:EO.
        - cbn in PL. subst n. assert (ls = []) by (now destruct ls). subst ls. cbn [qadds]. rewrite Z in *. split; qlra.
        - destruct L6 as (X1 & X2); [discriminate|]. split; qlra. }
      replace (((1 + 1) * zn n + (1 + 1)) * d) with ((1 + 1) * (zn n * d) + (1 + 1) * d) by ring. set (nd := zn n * d) in *. destruct X. repeat split; [qlra|qlra|apply N3; auto..].
Qed.
Lemma random_near n mn mx total k l k' : (forall k l, Permutation l (r_shuffle R k l)) -> 0 <= mn -> mn <= mx -> zn n * (mx + (1 + 1) * d) + d <= M ->
  random_min_max fl R n mn mx total k = Ok (l, k') ->
  List.length l = n /\ exists e, chain 0 l e /\ total - ((1 + 1) * zn n + (1 + 1)) * d <= e /\ e <= total + ((1 + 1) * zn n + (1 + 1)) * d /\
  forall s, In s l -> mn - (1 + 1) * d <= snd s - fst s /\ snd s - fst s <= mx + (1 + 1) * d.
Proof.
  intros SH M0 MM BM H. unfold random_min_max in H. apply bind_ok in H as (u & HP & H). apply passert_ok in HP. apply andb_prop in HP as (T0 & T1).
  destruct (qleb_spec (mn * zn n) total) as [T0'|]; [|discriminate T0]. destruct (qleb_spec total (mx * zn n)) as [T1'|]; [|discriminate T1]. clear T0 T1.
  apply bind_ok in H as ((ls & k1) & HD & H). destruct (spans_loop fl ls (FX 0)) as [l' c] eqn:ES. apply bind_ok in H as (u' & _ & H). apply Ok_inv in H. apply pair_inv in H as (<- & <-).
  destruct (random_core _ _ _ _ _ _ _ _ _ SH M0 MM BM T0' T1' HD ES) as (H1 & H2). split; auto. now exists (fval c).
Qed.
(** the only assertion that can fail is the one in the loop (419) *)
Lemma random_done n mn mx total k ls k1 : (forall k l, Permutation l (r_shuffle R k l)) -> 0 <= mn -> mn <= mx -> zn n * (mx + (1 + 1) * d) + d <= M ->
  mn * zn n <= total -> total <= mx * zn n -> ((1 + 1) * zn n + (1 + 1) + 1) * d < e8 -> e8 <= M ->
  draw_loop fl R n mn mx total (r_shuffle R k (seq 0 n)) (repeat 0 n) (FX 0) 0 (S k) = Ok (ls, k1) ->
  exists l, random_min_max fl R n mn mx total k = Ok (l, k1).
Proof.
  intros SH M0 MM BM T0 T1 SM EM HD. unfold random_min_max.
  destruct (qleb_spec (mn * zn n) total) as [_|NL]; [|exfalso; qlra]. destruct (qleb_spec total (mx * zn n)) as [_|NL]; [|exfalso; qlra]. cbn [andb passert bind].
  rewrite HD. cbn [bind]. destruct (spans_loop fl ls (FX 0)) as [l c] eqn:ES. destruct (random_core _ _ _ _ _ _ _ _ _ SH M0 MM BM T0 T1 HD ES) as (_ & _ & E1 & E2 & _).
  set (t := ((1 + 1) * zn n + (1 + 1)) * d) in *. replace (((1 + 1) * zn n + (1 + 1) + 1) * d) with (t + d) in SM by (unfold t; ring).
  assert (F : fval (fsub fl c (FX total)) < e8). { destruct (fsub_near c (FX total)) as (A1 & A2); cbn [fval] in *; qlra. }
  destruct (qltb_spec (fval (fsub fl c (FX total))) e8) as [_|NL]; [|exfalso; qlra]. cbn [passert bind]. eauto.
Qed.
End Round.
