(** * Proofs about the model of heuristics.py *)
From Verif.Spec Require Import Plane Region PointSet1 Fingers Tiling.
From Verif.Model Require Import Heuristics.
From Verif.Proofs Require Import PyP ExtOrd DictP Geom1dP Geom1dM Geom2dP SheetplexP FingerP SheetbuildP.
From Verif.Props Require Import Geom1dProps SheetplexProps.
From Coq Require Import String Permutation.
Open Scope Qc_scope.

(** ** random_min_max *)
(** what numpy promises about the generator *)
Definition rng_ok (R : rng) : Prop :=
  (forall k l, Permutation l (r_shuffle R k l)) /\ (forall k lo hi, lo <= hi -> lo <= r_uniform R k lo hi <= hi) /\
  (forall k lo hi, (lo < hi)%Z -> (lo <= r_randint R k lo hi < hi)%Z).

Lemma zq_add a b : zq (a + b) = zq a + zq b.
Proof. apply Qc_is_canon. unfold zq, Qcplus. cbn [this Q2Qc]. rewrite !Qred_correct, inject_Z_plus. reflexivity. Qed.
Lemma zq_mul a b : zq (a * b) = zq a * zq b.
Proof. apply Qc_is_canon. unfold zq, Qcmult. cbn [this Q2Qc]. rewrite !Qred_correct, inject_Z_mult. reflexivity. Qed.
Lemma zq_opp a : zq (- a) = - zq a.
Proof. apply Qc_is_canon. unfold zq, Qcopp. cbn [this Q2Qc]. rewrite !Qred_correct, inject_Z_opp. reflexivity. Qed.
Lemma zq_le a b : (a <= b)%Z -> zq a <= zq b.
Proof. intros H. unfold Qcle, zq. cbn [this Q2Qc]. rewrite !Qred_correct. now rewrite <- Zle_Qle. Qed.
Lemma zq_lt a b : (a < b)%Z -> zq a < zq b.
Proof. intros H. unfold Qclt, zq. cbn [this Q2Qc]. rewrite !Qred_correct. now rewrite <- Zlt_Qlt. Qed.
Lemma zq_lt_inv a b : zq a < zq b -> (a < b)%Z.
Proof. unfold Qclt, zq. cbn [this Q2Qc]. rewrite !Qred_correct. now rewrite <- Zlt_Qlt. Qed.
Lemma zq_nat_S n : zq (Z.of_nat (S n)) = 1 + zq (Z.of_nat n).
Proof. rewrite Nat2Z.inj_succ, <- Z.add_1_l, zq_add. f_equal. Qed.

Lemma qmax_lub a b c : a <= c -> b <= c -> qmax a b <= c.
Proof. unfold qmax. now destruct (qleb a b). Qed.
Lemma qmin_glb a b c : c <= a -> c <= b -> c <= qmin a b.
Proof. unfold qmin. now destruct (qleb a b). Qed.
Lemma qmax_l a b : a <= qmax a b.
Proof. unfold qmax. destruct (qleb_spec a b); qlra. Qed.
Lemma qmax_r a b : b <= qmax a b.
Proof. unfold qmax. destruct (qleb_spec a b); qlra. Qed.
Lemma qmin_l a b : qmin a b <= a.
Proof. unfold qmin. destruct (qleb_spec a b); qlra. Qed.
Lemma qmin_r a b : qmin a b <= b.
Proof. unfold qmin. destruct (qleb_spec a b); qlra. Qed.

Lemma set_nth_length {X} i (x : X) l : List.length (set_nth i x l) = List.length l.
Proof. revert i. induction l as [|y l IH]; intros [|i]; cbn; auto. Qed.
Lemma nth_set_nth {X} i j (x d : X) l : (i < List.length l)%nat -> nth j (set_nth i x l) d = if Nat.eqb j i then x else nth j l d.
Proof.
  revert i j. induction l as [|y l IH]; intros [|i] [|j] H; cbn in *; try lia; auto.
  rewrite IH by lia. reflexivity.
Qed.
Fixpoint qadds (l : list Qc) : Qc := match l with [] => 0 | x :: r => x + qadds r end.
Lemma qadds_set_nth i x l : (i < List.length l)%nat -> qadds (set_nth i x l) = qadds l + x - nth i l 0.
Proof.
  revert i. induction l as [|y l IH]; intros [|i] H; cbn [set_nth qadds nth List.length] in *; try lia; [qlra|]. rewrite IH by lia. qlra.
Qed.
Lemma qadds_zeros n : qadds (repeat 0 n) = 0.
Proof. induction n as [|n IH]; cbn [repeat qadds]; [reflexivity|]. rewrite IH. qlra. Qed.

Definition idq (q : Qc) : Qc := q.
Lemma fval_fsub a b : fval (fsub idq a b) = fval a - fval b.
Proof. destruct a, b; reflexivity. Qed.
Lemma fval_fadd a b : fval (fadd idq a b) = fval a + fval b.
Proof. destruct a, b; reflexivity. Qed.

Lemma draw_ok R n mn mx total : rng_ok R -> mn <= mx -> forall order lengths running h k,
  NoDup order -> (forall i, In i order -> (i < n)%nat /\ nth i lengths 0 = 0) -> List.length lengths = n -> (h + List.length order = n)%nat ->
  zq (Z.of_nat (List.length order)) * mn <= total - fval running <= zq (Z.of_nat (List.length order)) * mx ->
  exists lengths' k', draw_loop idq R n mn mx total order lengths running h k = Ok (lengths', k') /\ List.length lengths' = n /\
    (forall i, In i order -> mn <= nth i lengths' 0 <= mx) /\ (forall i, ~ In i order -> nth i lengths' 0 = nth i lengths 0) /\
    qadds lengths' = qadds lengths + (total - fval running).
Proof.
  intros RO M. induction order as [|i order IH]; intros lengths running h k ND B L HN HB.
  - exists lengths, k. change (zq (Z.of_nat (List.length (@nil nat)))) with (zq 0) in HB. assert (Z0 : zq 0 = 0) by (apply Qc_is_canon; reflexivity). rewrite Z0 in HB. destruct HB. split; [reflexivity|]. split; [auto|]. split; [intros i []|]. split; [auto|]. qlra.
  - cbn [draw_loop]. rewrite !fval_fsub. cbn [fval]. inversion ND as [|? ? NI ND']; subst.
    destruct (B i (or_introl eq_refl)) as (Bi & Zi). cbn [List.length] in HN, HB. rewrite zq_nat_S in HB.
    replace (Z.of_nat (List.length lengths) - Z.of_nat h - 1)%Z with (Z.of_nat (List.length order)) by lia.
    set (w := zq (Z.of_nat (List.length order))) in *. set (left := total - fval running) in *.
    assert (W : 0 <= w) by (apply (zq_le 0); lia).
    assert (LE : qmax (left - w * mx) mn <= qmin (left - w * mn) mx).
    { destruct HB as (HB1 & HB2). assert (w * mn <= w * mx) by (clear - W M; qnra). apply qmax_lub; apply qmin_glb; qlra. }
    destruct (qleb_spec (qmax (left - w * mx) mn) (qmin (left - w * mn) mx)) as [_|NL]; [|exfalso; clear - LE NL; qlra].
    cbn [passert bind]. destruct RO as (R1 & R2 & R3). specialize (R2 k _ _ LE). set (cur := r_uniform R k _ _) in *.
    assert (C : mn <= cur <= mx /\ left - w * mx <= cur <= left - w * mn).
    { pose proof (qmax_l (left - w * mx) mn). pose proof (qmax_r (left - w * mx) mn). pose proof (qmin_l (left - w * mn) mx). pose proof (qmin_r (left - w * mn) mx). destruct R2. repeat split; qlra. }
    destruct (IH (set_nth i cur lengths) (fadd idq running (FF cur)) (S h) (S k)) as (l' & k' & E1 & E2 & E3 & E4 & E5); auto.
    + intros j Hj. destruct (B j (or_intror Hj)) as (Bj & Zj). split; auto. rewrite nth_set_nth by auto. destruct (Nat.eqb_spec j i) as [->|]; auto. contradiction.
    + now rewrite set_nth_length.
    + lia.
    + rewrite fval_fadd. cbn [fval]. fold w. unfold left in C. destruct C as (C1 & C2 & C3). split; qlra.
    + exists l', k'. split; [exact E1|]. split; auto. split; [|split].
      * intros j [<-|Hj]; auto. rewrite E4 by auto. rewrite nth_set_nth by auto. rewrite Nat.eqb_refl. tauto.
      * intros j Hj. rewrite E4 by (intros K; apply Hj; right; auto). rewrite nth_set_nth by auto. destruct (Nat.eqb_spec j i) as [->|]; auto. exfalso. apply Hj. now left.
      * rewrite E5, qadds_set_nth by auto. rewrite Zi, fval_fadd. cbn [fval]. unfold left. qlra.
Qed.

(** the spans are consecutive whatever the rounding *)
Lemma spans_chain fl lengths : forall cur l c, spans_loop fl lengths cur = (l, c) -> chain (fval cur) l (fval c) /\ List.length l = List.length lengths.
Proof.
  induction lengths as [|x r IH]; intros cur l c H; cbn [spans_loop] in H; [apply pair_inv in H as (<- & <-); split; reflexivity|].
  destruct (spans_loop fl r _) as [l' c'] eqn:E. apply pair_inv in H as (<- & <-). destruct (IH _ _ _ E) as (H1 & H2). cbn. auto.
Qed.
Lemma spans_exact lengths : forall cur l c, spans_loop idq lengths cur = (l, c) -> fval c = fval cur + qadds lengths /\
  map (fun s => snd s - fst s) l = lengths.
Proof.
  induction lengths as [|x r IH]; intros cur l c H; cbn [spans_loop] in H; [apply pair_inv in H as (<- & <-); cbn [qadds map]; split; [qlra|auto]|].
  destruct (spans_loop idq r _) as [l' c'] eqn:E. apply pair_inv in H as (<- & <-). destruct (IH _ _ _ E) as (H1 & H2). rewrite fval_fadd in H1. cbn [fval] in H1.
  cbn [map qadds fst snd]. rewrite H2, fval_fadd. cbn [fval]. split; [rewrite H1; qlra|]. f_equal. qlra.
Qed.

Lemma random_exact R n mn mx total k : rng_ok R -> mn <= mx -> mn * zq (Z.of_nat n) <= total <= mx * zq (Z.of_nat n) ->
  exists l k', random_min_max idq R n mn mx total k = Ok (l, k') /\ List.length l = n /\ chain 0 l total /\
    forall s, In s l -> mn <= snd s - fst s <= mx.
Proof.
  intros RO M (B1 & B2). unfold random_min_max.
  destruct (qleb_spec (mn * zq (Z.of_nat n)) total) as [_|NL]; [|exfalso; qlra]. destruct (qleb_spec total (mx * zq (Z.of_nat n))) as [_|NL]; [|exfalso; qlra]. cbn [andb passert bind].
  pose proof (proj1 RO k (seq 0 n)) as P. set (order := r_shuffle R k (seq 0 n)) in *. pose proof (Permutation_length P) as PL. rewrite seq_length in PL.
  destruct (draw_ok R n mn mx total RO M order (repeat 0 n) (FX 0) 0 (S k)) as (ls & k' & E & L1 & L2 & L3 & L4).
  - eapply Permutation_NoDup; [exact P|]. apply seq_NoDup.
  - intros i Hi. apply (Permutation_in _ (Permutation_sym P)) in Hi. apply in_seq in Hi. split; [lia|]. clear. revert n. induction i as [|i IH]; intros [|n]; cbn; auto.
  - apply repeat_length.
  - lia.
  - rewrite <- PL. cbn [fval]. split; qlra.
  - rewrite E. cbn [bind]. destruct (spans_loop idq ls (FX 0)) as [l c] eqn:S. destruct (spans_chain _ _ _ _ _ S) as (C1 & C2). destruct (spans_exact _ _ _ _ S) as (X1 & X2).
    cbn [fval] in *. rewrite L4, qadds_zeros in X1. assert (Ec : fval c = total) by (rewrite X1; qlra). rewrite Ec in C1.
    rewrite fval_fsub. cbn [fval]. rewrite Ec. destruct (qltb_spec (total - total) e8) as [_|NL]; [|exfalso; revert NL; replace (total - total) with 0 by qlra; vm_compute; congruence].
    cbn [passert bind]. exists l, k'. repeat split; auto; [congruence| |]; intros; (assert (I : In (snd s - fst s) ls) by (rewrite <- X2; now apply (in_map (fun s => snd s - fst s))));
      apply (In_nth _ _ 0) in I as (i & Hi & <-); apply L2; apply (Permutation_in _ P), in_seq; lia.
Qed.
Lemma random_any fl R n mn mx total k l k' : random_min_max fl R n mn mx total k = Ok (l, k') -> exists e, chain 0 l e.
Proof.
  unfold random_min_max. intros H. apply bind_ok in H as (u & _ & H). apply bind_ok in H as ((ls & k1) & _ & H).
  destruct (spans_loop fl ls (FX 0)) as [l' c] eqn:S. apply bind_ok in H as (u' & _ & H). apply Ok_inv in H. apply pair_inv in H as (<- & <-).
  destruct (spans_chain _ _ _ _ _ S) as (C1 & _). now exists (fval c).
Qed.

(** ** Finger counts *)
Lemma np_floor_spec q : zq (np_floor q) <= q /\ q < zq (np_floor q + 1).
Proof.
  destruct q as [[n d] c]. unfold np_floor, Qcle, Qclt, zq. cbn [this Q2Qc Qnum Qden]. rewrite !Qred_correct. unfold Qle, Qlt, inject_Z. cbn [Qnum Qden].
  pose proof (Z.div_mod n (Zpos d) ltac:(discriminate)) as D. pose proof (Z.mod_pos_bound n (Zpos d) ltac:(reflexivity)) as B. set (k := (n / Zpos d)%Z) in *. clearbody k. split; nia.
Qed.
Lemma np_ceil_spec q : q <= zq (np_ceil q) /\ zq (np_ceil q - 1) < q.
Proof.
  unfold np_ceil. destruct (np_floor_spec (- q)) as (H1 & H2). rewrite zq_opp. split; [qlra|].
  replace (- np_floor (- q) - 1)%Z with (- (np_floor (- q) + 1))%Z by lia. rewrite zq_opp. qlra.
Qed.
Lemma count_range_ok odd len mn mx : 0 < len -> 0 < mn -> 0 < mx -> exists a b, count_range odd len mn mx = Ok (a, b) /\
  (1 <= a)%Z /\ len <= mx * zq a /\ mn * zq b <= len /\ Z.odd a = negb odd /\ Z.odd b = negb odd.
Proof.
  intros HL Hmn Hmx. unfold count_range, qdivr. destruct (qeqb_spec mx 0) as [->|N1]; [exfalso; qlra|]. destruct (qeqb_spec mn 0) as [->|N2]; [exfalso; qlra|]. cbn [bind].
  pose proof (qdiv_mul len mx N1) as D1. pose proof (qdiv_mul len mn N2) as D2.
  destruct (np_ceil_spec (len / mx)) as (C1 & C2). destruct (np_floor_spec (len / mn)) as (F1 & F2). set (a := np_ceil (len / mx)) in *. set (b := np_floor (len / mn)) in *.
  assert (A1 : (1 <= a)%Z). { assert (0 < zq a) by (set (y := len / mx) in *; clearbody y; assert (0 < y) by qnra; qlra). apply (zq_lt_inv 0) in H. lia. }
  assert (A2 : len <= mx * zq a) by (set (y := len / mx) in *; clearbody y; qnra).
  assert (B2 : mn * zq b <= len) by (set (y := len / mn) in *; clearbody y; qnra).
  pose proof (Z.mod_pos_bound a 2 ltac:(lia)) as Ma. pose proof (Z.mod_pos_bound b 2 ltac:(lia)) as Mb.
  pose proof (Zmod_odd a) as Oa. pose proof (Zmod_odd b) as Ob.
  assert (LA : forall a', (a <= a')%Z -> len <= mx * zq a'). { intros a' H. apply zq_le in H. clear - H A2 Hmx. qnra. }
  assert (LB : forall b', (b' <= b)%Z -> mn * zq b' <= len). { intros b' H. apply zq_le in H. clear - H B2 Hmn. qnra. }
  destruct odd; eexists _, _; (split; [reflexivity|]).
  - split; [lia|]. split; [apply LA; lia|]. split; [apply LB; lia|]. split; [rewrite Z.odd_add, Oa|rewrite Z.odd_sub, Ob]; [destruct (Z.odd a)|destruct (Z.odd b)]; reflexivity.
  - split; [lia|]. split; [apply LA; lia|]. split; [apply LB; lia|]. split; [rewrite Z.odd_sub, Z.odd_add, Oa|rewrite Z.odd_add, Z.odd_sub, Ob]; [destruct (Z.odd a)|destruct (Z.odd b)]; reflexivity.
Qed.
Lemma raise_min_bounds a b n : (a <= b)%Z -> (raise_min a b <= n < b + 1)%Z -> (a <= n <= b)%Z.
Proof. unfold raise_min, preferred_min. destruct (Z.ltb_spec a 5); lia. Qed.
Lemma raise_min_le a b : (a <= b)%Z -> (raise_min a b < b + 1)%Z.
Proof. unfold raise_min, preferred_min. destruct (Z.ltb_spec a 5); lia. Qed.

(** ** The two sides tile the range *)
(** the j-th span (counting from the end of the parity [c]) lies on side [c], [negb c], ... *)
Fixpoint on_side_pts (start : Qc) (l : list (Qc * Qc)) (cur side : bool) (x : Qc) : Prop :=
  match l with [] => False | (a, b) :: r => (cur = side /\ start + a <= x /\ x < start + b) \/ on_side_pts start r (negb cur) side x end.
Lemma span_ok a b : a <= b -> exists g, Geom1D [[NMpq a; NMpq b]] = Ok g /\ normal g /\ forall x, pts g x <-> a <= x /\ x < b.
Proof.
  intros H. assert (C : conv_interval [NMpq a; NMpq b] = Ok (Fin a, Fin b)).
  { unfold conv_interval, py_leb. cbn [pval]. change (eleb (Fin a) (Fin b)) with (qleb a b). destruct (qleb_spec a b); [reflexivity|exfalso; qlra]. }
  destruct (Geom1D_ok [[NMpq a; NMpq b]]) as (E & V); [intros i [<-|[]]; eauto|]. rewrite E. eexists. split; [reflexivity|].
  split; [now apply normalize_normal|]. intros x. rewrite pts_epts, normalize_epts by auto. cbn [map]. unfold conv_pure. rewrite C. split.
  - intros (i & [<-|[]] & X). cbn in X. exact X.
  - intros X. exists (Fin a, Fin b). split; [left; reflexivity|]. exact X.
Qed.

Definition forward (l : list (Qc * Qc)) : Prop := forall s, In s l -> fst s <= snd s.
Lemma alternate_ok start l : forall cur f0 f1, forward l -> normal f0 -> normal f1 -> exists g0 g1, alternate start l cur f0 f1 = Ok (g0, g1) /\ normal g0 /\ normal g1 /\
  (forall x, pts g0 x <-> pts f0 x \/ on_side_pts start l cur false x) /\ (forall x, pts g1 x <-> pts f1 x \/ on_side_pts start l cur true x).
Proof.
  induction l as [|(a, b) l IH]; intros cur f0 f1 F N0 N1; cbn [alternate on_side_pts].
  - exists f0, f1. repeat (split; [auto; intros; tauto|]). intros; tauto.
  - destruct (span_ok (start + a) (start + b)) as (g & -> & Ng & G); [specialize (F (a, b) (or_introl eq_refl)); cbn in F; qlra|]. cbn [bind].
    assert (F' : forward l) by (intros s Hs; apply F; now right).
    destruct cur; rewrite g_or_ok by auto; cbn [bind negb].
    + destruct (IH false f0 (or_pure f1 g) F' N0 (or_normal _ _ N1 Ng)) as (g0 & g1 & E & A1 & A2 & A3 & A4). exists g0, g1. repeat (split; [assumption|]). split.
      * intros x. rewrite A3. intuition discriminate.
      * intros x. rewrite A4. rewrite (or_pts f1 g _ x N1 Ng (g_or_ok _ _ N1 Ng)), G. tauto.
    + destruct (IH true (or_pure f0 g) f1 F' (or_normal _ _ N0 Ng) N1) as (g0 & g1 & E & A1 & A2 & A3 & A4). exists g0, g1. repeat (split; [assumption|]). split.
      * intros x. rewrite A3. rewrite (or_pts f0 g _ x N0 Ng (g_or_ok _ _ N0 Ng)), G. tauto.
      * intros x. rewrite A4. intuition discriminate.
Qed.
Lemma on_side_range (start : Qc) l : forall s0 e cur side (x : Qc), chain s0 l e -> forward l -> on_side_pts start l cur side x -> start + s0 <= x /\ x < start + e.
Proof.
  induction l as [|(a, b) l IH]; intros s0 e cur side x C F H; cbn [chain on_side_pts] in *; [destruct H|]. destruct C as (-> & C).
  assert (F' : forward l) by (intros s Hs; apply F; now right). pose proof (F (s0, b) (or_introl eq_refl)) as L. cbn in L.
  assert (LE : forall l b, chain b l e -> forward l -> b <= e).
  { clear. induction l as [|(u, v) l IH]; intros b C F; cbn in C; [subst; qlra|]. destruct C as (-> & C). pose proof (F (b, v) (or_introl eq_refl)) as L. cbn in L. specialize (IH v C (fun s Hs => F s (or_intror Hs))). qlra. }
  specialize (LE l b C F'). destruct H as [(_ & H1 & H2)|H]; [split; qlra|]. specialize (IH b e (negb cur) side x C F' H). destruct IH. split; qlra.
Qed.
Lemma on_side_disj (start : Qc) l : forall s0 e cur x, chain s0 l e -> forward l -> ~ (on_side_pts start l cur false x /\ on_side_pts start l cur true x).
Proof.
  induction l as [|(a, b) l IH]; intros s0 e cur x C F (H1 & H2); cbn [chain on_side_pts] in *; [destruct H1|]. destruct C as (-> & C).
  assert (F' : forward l) by (intros s Hs; apply F; now right).
  destruct H1 as [(E1 & A1 & B1)|H1]; destruct H2 as [(E2 & A2 & B2)|H2].
  - congruence.
  - apply (on_side_range start l b e) in H2; auto. destruct H2. qlra.
  - apply (on_side_range start l b e) in H1; auto. destruct H1. qlra.
  - exact (IH b e (negb cur) x C F' (conj H1 H2)).
Qed.
Lemma on_side_cover (start : Qc) l : forall s0 e cur (x : Qc), chain s0 l e -> start + s0 <= x /\ x < start + e -> on_side_pts start l cur false x \/ on_side_pts start l cur true x.
Proof.
  induction l as [|(a, b) l IH]; intros s0 e cur x C B; cbn [chain on_side_pts] in *; [subst; exfalso; destruct B; qlra|]. destruct C as (-> & C).
  destruct (Qclt_le_dec x (start + b)) as [X|X].
  - destruct B as (B1 & B2). destruct cur; [right|left]; left; exact (conj eq_refl (conj B1 X)).
  - destruct B as (B1 & B2). destruct (IH b e (negb cur) x C (conj X B2)) as [Y|Y]; auto.
Qed.
Lemma on_side_nth (start : Qc) l : forall j a b cur (x : Qc), nth_error l j = Some (a, b) -> start + a <= x -> x < start + b -> on_side_pts start l cur (xorb cur (Nat.odd j)) x.
Proof.
  induction l as [|(u, v) l IH]; intros [|j] a b cur x E H1 H2; cbn [nth_error] in E; try discriminate; cbn [on_side_pts].
  - apply some_inv in E. apply pair_inv in E as (-> & ->). left. change (Nat.odd 0) with false. rewrite Bool.xorb_false_r. auto.
  - right. specialize (IH j a b (negb cur) x E H1 H2). replace (xorb cur (Nat.odd (S j))) with (xorb (negb cur) (Nat.odd j)); auto.
    rewrite Nat.odd_succ, <- Nat.negb_odd. destruct cur, (Nat.odd j); reflexivity.
Qed.
