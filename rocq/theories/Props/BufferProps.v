(** * How far a 2-d buffer reaches: C78. *)
From Verif.Model Require Import SegmentTree CellMerger Arrangement2d Aabb Geom2d.
From Verif.Spec Require Import Plane Region Hull.
From Verif.Proofs Require Import PyP PolyP Geom2dP Geom2dOps PlanarP ArrGraphP ArrSoundP ReachP.
From Verif.Props Require Import Geom2dProps SetOpsProps.

(** ** the octagon *)
Lemma buffer_octagon fsqrt sz : 0 < sz -> 0 < fsqrt 1 -> 0 < fsqrt (zq 2) ->
  exists a b, 0 < a /\ 0 < b /\ a * fsqrt 1 = sz /\ b * fsqrt (zq 2) = sz /\
  buffer_of_size fsqrt sz = [(a, 0); (b, - b); (0, - a); (- b, - b); (- a, 0); (- b, b); (0, a); (b, b)].
Proof.
  intros H0 H1 H2.
  assert (Pos : forall f, 0 < f -> 0 < 1 / (f / sz) /\ 1 / (f / sz) * f = sz).
  { intros f Hf. assert (Ns : sz <> 0) by (intros ->; qlra). pose proof (qdiv_mul f sz Ns) as D1. set (k := f / sz) in *. clearbody k.
    assert (0 < k) by (destruct (qltb_spec 0 k); auto; exfalso; qnra). assert (Nk : k <> 0) by (intros E; rewrite E in *; qlra).
    pose proof (qdiv_mul 1 k Nk) as D2. set (m := 1 / k) in *. clearbody m. split.
    - destruct (qltb_spec 0 m); auto. exfalso; qnra.
    - rewrite <- D1. transitivity (m * k * sz); [ring|]. rewrite D2. ring. }
  exists (1 / (fsqrt 1 / sz)), (1 / (fsqrt (zq 2) / sz)).
  destruct (Pos _ H1) as (A1 & A2). destruct (Pos _ H2) as (B1 & B2). split; [exact A1|]. split; [exact B1|]. split; [exact A2|]. split; [exact B2|].
  clear A1 A2 B1 B2 Pos. set (a := 1 / (fsqrt 1 / sz)). set (b := 1 / (fsqrt (zq 2) / sz)).
  unfold buffer_of_size. set (F := fun i : nat => _).
  assert (V : forall i x y, frangle_unit_square_vector (zq (Z.of_nat i) * MAX_FRANGLE / zq 8) = (x, y) ->
     F i = (x * (1 / (fsqrt (x * x + y * y) / sz)), y * (1 / (fsqrt (x * x + y * y) / sz)))).
  { intros i x y Ev. unfold F. rewrite Ev. cbn [fst snd]. unfold Qcdiv. f_equal; ring. }
  change (map F (seq 0 8)) with [F 0; F 1; F 2; F 3; F 4; F 5; F 6; F 7]%nat. clearbody F.
  rewrite (V 0%nat 1 0) by (vm_compute; reflexivity). rewrite (V 1%nat 1 (- (1))) by (vm_compute; reflexivity).
  rewrite (V 2%nat 0 (- (1))) by (vm_compute; reflexivity). rewrite (V 3%nat (- (1)) (- (1))) by (vm_compute; reflexivity).
  rewrite (V 4%nat (- (1)) 0) by (vm_compute; reflexivity). rewrite (V 5%nat (- (1)) 1) by (vm_compute; reflexivity).
  rewrite (V 6%nat 0 1) by (vm_compute; reflexivity). rewrite (V 7%nat 1 1) by (vm_compute; reflexivity).
  clear V.
  replace (1 * 1 + 0 * 0) with 1 by ring. replace (0 * 0 + - (1) * - (1)) with 1 by ring.
  replace (- (1) * - (1) + 0 * 0) with 1 by ring. replace (0 * 0 + 1 * 1) with 1 by ring.
  replace (1 * 1 + - (1) * - (1)) with (zq 2) by (vm_compute; reflexivity).
  replace (- (1) * - (1) + - (1) * - (1)) with (zq 2) by (vm_compute; reflexivity).
  replace (- (1) * - (1) + 1 * 1) with (zq 2) by (vm_compute; reflexivity).
  replace (1 * 1 + 1 * 1) with (zq 2) by (vm_compute; reflexivity). fold a b. clearbody a b.
  repeat (apply f_equal2; [apply f_equal2; ring|]). reflexivity.
Qed.

(** a hull stays inside every disc about the origin that contains the points *)
Lemma hull_norm l M x : (forall c, In c l -> dot c c <= M) -> hull l x -> dot x x <= M.
Proof.
  intros H. induction 1 as [c Hc|a b x Ha IA Hb IB O]; [auto|].
  destruct O as (t & H0 & H1 & ->). rewrite at_t_lin. destruct a as [a1 a2], b as [b1 b2]. unfold dot in *. cbn [fst snd] in *.
  assert (E : M - (((1 - t) * a1 + t * b1) * ((1 - t) * a1 + t * b1) + ((1 - t) * a2 + t * b2) * ((1 - t) * a2 + t * b2)) =
    (1 - t) * (M - (a1 * a1 + a2 * a2)) + t * (M - (b1 * b1 + b2 * b2)) + t * (1 - t) * ((a1 - b1) * (a1 - b1) + (a2 - b2) * (a2 - b2))) by ring.
  assert (0 <= (1 - t) * (M - (a1 * a1 + a2 * a2))) by (apply nonneg_mul; qlra).
  assert (0 <= t * (M - (b1 * b1 + b2 * b2))) by (apply nonneg_mul; qlra).
  assert (0 <= t * (1 - t) * ((a1 - b1) * (a1 - b1) + (a2 - b2) * (a2 - b2))).
  { apply nonneg_mul; [apply nonneg_mul; qlra|]. pose proof (sq_nonneg (a1 - b1)). pose proof (sq_nonneg (a2 - b2)). qlra. }
  qlra.
Qed.
Lemma octagon_norm fsqrt sz K c : 0 < sz -> 0 < fsqrt 1 -> 0 < fsqrt (zq 2) ->
  1 <= K * (fsqrt 1 * fsqrt 1) -> zq 2 <= K * (fsqrt (zq 2) * fsqrt (zq 2)) ->
  In c ((0, 0) :: buffer_of_size fsqrt sz) -> dot c c <= K * (sz * sz).
Proof.
  intros H0 H1 H2 K1 K2 H. destruct (buffer_octagon fsqrt sz H0 H1 H2) as (a & b & Pa & Pb & Ea & Eb & E). rewrite E in H. clear E.
  change (zq 2) with (1 + 1) in *. set (f1 := fsqrt 1) in *. set (f2 := fsqrt (1 + 1)) in *. clearbody f1 f2.
  assert (A : a * a <= K * (sz * sz)).
  { replace (K * (sz * sz)) with (K * (f1 * f1) * (a * a)) by (rewrite <- Ea; ring). assert (0 <= (K * (f1 * f1) - 1) * (a * a)) by (apply nonneg_mul; [qlra|apply sq_nonneg]). qlra. }
  assert (B : b * b + b * b <= K * (sz * sz)).
  { replace (K * (sz * sz)) with (K * (f2 * f2) * (b * b)) by (rewrite <- Eb; ring). assert (0 <= (K * (f2 * f2) - (1 + 1)) * (b * b)) by (apply nonneg_mul; [qlra|apply sq_nonneg]). qlra. }
  cbn [In] in H. unfold dot. repeat destruct H as [<-|H]; try destruct H; cbn [fst snd]; pose proof (sq_nonneg a); pose proof (sq_nonneg b); qlra.
Qed.
Lemma reached_dist fsqrt sz K g p : 0 < sz -> 0 < fsqrt 1 -> 0 < fsqrt (zq 2) ->
  1 <= K * (fsqrt 1 * fsqrt 1) -> zq 2 <= K * (fsqrt (zq 2) * fsqrt (zq 2)) ->
  reached_bd g (buffer_of_size fsqrt sz) p -> exists b, on_bd g b /\ dist2 p b <= K * (sz * sz).
Proof.
  intros H0 H1 H2 K1 K2 (b & B & R). exists b. split; auto.
  assert (exists d s, hull ((0, 0) :: buffer_of_size fsqrt sz) d /\ (s = 1 \/ s = - (1)) /\ p = padd b (pscale s d)) as (d & s & Hd & Hs & ->).
  { destruct R as [(d & Hd & E)|(d & Hd & E)]; exists d; eauto. }
  pose proof (hull_norm _ _ _ (fun c Hc => octagon_norm fsqrt sz K c H0 H1 H2 K1 K2 Hc) Hd) as N.
  replace (dist2 (padd b (pscale s d)) b) with (dot d d); [exact N|].
  destruct b as [bx by'], d as [dx dy]. unfold dist2, dot, vsub, padd, pscale. cbn [fst snd]. destruct Hs as [->| ->]; ring.
Qed.

(** ** C78: with a square root good enough that [K * sqrt(x)^2 >= x] at 1 and 2 (so [K = 1] for an exact one),
    no point further than [sqrt K * |amount|] from the boundary changes sides, and every boundary point of the
    result is that close to the old boundary *)
Theorem buffer_reach : forall orc fsqrt K g amount q r, 0 < fsqrt 1 -> 0 < fsqrt (zq 2) ->
  1 <= K * (fsqrt 1 * fsqrt 1) -> zq 2 <= K * (fsqrt (zq 2) * fsqrt (zq 2)) -> is_geom2d g ->
  g2_buffer (segment_arrangement orc) fsqrt g amount = Ok r -> pval amount = Some (Fin q) ->
  let close p := exists b, on_bd g b /\ dist2 p b <= K * (q * q) in
  (forall p, on_bd r p -> close p) /\
  (0 < q -> forall p, in_geom r p -> in_geom g p \/ close p) /\
  (q < 0 -> no_nesting g -> forall p, in_geom g p -> in_geom r p \/ close p).
Proof.
  intros orc fsqrt K g amount q r F1 F2 K1 K2 G R V close. unfold g2_buffer in R. rewrite V in R.
  destruct (qeqb_spec q 0) as [Eq|Nq].
  { injection R as <-. split; [|split; intros; auto]. intros p B. exists p. split; auto. subst q.
    destruct p. unfold dist2, dot, vsub. cbn [fst snd]. qnra. }
  destruct (FractionFromExact amount) as [q'|] eqn:Ea; cbn [bind] in R; [|discriminate].
  assert (q' = q).
  { clear -Ea V. destruct amount; cbn in Ea, V; try discriminate; apply some_inv in V; injection V as V; injection Ea as Ea; congruence. }
  subst q'.
  assert (Pq : 0 < qabs q) by (unfold qabs; destruct (qleb_spec 0 q), (qc_not_eq _ _ Nq); qlra).
  assert (Eqq : qabs q * qabs q = q * q) by (unfold qabs; destruct (qleb_spec 0 q); ring).
  pose proof (buffer_origin fsqrt (qabs q) Pq F1 F2) as L.
  destruct (mink_reach _ 2 (arrangement_sound orc) g _ (if qltb 0 q then 1 else - (1)) r G L) as (Gr & HS); [destruct (qltb 0 q); auto|exact R|].
  assert (C : forall p, reached_bd g (buffer_of_size fsqrt (qabs q)) p -> close p).
  { intros p X. unfold close. rewrite <- Eqq. apply (reached_dist fsqrt (qabs q) K g p); auto. }
  split; [intros p B; apply C, (HS p), B|]. split.
  - intros Hq p I. destruct (qltb_spec 0 q); [|exfalso; qlra]. destruct (proj1 (proj2 (HS p)) eq_refl I); auto.
  - intros Hq NN p I. destruct (qltb_spec 0 q); [exfalso; qlra|]. destruct (proj2 (proj2 (HS p)) eq_refl NN I); auto.
Qed.
Print Assumptions buffer_reach.

Local Definition P (x y : Z) : point := (zq x, zq y).
Local Definition orc0 : list segment -> nat -> nat -> nat := fun _ _ _ => O.
Local Definition fs (q : Qc) : Qc := if qeqb q 1 then 1 else qq 41 29.
Local Definition box4 : geom2d := [mkSpwh [P 0 0; P 0 4; P 4 4; P 4 0] []].
(** the code's own square root has [K = 1682/1681]: the 4x4 box buffered by 1 stays within 1.0003 of the box *)
Example buffer_reach_ex : let K := qq 1682 1681 in
  1 <= K * (fs 1 * fs 1) /\ zq 2 <= K * (fs (zq 2) * fs (zq 2)) /\ is_geom2d box4 /\
  (r <- g2_buffer (segment_arrangement orc0) fs box4 (NInt 1) ;;
   a <- g2_locate r (qq 49 10, zq 2) ;; b <- g2_locate r (qq 51 10, zq 2) ;; Ok (a, b)) = Ok (1, -1)%Z.
Proof.
  cbv zeta. split; [vm_compute; discriminate|]. split; [vm_compute; discriminate|].
  split; [repeat constructor; vm_compute; reflexivity|vm_compute; reflexivity].
Qed.
