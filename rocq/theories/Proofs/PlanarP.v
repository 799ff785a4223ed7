(** Plane geometry of a planar set of edges: a statement that does not change along segments avoiding
    the edges and that holds on the right-hand side of every edge and far away holds everywhere. *)
From Verif.Spec Require Import Plane.
From Verif.Proofs Require Import PyP PolyP WindingP NearP.

Definition rev_e (e : segment) : segment := (snd e, fst e).
Definition dir (e : segment) : point := vsub (snd e) (fst e).
(** strictly between the end points *)
Definition inner (e : segment) (x : point) : Prop := exists s, 0 < s /\ s < 1 /\ x = at_t e s.
Definition off (E : list segment) (p : point) : Prop := forall e, In e E -> ~ on_seg e p.
Definition free (E : list segment) (p q : point) : Prop := forall x, on_seg (p, q) x -> off E x.
(** d points to the right of e *)
Definition right_of (e : segment) (d : point) : Prop := cross (dir e) d < 0.
(** edges meet in end points only *)
Definition planar (E : list segment) : Prop := forall e f x, In e E -> In f E -> inner e x -> on_seg f x -> f = e \/ f = rev_e e.
(** m lies strictly inside the sector swept by turning counter-clockwise from u to w *)
Definition insect (u w m : point) : Prop :=
  (0 < cross u w /\ 0 < cross u m /\ 0 < cross m w) \/
  (cross u w = 0 /\ dot u w < 0 /\ 0 < cross u m) \/
  (cross u w < 0 /\ (0 < cross u m \/ 0 < cross m w)).

Lemma pteq (p q : point) : fst p = fst q -> snd p = snd q -> p = q.
Proof. destruct p, q; cbn; intros -> ->; auto. Qed.
Ltac vec := unfold dir, step, at_t, cross, dot in *; unfold vadd, vscale, vsub in *; cbn [fst snd] in *.

Lemma strip1 A B P Q : (forall s, 0 <= s -> s <= 1 -> A + s * B = 0 -> 0 <= P + s * Q -> P + s * Q <= 1 -> False) ->
  exists dl, 0 < dl /\ forall s, 0 <= s -> s <= 1 -> 0 <= A + s * B -> A + s * B <= dl -> 0 <= P + s * Q -> P + s * Q <= 1 -> False.
Proof.
  intros H. destruct (qeqb_spec B 0) as [->|NB].
  - destruct (qeqb_spec A 0) as [->|NA].
    + exists 1. split; [qlra|]. intros s S0 S1 _ _. apply H; auto. qlra.
    + destruct (qc_not_eq _ _ NA).
      * exists 1. split; [qlra|]. intros s S0 S1 X. exfalso. qlra.
      * exists (A * qq 1 2). split; [qlra|]. intros s S0 S1 _ X. exfalso. qlra.
  - pose proof (qdiv_mul (- A) B NB) as D1. set (s0 := - A / B) in *. clearbody s0.
    pose proof (qdiv_mul 1 B NB) as D2. set (r := 1 / B) in *. clearbody r.
    assert (SS : forall s, s = s0 + (A + s * B) * r).
    { intros s. assert (X : (s - s0 - (A + s * B) * r) * B = 0).
      { replace ((s - s0 - (A + s * B) * r) * B) with (s * B - s0 * B - (A + s * B) * (r * B)) by ring.
        rewrite D1, D2. ring. }
      apply Qcmult_integral in X as [X|X]; [qlra|tauto]. }
    assert (C : (s0 < 0 \/ 1 < s0) \/ (P + s0 * Q < 0 \/ 1 < P + s0 * Q)).
    { destruct (qltb_spec s0 0); [tauto|]. destruct (qltb_spec 1 s0); [tauto|].
      destruct (qltb_spec (P + s0 * Q) 0); [tauto|]. destruct (qltb_spec 1 (P + s0 * Q)); [tauto|].
      exfalso. apply (H s0); try qlra. }
    destruct C as [[C|C]|[C|C]].
    + destruct (lin_pos (- s0) (- r)) as (e & E & L); [qlra|]. exists e. split; auto.
      intros s S0 S1 T0 T1 _ _. specialize (L _ T0 T1). specialize (SS s). set (t := A + s * B) in *. clearbody t. qlra.
    + destruct (lin_pos (s0 - 1) r) as (e & E & L); [qlra|]. exists e. split; auto.
      intros s S0 S1 T0 T1 _ _. specialize (L _ T0 T1). specialize (SS s). set (t := A + s * B) in *. clearbody t. qlra.
    + destruct (lin_pos (- (P + s0 * Q)) (- (r * Q))) as (e & E & L); [qlra|]. exists e. split; auto.
      intros s S0 S1 T0 T1 U0 _. specialize (L _ T0 T1). specialize (SS s). set (t := A + s * B) in *. clearbody t.
      subst s. assert (X : P + (s0 + t * r) * Q = P + s0 * Q + t * (r * Q)) by ring. rewrite X in U0. qlra.
    + destruct (lin_pos (P + s0 * Q - 1) (r * Q)) as (e & E & L); [qlra|]. exists e. split; auto.
      intros s S0 S1 T0 T1 _ U1. specialize (L _ T0 T1). specialize (SS s). set (t := A + s * B) in *. clearbody t.
      subst s. assert (X : P + (s0 + t * r) * Q = P + s0 * Q + t * (r * Q)) by ring. rewrite X in U1. qlra.
Qed.

Lemma strip_seg x D d f : cross D d <> 0 -> (forall u, 0 <= u -> u <= 1 -> ~ on_seg f (step x D u)) ->
  exists dl, 0 < dl /\ forall u t, 0 <= u -> u <= 1 -> 0 <= t -> t <= dl -> ~ on_seg f (step (step x D u) d t).
Proof.
  intros N H. destruct f as [a b]. set (k := cross D d) in *.
  pose proof (qdiv_mul 1 k N) as K. set (i := 1 / k) in *. clearbody i.
  set (A := cross D (vsub a x) * i). set (B := cross D (vsub b a) * i).
  set (P := cross (vsub a x) d * i). set (Q := cross (vsub b a) d * i).
  assert (KEY : forall s u t, step (step x D u) d t = at_t (a, b) s -> A + s * B = t /\ P + s * Q = u).
  { intros s u t E. assert (E1 := f_equal fst E). assert (E2 := f_equal snd E). vec. split.
    - transitivity (t * (i * k)); [|rewrite K; ring]. unfold A, B, k. vec.
      replace (_ + s * _) with ((fst D * ((snd a + s * (snd b - snd a)) - snd x) - snd D * ((fst a + s * (fst b - fst a)) - fst x)) * i) by ring.
      rewrite <- E1, <- E2. ring.
    - transitivity (u * (i * k)); [|rewrite K; ring]. unfold P, Q, k. vec.
      replace (_ + s * _) with ((((fst a + s * (fst b - fst a)) - fst x) * snd d - ((snd a + s * (snd b - snd a)) - snd x) * fst d) * i) by ring.
      rewrite <- E1, <- E2. ring. }
  assert (BACK : forall s, at_t (a, b) s = step (step x D (P + s * Q)) d (A + s * B)).
  { intros s. unfold A, B, P, Q. vec. apply pteq; cbn [fst snd].
    - transitivity (fst x + (fst a + s * (fst b - fst a) - fst x) * (i * k)); [rewrite K; ring|]. unfold k. ring.
    - transitivity (snd x + (snd a + s * (snd b - snd a) - snd x) * (i * k)); [rewrite K; ring|]. unfold k. ring. }
  destruct (strip1 A B P Q) as (dl & DL & G).
  { intros s S0 S1 Z U0 U1. apply (H _ U0 U1). exists s. split; auto. split; auto. rewrite BACK, Z. vec. apply pteq; cbn; ring. }
  exists dl. split; auto. intros u t U0 U1 T0 T1 (s & S0 & S1 & E). apply KEY in E as (X & Y). subst t u. eapply G; eauto.
Qed.

Lemma qmin_spec a b : qmin a b <= a /\ qmin a b <= b /\ (0 < a -> 0 < b -> 0 < qmin a b).
Proof. unfold qmin. destruct (qleb_spec a b); (split; [qlra|]; split; [qlra|]; auto). Qed.
Lemma sq_pos a : a <> 0 -> 0 < a * a.
Proof. intros N. destruct (qc_not_eq _ _ N); qnra. Qed.
Lemma sq_nonneg a : 0 <= a * a.
Proof. destruct (qeqb_spec a 0) as [->|N]; [qlra|]. apply sq_pos in N. qlra. Qed.
Lemma dot_pos a b : a <> b -> 0 < dot (vsub a b) (vsub a b).
Proof.
  intros N. vec. pose proof (sq_nonneg (fst a - fst b)). pose proof (sq_nonneg (snd a - snd b)).
  destruct (qeqb_spec (fst a - fst b) 0) as [A|A].
  - destruct (qeqb_spec (snd a - snd b) 0) as [B|B]; [exfalso; apply N; apply pteq; qlra|]. apply sq_pos in B. qlra.
  - apply sq_pos in A. qlra.
Qed.
(** finitely many positive bounds *)
Lemma pos_bound {X} (l : list X) (Q : X -> Qc -> Prop) :
  (forall x e e', Q x e -> 0 < e' -> e' <= e -> Q x e') -> (forall x, In x l -> exists e, 0 < e /\ Q x e) ->
  exists e, 0 < e /\ forall x, In x l -> Q x e.
Proof.
  intros M H. induction l as [|x l IH].
  - exists 1. split; [qlra|intros ? []].
  - destruct IH as (e1 & E1 & Q1); [intros; apply H; right; auto|]. destruct (H x) as (e2 & E2 & Q2); [left; auto|].
    exists (qmin e1 e2). unfold qmin. destruct (qleb_spec e1 e2).
    + split; auto. intros y [<-|Y]; [eapply M; eauto|auto].
    + split; auto. intros y [<-|Y]; [auto|]. eapply M; eauto. qlra.
Qed.

Section Planar.
Variable E : list segment.
Hypothesis E_sym : forall e, In e E -> In (rev_e e) E.
Hypothesis E_nd : forall e, In e E -> fst e <> snd e.
Hypothesis E_planar : planar E.

Variable T : point -> Prop.
Hypothesis T_move : forall p q, free E p q -> T p -> T q.

Lemma free_sym p q : free E p q -> free E q p.
Proof. intros F x X. apply F. now apply on_seg_sym. Qed.

Lemma on_rev e x : on_seg (rev_e e) x <-> on_seg e x.
Proof. destruct e as [a b]. unfold rev_e. cbn. split; apply on_seg_sym. Qed.
Lemma dir_nz e : In e E -> fst (dir e) <> 0 \/ snd (dir e) <> 0.
Proof.
  intros I. apply E_nd in I. vec. destruct (qeqb_spec (fst (snd e) - fst (fst e)) 0) as [X|X]; auto. right. intros Y. apply I.
  apply pteq; qlra.
Qed.
Lemma inner_end e x : In e E -> inner e x -> x <> fst e /\ x <> snd e.
Proof.
  intros I (s & S0 & S1 & ->). destruct (dir_nz e I) as [N|N]; split; intros X;
    [apply (f_equal fst) in X|apply (f_equal fst) in X|apply (f_equal snd) in X|apply (f_equal snd) in X]; vec.
  - assert (Y : s * (fst (snd e) - fst (fst e)) = 0) by qlra. apply Qcmult_integral in Y as [Y|Y]; [qlra|tauto].
  - assert (Y : (1 - s) * (fst (snd e) - fst (fst e)) = 0) by qlra. apply Qcmult_integral in Y as [Y|Y]; [qlra|tauto].
  - assert (Y : s * (snd (snd e) - snd (fst e)) = 0) by qlra. apply Qcmult_integral in Y as [Y|Y]; [qlra|tauto].
  - assert (Y : (1 - s) * (snd (snd e) - snd (fst e)) = 0) by qlra. apply Qcmult_integral in Y as [Y|Y]; [qlra|tauto].
Qed.
Lemma inner_on e x : inner e x -> on_seg e x.
Proof. intros (s & A & B & ->). exists s. split; [qlra|]. split; [qlra|auto]. Qed.
Lemma inner_rev e x : inner e x -> inner (rev_e e) x.
Proof. intros (s & A & B & ->). exists (1 - s). split; [qlra|]. split; [qlra|]. unfold rev_e. vec. apply pteq; cbn; ring. Qed.

(** the strip to one side of the middle part of an edge is free *)
Lemma strip_free e d s0 s1 : In e E -> cross (dir e) d <> 0 -> 0 < s0 -> s0 < s1 -> s1 < 1 ->
  exists dl, 0 < dl /\ forall s t, s0 <= s -> s <= s1 -> 0 < t -> t <= dl -> off E (step (at_t e s) d t).
Proof.
  intros I N S0 S01 S1.
  destruct (pos_bound E (fun f dl => forall s t, s0 <= s -> s <= s1 -> 0 < t -> t <= dl -> ~ on_seg f (step (at_t e s) d t)))
    as (dl & DL & H).
  { intros f a b F B AB s t A1 A2 A3 A4. apply F; auto. qlra. }
  { intros f F. assert (C : (f = e \/ f = rev_e e) \/ (forall x, inner e x -> ~ on_seg f x)).
    { destruct (pt_eqb_spec (fst f) (fst e)) as [A|A], (pt_eqb_spec (snd f) (snd e)) as [B|B].
      - left. left. destruct f, e; cbn in *; subst; auto.
      - right. intros x X Y. destruct (E_planar e f x I F X Y) as [Z|Z]; [subst; tauto|]. subst f. cbn in *. exfalso. apply (E_nd e I). congruence.
      - right. intros x X Y. destruct (E_planar e f x I F X Y) as [Z|Z]; [subst; tauto|]. subst f. cbn in *. exfalso. apply (E_nd e I). congruence.
      - destruct (pt_eqb_spec (fst f) (snd e)) as [A'|A'], (pt_eqb_spec (snd f) (fst e)) as [B'|B'].
        + left. right. destruct f, e; unfold rev_e; cbn in *; subst; auto.
        + right. intros x X Y. destruct (E_planar e f x I F X Y) as [Z|Z]; subst f; cbn in *; tauto.
        + right. intros x X Y. destruct (E_planar e f x I F X Y) as [Z|Z]; subst f; cbn in *; tauto.
        + right. intros x X Y. destruct (E_planar e f x I F X Y) as [Z|Z]; subst f; cbn in *; tauto. }
    destruct C as [C|C].
    - exists 1. split; [qlra|]. intros s t _ _ T0 _ X. assert (Y : on_seg e (step (at_t e s) d t)).
      { destruct C as [->| ->]; auto. now apply on_rev. }
      destruct Y as (r & _ & _ & Y). assert (Y1 := f_equal fst Y). assert (Y2 := f_equal snd Y).
      assert (Z : t * cross (dir e) d = 0).
      { vec. set (dx := fst (snd e) - fst (fst e)) in *. set (dy := snd (snd e) - snd (fst e)) in *.
        assert (W1 : t * fst d = (r - s) * dx) by qlra. assert (W2 : t * snd d = (r - s) * dy) by qlra.
        transitivity (dx * (t * snd d) - dy * (t * fst d)); [ring|]. rewrite W1, W2. ring. }
      apply Qcmult_integral in Z as [Z|Z]; [qlra|tauto].
    - destruct (strip_seg (at_t e s0) (vscale (s1 - s0) (dir e)) d f) as (dl & DL & H).
      + replace (cross (vscale (s1 - s0) (dir e)) d) with ((s1 - s0) * cross (dir e) d) by (vec; ring).
        intros Z. apply Qcmult_integral in Z as [Z|Z]; [qlra|tauto].
      + intros u U0 U1. apply C. exists (s0 + u * (s1 - s0)). split; [qnra|]. split; [qnra|]. vec. apply pteq; cbn; ring.
      + exists dl. split; auto. intros s t A1 A2 T0 T1 X.
        assert (N2 : s1 - s0 <> 0) by (intros Z; qlra). pose proof (qdiv_mul (s - s0) _ N2) as D. set (u := (s - s0) / (s1 - s0)) in *. clearbody u.
        apply (H u t).
        * destruct (qltb_spec u 0); [exfalso; qnra|qlra].
        * destruct (qltb_spec 1 u); [exfalso; qnra|qlra].
        * qlra.
        * auto.
        * replace (step (at_t e s0) (vscale (s1 - s0) (dir e)) u) with (at_t e s); auto.
          vec. replace s with (s0 + u * (s1 - s0)) by qlra. apply pteq; cbn; ring. }
  exists dl. split; auto. intros s t A1 A2 T0 T1 f F. apply H; auto.
Qed.
Lemma strip_move e d s0 s1 dl : (forall s t, s0 <= s -> s <= s1 -> 0 < t -> t <= dl -> off E (step (at_t e s) d t)) ->
  forall s t s' t', s0 <= s -> s <= s1 -> 0 < t -> t <= dl -> s0 <= s' -> s' <= s1 -> 0 < t' -> t' <= dl ->
  T (step (at_t e s) d t) -> T (step (at_t e s') d t').
Proof.
  intros H s t s' t' A1 A2 A3 A4 B1 B2 B3 B4. apply T_move. intros x (v & V0 & V1 & ->).
  replace (at_t _ v) with (step (at_t e (s + v * (s' - s))) d (t + v * (t' - t))).
  - apply H.
    + replace (s + v * (s' - s)) with ((1 - v) * s + v * s') by ring. qnra.
    + replace (s + v * (s' - s)) with ((1 - v) * s + v * s') by ring. qnra.
    + replace (t + v * (t' - t)) with ((1 - v) * t + v * t') by ring.
      destruct (qltb_spec v 1); [assert (0 < (1 - v) * t) by qnra; qnra|assert (v = 1) by qlra; subst; qlra].
    + replace (t + v * (t' - t)) with ((1 - v) * t + v * t') by ring. qnra.
  - vec. apply pteq; cbn; ring.
Qed.

(** T holds to the right of e *)
Definition RT (e : segment) : Prop := forall x d, inner e x -> right_of e d ->
  exists dl, 0 < dl /\ forall t, 0 < t -> t <= dl -> T (step x d t).
Lemma RT_intro e x d : In e E -> inner e x -> right_of e d ->
  (forall dl, 0 < dl -> exists t, 0 < t /\ t <= dl /\ T (step x d t)) -> RT e.
Proof.
  intros I (sx & X0 & X1 & ->) R H y d' (sy & Y0 & Y1 & ->) R'. unfold right_of in R, R'.
  set (s0 := qq 1 2 * qmin sx sy). set (s1 := qq 1 2 * (1 + qmax sx sy)).
  assert (B0 : 0 < s0 /\ s0 < sx /\ s0 < sy) by (unfold s0, qmin; destruct (qleb_spec sx sy); (split; [qlra|split; qlra])).
  assert (B1 : s1 < 1 /\ sx < s1 /\ sy < s1) by (unfold s1, qmax; destruct (qleb_spec sx sy); (split; [qlra|split; qlra])).
  clearbody s0 s1. destruct B0 as (P1 & P2 & P3), B1 as (Q1 & Q2 & Q3).
  destruct (strip_free e d s0 s1) as (dl & DL & FR); auto; [intros Z; qlra|qlra|].
  destruct (H dl DL) as (t0 & T0 & T0' & TT). set (k := cross (dir e) d) in *.
  assert (K : k <> 0) by (intros Z; qlra). pose proof (qdiv_mul 1 k K) as KI. set (i := 1 / k) in *. clearbody i.
  set (b := cross (dir e) d' * i). set (a := cross d' d * i).
  assert (BP : 0 < b). { assert (i < 0) by qnra. unfold b. qnra. }
  (* d' = a * dir e + b * d *)
  assert (DE : forall t, step (at_t e sy) d' t = step (at_t e (sy + t * a)) d (t * b)).
  { intros t. unfold a, b. apply pteq; vec.
    - transitivity (fst (fst e) + sy * (fst (snd e) - fst (fst e)) + t * fst d' * (i * k)); [rewrite KI; ring|]. unfold k. vec. ring.
    - transitivity (snd (fst e) + sy * (snd (snd e) - snd (fst e)) + t * snd d' * (i * k)); [rewrite KI; ring|]. unfold k. vec. ring. }
  destruct (lin_pos (sy - s0) a) as (e1 & E1 & L1); [qlra|]. destruct (lin_pos (s1 - sy) (- a)) as (e2 & E2 & L2); [qlra|].
  destruct (lin_pos dl (- b)) as (e3 & E3 & L3); [auto|].
  exists (qmin e1 (qmin e2 e3)). assert (M : 0 < qmin e1 (qmin e2 e3) /\ qmin e1 (qmin e2 e3) <= e1 /\ qmin e1 (qmin e2 e3) <= e2 /\ qmin e1 (qmin e2 e3) <= e3).
  { destruct (qmin_spec e2 e3) as (A1 & A2 & A3), (qmin_spec e1 (qmin e2 e3)) as (B1 & B2 & B3). split; [auto|]. split; [auto|]. split; qlra. }
  destruct M as (M0 & M1 & M2 & M3). split; auto. intros t T1 T2. rewrite DE.
  specialize (L1 t ltac:(qlra) ltac:(qlra)). specialize (L2 t ltac:(qlra) ltac:(qlra)). specialize (L3 t ltac:(qlra) ltac:(qlra)).
  apply (strip_move e d s0 s1 dl FR sx t0); auto; try qlra. qnra.
Qed.

(** ** Around a vertex *)
Definition comb (c u w : point) (al be : Qc) : point := step (step c u al) w be.
Definition dirfree (c v : point) : Prop := v <> (0, 0) /\ forall m k, In (c, m) E -> 0 < k -> vsub m c <> vscale k v.
Definition lc (u w : point) (al be : Qc) : point := vadd (vscale al u) (vscale be w).
Lemma corner_free c u w : (exists n, In (c, n) E) -> cross u w <> 0 ->
  exists ep, 0 < ep /\ forall al be, 0 <= al -> al <= ep -> 0 <= be -> be <= ep -> dirfree c (lc u w al be) -> off E (comb c u w al be).
Proof.
  intros (n & CN) N.
  destruct (pos_bound E (fun f ep => forall al be, 0 <= al -> al <= ep -> 0 <= be -> be <= ep ->
      on_seg f (comb c u w al be) -> fst f = c \/ snd f = c)) as (ep & EP & H).
  { intros f a b F B AB al be A1 A2 A3 A4. apply F; auto; qlra. }
  { intros f F. destruct (pt_eqb_spec (fst f) c) as [A|A]; [exists 1; split; [qlra|auto]|].
    destruct (pt_eqb_spec (snd f) c) as [B|B]; [exists 1; split; [qlra|auto]|].
    assert (NC : ~ on_seg f c).
    { intros (s & S0 & S1 & S). assert (IC : inner f c).
      { exists s. split; [|split; auto].
        - destruct (qeqb_spec s 0) as [Z|Z]; [exfalso; apply A; rewrite S, Z; vec; apply pteq; cbn; ring|destruct (qc_not_eq _ _ Z); auto; exfalso; qlra].
        - destruct (qeqb_spec s 1) as [Z|Z]; [exfalso; apply B; rewrite S, Z; vec; apply pteq; cbn; ring|destruct (qc_not_eq _ _ Z); auto; exfalso; qlra]. }
      assert (X := E_planar f (c, n) c F CN IC). destruct X as [X|X].
      - exists 0. split; [qlra|]. split; [qlra|]. vec. apply pteq; cbn; ring.
      - apply A. rewrite <- X. auto.
      - apply B. unfold rev_e in X. apply (f_equal fst) in X. cbn in X. auto. }
    destruct (seg_away f c u NC) as (e1 & E1 & H1).
    destruct (strip_seg c (vscale e1 u) w f) as (dl & DL & H2).
    { replace (cross (vscale e1 u) w) with (e1 * cross u w) by (vec; ring). intros Z. apply Qcmult_integral in Z as [Z|Z]; [qlra|tauto]. }
    { intros v V0 V1. replace (step c (vscale e1 u) v) with (step c u (v * e1)) by (vec; apply pteq; cbn; ring). apply H1; qnra. }
    exists (qmin e1 dl). split; [unfold qmin; destruct (qleb_spec e1 dl); auto|].
    intros al be A1 A2 A3 A4 O. exfalso.
    assert (M : qmin e1 dl <= e1 /\ qmin e1 dl <= dl) by (unfold qmin; destruct (qleb_spec e1 dl); split; qlra).
    destruct M as (M1 & M2). assert (NE : e1 <> 0) by (intros Z; qlra). pose proof (qdiv_mul al e1 NE) as D. set (v := al / e1) in *. clearbody v.
    apply (H2 v be); auto; try qlra.
    - destruct (qltb_spec v 0); [exfalso; qnra|qlra].
    - destruct (qltb_spec 1 v); [exfalso; qnra|qlra].
    - replace (step c (vscale e1 u) v) with (step c u al); auto. vec. rewrite <- D. apply pteq; cbn; ring. }
  exists ep. split; auto. intros al be A1 A2 A3 A4 (NZ & DF) f F O.
  assert (G : forall m, In (c, m) E -> on_seg (c, m) (comb c u w al be) -> False).
  { intros m M (s & S0 & S1 & S). assert (SP : s <> 0).
    { intros ->. apply NZ. assert (Z1 := f_equal fst S). assert (Z2 := f_equal snd S). unfold comb, lc in *. vec. apply pteq; cbn; qlra. }
    pose proof (qdiv_mul 1 s SP) as D. set (k := 1 / s) in *. clearbody k.
    apply (DF m k M).
    - assert (0 < s) by (destruct (qc_not_eq _ _ SP); auto; exfalso; qlra). destruct (qltb_spec 0 k); auto. exfalso. qnra.
    - assert (Z1 := f_equal fst S). assert (Z2 := f_equal snd S). unfold comb, lc in *. vec. apply pteq; cbn [fst snd].
      + transitivity ((fst m - fst c) * (k * s)); [rewrite D; ring|].
        transitivity (k * (s * (fst m - fst c))); [ring|]. f_equal. qlra.
      + transitivity ((snd m - snd c) * (k * s)); [rewrite D; ring|].
        transitivity (k * (s * (snd m - snd c))); [ring|]. f_equal. qlra. }
  destruct (H f F al be A1 A2 A3 A4 O) as [X|X].
  - destruct f as [f0 f1]. cbn in X. subst f0. apply (G f1 F O).
  - destruct f as [f0 f1]. cbn in X. subst f1. apply (G f0 (E_sym _ F)). now apply on_seg_sym.
Qed.
Lemma comb_move c u w ep : (forall al be, 0 <= al -> al <= ep -> 0 <= be -> be <= ep -> dirfree c (lc u w al be) -> off E (comb c u w al be)) ->
  forall al be al' be', 0 <= al -> al <= ep -> 0 <= be -> be <= ep -> 0 <= al' -> al' <= ep -> 0 <= be' -> be' <= ep ->
  (forall v, 0 <= v -> v <= 1 -> dirfree c (lc u w (al + v * (al' - al)) (be + v * (be' - be)))) ->
  T (comb c u w al be) -> T (comb c u w al' be').
Proof.
  intros H al be al' be' A1 A2 A3 A4 B1 B2 B3 B4 D. apply T_move. intros x (v & V0 & V1 & ->).
  replace (at_t _ v) with (comb c u w (al + v * (al' - al)) (be + v * (be' - be))).
  - apply H; auto.
    + replace (al + v * (al' - al)) with ((1 - v) * al + v * al') by ring. qnra.
    + replace (al + v * (al' - al)) with ((1 - v) * al + v * al') by ring. qnra.
    + replace (be + v * (be' - be)) with ((1 - v) * be + v * be') by ring. qnra.
    + replace (be + v * (be' - be)) with ((1 - v) * be + v * be') by ring. qnra.
  - unfold comb. vec. apply pteq; cbn; ring.
Qed.

(** From the right side of p -> c to the right side of c -> n, where no edge at c leads into the sector
    from c -> p counter-clockwise to c -> n. *)
Lemma lc_cross_l u w al be : cross u (lc u w al be) = be * cross u w.
Proof. unfold lc. vec. ring. Qed.
Lemma lc_cross_r u w al be : cross (lc u w al be) w = al * cross u w.
Proof. unfold lc. vec. ring. Qed.
Lemma cross_vscale_r u k v : cross u (vscale k v) = k * cross u v.
Proof. vec. ring. Qed.
Lemma cross_vscale_l u k v : cross (vscale k v) u = k * cross v u.
Proof. vec. ring. Qed.
Lemma dirfree_sect c u w v : (forall m, In (c, m) E -> ~ insect u w (vsub m c)) ->
  insect u w v -> dirfree c v.
Proof.
  intros H I. split.
  - intros ->. unfold insect in I. vec. destruct I as [(A & B & C)|[(A & B & C)|(A & [B|B])]]; qlra.
  - intros m k M K Z. apply (H m M). rewrite Z. unfold insect in *. rewrite cross_vscale_r, cross_vscale_l.
    destruct I as [(A & B & C)|[(A & B & C)|(A & [B|B])]].
    + left. split; [auto|]. split; qnra.
    + right. left. split; auto. split; auto. qnra.
    + right. right. split; auto. left. qnra.
    + right. right. split; auto. right. qnra.
Qed.
Lemma turn p c n : In (p, c) E -> In (c, n) E ->
  (forall m, In (c, m) E -> ~ insect (vsub p c) (vsub n c) (vsub m c)) ->
  ~ (cross (vsub p c) (vsub n c) = 0 /\ 0 < dot (vsub p c) (vsub n c)) ->
  RT (p, c) -> RT (c, n).
Proof.
  intros PC CN SEC NS R. set (u := vsub p c) in *. set (w := vsub n c) in *.
  assert (DF : forall v, insect u w v -> dirfree c v) by (intros; eapply dirfree_sect; eauto).
  assert (UZ : 0 < dot u u) by (apply dot_pos, (E_nd _ PC)).
  assert (WZ : 0 < dot w w) by (apply dot_pos; intros Z; apply (E_nd _ CN); auto).
  assert (CV : exists n, In (c, n) E) by eauto.
  (* points of the two edges near c *)
  assert (IU : forall a, 0 < a -> a < 1 -> inner (p, c) (step c u a)).
  { intros a A0 A1. exists (1 - a). split; [qlra|]. split; [qlra|]. unfold u. vec. apply pteq; cbn; ring. }
  assert (IW : forall a, 0 < a -> a < 1 -> inner (c, n) (step c w a)).
  { intros a A0 A1. exists a. split; [qlra|]. split; [qlra|]. unfold w. vec. apply pteq; cbn; ring. }
  assert (RU : forall d, 0 < cross u d -> right_of (p, c) d).
  { intros d D. unfold right_of. replace (cross (dir (p, c)) d) with (- cross u d); [qlra|]. unfold u. vec. ring. }
  assert (RW : forall d, cross w d < 0 -> right_of (c, n) d).
  { intros d D. unfold right_of. replace (cross (dir (c, n)) d) with (cross w d); [qlra|]. unfold w. vec. ring. }
  destruct (qltb_spec 0 (cross u w)) as [C|C].
  - (* convex *)
    destruct (corner_free c u w CV) as (ep & EP & F); [intros Z; qlra|].
    set (a := qmin (qq 1 2) ep). assert (A : 0 < a /\ a < 1 /\ a <= ep).
    { destruct (qmin_spec (qq 1 2) ep) as (A1 & A2 & A3). unfold a. split; [apply A3; auto; qlra|]. split; qlra. }
    destruct A as (A0 & A1 & A2). clearbody a.
    destruct (R (step c u a) w) as (dl & DL & TT); [auto|auto|].
    apply (RT_intro (c, n) (step c w a) u); auto.
    { apply RW. replace (cross w u) with (- cross u w) by (vec; ring). qlra. }
    intros dl' DL'. set (t := qmin a (qmin dl dl')). assert (B : 0 < t /\ t <= a /\ t <= dl /\ t <= dl').
    { destruct (qmin_spec dl dl') as (X1 & X2 & X3), (qmin_spec a (qmin dl dl')) as (Y1 & Y2 & Y3). unfold t. split; auto. split; [auto|]. split; qlra. }
    destruct B as (B0 & B1 & B2 & B3). clearbody t. exists t. split; auto. split; auto.
    assert (X := TT t B0 B2). change (step (step c u a) w t) with (comb c u w a t) in X.
    replace (step (step c w a) u t) with (comb c u w t a) by (unfold comb; vec; apply pteq; cbn; ring).
    apply (comb_move c u w ep F a t); auto; try qlra.
    intros v V0 V1. apply DF. left. rewrite lc_cross_l, lc_cross_r. split; auto.
    replace (t + v * (a - t)) with ((1 - v) * t + v * a) by ring. replace (a + v * (t - a)) with ((1 - v) * a + v * t) by ring.
    assert (0 < (1 - v) * t + v * a). { destruct (qltb_spec v (qq 1 2)); [assert (0 < (1 - v) * t) by qnra|assert (0 < v * a) by qnra]; qnra. }
    assert (0 < (1 - v) * a + v * t). { destruct (qltb_spec v (qq 1 2)); [assert (0 < (1 - v) * a) by qnra|assert (0 < v * t) by qnra]; qnra. }
    split; qnra.
  - destruct (qeqb_spec (cross u w) 0) as [Z|Z].
    + (* straight *)
      assert (DN : dot u w < 0).
      { destruct (qltb_spec (dot u w) 0); auto. exfalso. apply NS. split; auto.
        destruct (qeqb_spec (dot u w) 0) as [D0|D0]; [exfalso|destruct (qc_not_eq _ _ D0); auto; exfalso; qlra].
        assert (X : dot u u * dot w w = cross u w * cross u w + dot u w * dot u w) by (vec; ring).
        rewrite Z, D0 in X. qnra. }
      set (r := (- snd u, fst u) : point).
      assert (UR : cross u r = dot u u) by (unfold r; vec; ring).
      assert (WR : cross w r = dot u w) by (unfold r; vec; ring).
      destruct (corner_free c u r CV) as (e1 & E1 & F1); [rewrite UR; intros X; qlra|].
      destruct (corner_free c w r CV) as (e2 & E2 & F2); [rewrite WR; intros X; qlra|].
      set (a := qmin (qq 1 2) (qmin e1 e2)). assert (A : 0 < a /\ a < 1 /\ a <= e1 /\ a <= e2).
      { destruct (qmin_spec e1 e2) as (X1 & X2 & X3), (qmin_spec (qq 1 2) (qmin e1 e2)) as (Y1 & Y2 & Y3). unfold a.
        split; [apply Y3; auto; qlra|]. split; [qlra|]. split; qlra. }
      destruct A as (A0 & A1 & A2 & A3). clearbody a.
      destruct (R (step c u a) r) as (dl & DL & TT); [auto|apply RU; rewrite UR; auto|].
      apply (RT_intro (c, n) (step c w a) r); auto.
      { apply RW. rewrite WR. auto. }
      intros dl' DL'. set (t := qmin a (qmin dl dl')). assert (B : 0 < t /\ t <= a /\ t <= dl /\ t <= dl').
      { destruct (qmin_spec dl dl') as (X1 & X2 & X3), (qmin_spec a (qmin dl dl')) as (Y1 & Y2 & Y3). unfold t. split; auto. split; [auto|]. split; qlra. }
      destruct B as (B0 & B1 & B2 & B3). clearbody t. exists t. split; auto. split; auto.
      assert (X := TT t B0 B2). change (step (step c u a) r t) with (comb c u r a t) in X.
      change (T (comb c w r a t)).
      assert (CUW : cross u w = 0) by exact Z.
      apply (comb_move c w r e2 F2 0 t); auto; try qlra.
      { intros v V0 V1. apply DF. right. left. split; auto. split; auto.
        replace (cross u (lc w r (0 + v * (a - 0)) (t + v * (t - t)))) with (v * a * cross u w + t * cross u r) by (unfold lc; vec; ring).
        rewrite CUW, UR. qnra. }
      replace (comb c w r 0 t) with (comb c u r 0 t) by (unfold comb; vec; apply pteq; cbn; ring).
      apply (comb_move c u r e1 F1 a t); auto; try qlra.
      intros v V0 V1. apply DF. right. left. split; auto. split; auto. rewrite lc_cross_l, UR.
      replace (t + v * (t - t)) with t by ring. qnra.
    + (* reflex *)
      assert (CN' : cross u w < 0) by (destruct (qc_not_eq _ _ Z); auto; exfalso; qlra).
      set (mu := vscale (- (1)) u). set (mw := vscale (- (1)) w).
      assert (K1 : cross u mw = - cross u w) by (unfold mw; vec; ring).
      assert (K2 : cross mw mu = - cross u w) by (unfold mw, mu; vec; ring).
      assert (K3 : cross mu w = - cross u w) by (unfold mu; vec; ring).
      destruct (corner_free c u mw CV) as (e1 & E1 & F1); [rewrite K1; intros X; qlra|].
      destruct (corner_free c mw mu CV) as (e2 & E2 & F2); [rewrite K2; intros X; qlra|].
      destruct (corner_free c mu w CV) as (e3 & E3 & F3); [rewrite K3; intros X; qlra|].
      set (a := qmin (qq 1 2) (qmin e1 (qmin e2 e3))). assert (A : 0 < a /\ a < 1 /\ a <= e1 /\ a <= e2 /\ a <= e3).
      { destruct (qmin_spec e2 e3) as (W1 & W2 & W3), (qmin_spec e1 (qmin e2 e3)) as (X1 & X2 & X3), (qmin_spec (qq 1 2) (qmin e1 (qmin e2 e3))) as (Y1 & Y2 & Y3). unfold a.
        split; [apply Y3; auto; qlra|]. split; [qlra|]. split; [qlra|]. split; qlra. }
      destruct A as (A0 & A1 & A2 & A3 & A4). clearbody a.
      destruct (R (step c u a) mw) as (dl & DL & TT); [auto|apply RU; rewrite K1; qlra|].
      apply (RT_intro (c, n) (step c w a) mu); auto.
      { apply RW. replace (cross w mu) with (cross u w); auto. unfold mu. vec. ring. }
      intros dl' DL'. set (t := qmin a (qmin dl dl')). assert (B : 0 < t /\ t <= a /\ t <= dl /\ t <= dl').
      { destruct (qmin_spec dl dl') as (X1 & X2 & X3), (qmin_spec a (qmin dl dl')) as (Y1 & Y2 & Y3). unfold t. split; auto. split; [auto|]. split; qlra. }
      destruct B as (B0 & B1 & B2 & B3). clearbody t. exists t. split; auto. split; auto.
      assert (X := TT t B0 B2). change (step (step c u a) mw t) with (comb c u mw a t) in X.
      replace (step (step c w a) mu t) with (comb c mu w t a) by (unfold comb; vec; apply pteq; cbn; ring).
      apply (comb_move c mu w e3 F3 t 0); auto; try qlra.
      { intros v V0 V1. apply DF. right. right. split; auto. right. rewrite lc_cross_r, K3.
        replace (t + v * (t - t)) with t by ring. qnra. }
      replace (comb c mu w t 0) with (comb c mw mu 0 t) by (unfold comb; vec; apply pteq; cbn; ring).
      apply (comb_move c mw mu e2 F2 t 0); auto; try qlra.
      { intros v V0 V1. apply DF. right. right. split; auto.
        replace (cross u (lc mw mu (t + v * (0 - t)) (0 + v * (t - 0)))) with ((1 - v) * t * - cross u w) by (unfold lc, mu, mw; vec; ring).
        replace (cross (lc mw mu (t + v * (0 - t)) (0 + v * (t - 0))) w) with (v * t * - cross u w) by (unfold lc, mu, mw; vec; ring).
        destruct (qltb_spec v (qq 1 2)).
        - left. assert (0 < (1 - v) * t) by qnra. qnra.
        - right. assert (0 < v * t) by qnra. qnra. }
      replace (comb c mw mu t 0) with (comb c u mw 0 t) by (unfold comb; vec; apply pteq; cbn; ring).
      apply (comb_move c u mw e1 F1 a t); auto; try qlra.
      intros v V0 V1. apply DF. right. right. split; auto. left. rewrite lc_cross_l, K1.
      replace (t + v * (t - t)) with t by ring. qnra.
Qed.

(** ** Escaping to infinity *)
Lemma hit_dec p m e : In e E -> cross (1, m) (vsub (fst e) p) <> 0 -> cross (1, m) (vsub (snd e) p) <> 0 ->
  (forall t, ~ on_seg e (step p (1, m) t)) \/
  exists t0, inner e (step p (1, m) t0) /\ cross (dir e) (1, m) <> 0 /\ forall t, on_seg e (step p (1, m) t) -> t = t0.
Proof.
  intros I N0 N1. set (c0 := cross (1, m) (vsub (fst e) p)) in *. set (c1 := cross (1, m) (vsub (snd e) p)) in *.
  assert (KEY : forall s, cross (1, m) (vsub (at_t e s) p) = c0 + s * (c1 - c0)) by (intros s; unfold c0, c1; vec; ring).
  assert (HIT : forall t s, step p (1, m) t = at_t e s -> c0 + s * (c1 - c0) = 0).
  { intros t s X. rewrite <- KEY, <- X. vec. ring. }
  assert (CD : cross (dir e) (1, m) = c0 - c1) by (unfold c0, c1; vec; ring).
  destruct (qltb_spec (c0 * c1) 0) as [S|S].
  - right. assert (ND : c0 - c1 <> 0) by (intros Z; assert (c0 = c1) by qlra; subst; qnra).
    pose proof (qdiv_mul c0 (c0 - c1) ND) as D. set (s := c0 / (c0 - c1)) in *. clearbody s.
    assert (S0 : 0 < s /\ s < 1).
    { clear - S D N0. destruct (qc_not_eq _ _ N0) as [L|L].
      - assert (0 < c1) by (destruct (qltb_spec 0 c1); auto; exfalso; qnra).
        split; [destruct (qltb_spec 0 s)|destruct (qltb_spec s 1)]; auto; exfalso; qnra.
      - assert (c1 < 0) by (destruct (qltb_spec c1 0); auto; exfalso; qnra).
        split; [destruct (qltb_spec 0 s)|destruct (qltb_spec s 1)]; auto; exfalso; qnra. }
    assert (Z : cross (1, m) (vsub (at_t e s) p) = 0) by (rewrite KEY; qlra).
    exists (fst (at_t e s) - fst p). split; [|split; [rewrite CD; auto|]].
    + exists s. split; [tauto|]. split; [tauto|]. vec. apply pteq; cbn [fst snd]; qlra.
    + intros t (s' & _ & _ & X). assert (Y := HIT t s' X). assert (s' = s).
      { assert (W : (s' - s) * (c0 - c1) = 0) by qlra. apply Qcmult_integral in W as [W|W]; [qlra|tauto]. }
      subst s'. rewrite <- X. vec. ring.
  - left. intros t (s & S0 & S1 & X). apply HIT in X.
    destruct (qc_not_eq _ _ N0) as [L0|L0], (qc_not_eq _ _ N1) as [L1|L1]; try (exfalso; qnra).
Qed.
Theorem escape p : (forall e, In e E -> RT e) -> (exists M, forall z, M < fst z -> off E z -> T z) -> off E p -> T p.
Proof.
  intros R (M & FAR) O.
  destruct (generic_dir (map (fun e => (p, fst e)) E)) as (m & G).
  assert (V : forall e, In e E -> cross (1, m) (vsub (fst e) p) <> 0).
  { intros e I. apply (G (p, fst e)).
    - apply in_map_iff. exists e. auto.
    - cbn. intros Z. apply (O e I). rewrite Z. exists 0. split; [qlra|]. split; [qlra|]. vec. apply pteq; cbn; ring. }
  assert (V2 : forall e, In e E -> cross (1, m) (vsub (snd e) p) <> 0) by (intros e I; apply (V (rev_e e)); auto).
  set (d := (1, m) : point) in *.
  assert (F : forall l, incl l E ->
    (forall e t, In e l -> 0 <= t -> ~ on_seg e (step p d t)) \/
    exists e0 t0, In e0 l /\ 0 < t0 /\ inner e0 (step p d t0) /\ cross (dir e0) d <> 0 /\
      forall e t, In e l -> 0 <= t -> t < t0 -> ~ on_seg e (step p d t)).
  { induction l as [|e l IH]; intros L; [left; intros ? ? []|].
    assert (IE : In e E) by (apply L; left; auto).
    specialize (IH (fun x X => L x (or_intror X))).
    assert (C : (forall t, 0 <= t -> ~ on_seg e (step p d t)) \/
      exists t0, 0 < t0 /\ inner e (step p d t0) /\ cross (dir e) d <> 0 /\ forall t, on_seg e (step p d t) -> t = t0).
    { destruct (hit_dec p m e IE (V e IE) (V2 e IE)) as [H|(t0 & I0 & C0 & H)]; [left; auto|].
      destruct (qltb_spec 0 t0) as [P|P]; [right; eauto|]. left. intros t T0 X.
      assert (X' := H t X). subst t0. assert (t = 0) by qlra. subst t. apply (O e IE).
      replace p with (step p d 0) by (vec; apply pteq; cbn; ring). auto. }
    destruct IH as [IH|(e1 & t1 & A1 & A2 & A3 & A4 & A5)], C as [C|(t0 & B1 & B2 & B3 & B4)].
    - left. intros x t [<-|X] T0; auto.
    - right. exists e, t0. split; [left; auto|]. split; auto. split; auto. split; auto. intros x t [<-|X] T0 T1; auto.
      intros Y. apply B4 in Y. qlra.
    - right. exists e1, t1. split; [right; auto|]. split; auto. split; auto. split; auto. intros x t [<-|X] T0 T1; auto.
    - right. destruct (qltb_spec t0 t1) as [LT|LT].
      + exists e, t0. split; [left; auto|]. split; auto. split; auto. split; auto. intros x t [<-|X] T0 T1.
        * intros Y. apply B4 in Y. qlra.
        * apply A5; auto. qlra.
      + exists e1, t1. split; [right; auto|]. split; auto. split; auto. split; auto. intros x t [<-|X] T0 T1; auto.
        intros Y. apply B4 in Y. qlra. }
  assert (LINE : forall t1, 0 <= t1 -> (forall e t, In e E -> 0 <= t -> t <= t1 -> ~ on_seg e (step p d t)) -> free E (step p d t1) p).
  { intros t1 T1 H x (v & V0 & V1 & ->) e I. replace (at_t _ v) with (step p d ((1 - v) * t1)) by (vec; apply pteq; cbn; ring).
    apply H; auto; qnra. }
  destruct (F E (incl_refl _)) as [H|(e0 & t0 & I0 & T0 & IN & CR & H)].
  - set (t1 := qmax 0 (M - fst p + 1)). assert (B : 0 <= t1 /\ M - fst p + 1 <= t1) by (unfold t1, qmax; destruct (qleb_spec 0 (M - fst p + 1)); split; qlra).
    destruct B as (B1 & B2). clearbody t1. apply (T_move (step p d t1)).
    + apply LINE; auto.
    + apply FAR.
      * unfold d. vec. qlra.
      * intros e I. apply H; auto.
  - assert (X : exists e, In e E /\ inner e (step p d t0) /\ right_of e (vscale (- (1)) d)).
    { unfold right_of. destruct (qc_not_eq _ _ CR) as [C|C].
      - exists (rev_e e0). split; auto. split; [now apply inner_rev|].
        replace (cross (dir (rev_e e0)) (vscale (- (1)) d)) with (cross (dir e0) d) by (unfold rev_e; vec; ring). auto.
      - exists e0. split; auto. split; auto.
        replace (cross (dir e0) (vscale (- (1)) d)) with (- cross (dir e0) d) by (vec; ring). qlra. }
    destruct X as (e & IE & INE & RE). destruct (R e IE _ _ INE RE) as (dl & DL & TT).
    set (t := qmin dl (t0 * qq 1 2)). destruct (qmin_spec dl (t0 * qq 1 2)) as (Q1 & Q2 & Q3).
    assert (B : 0 < t /\ t <= dl /\ t < t0) by (unfold t; split; [apply Q3; auto; qlra|split; qlra]). destruct B as (B0 & B1 & B2). clearbody t.
    specialize (TT t B0 B1). apply (T_move (step p d (t0 - t))).
    + apply LINE; [qlra|]. intros x s IX S0 S1. apply H; auto. qlra.
    + replace (step p d (t0 - t)) with (step (step p d t0) (vscale (- (1)) d) t) by (vec; apply pteq; cbn; ring). auto.
Qed.
End Planar.
