(** * Properties C21, C22: fractional angles. *)
From Verif.Model Require Import Frangle2d.
From Verif.Spec Require Import Plane.
From Verif.Proofs Require Import PyP PolyP.
From Coq Require Import Qround.

(** the point of the square [-1,1]^2 at frangle f *)
Definition side (f : Qc) (s : point) : Prop :=
  (0 <= f /\ f < 1 /\ s = (1, - f)) \/
  (zq 7 < f /\ f < zq 8 /\ s = (1, zq 8 - f)) \/
  (zq 3 < f /\ f < zq 5 /\ s = (- (1), f - zq 4)) \/
  (1 <= f /\ f <= zq 3 /\ s = (zq 2 - f, - (1))) \/
  (zq 5 <= f /\ f <= zq 7 /\ s = (f - zq 6, 1)).
Definition frk (v : point) (f k : Qc) : Prop := 0 < k /\ exists s, v = vscale k s /\ side f s.

Lemma frangle_ok v : v <> (0, 0) -> exists f k, vector_frangle v = Ok f /\ frk v f k.
Proof.
  destruct v as [x y]. intros N. unfold vector_frangle.
  assert (passert (negb (qeqb x 0) || negb (qeqb y 0)) = Ok tt) as ->.
  { destruct (qeqb_spec x 0), (qeqb_spec y 0); try reflexivity. subst; congruence. }
  simpl.
  (* it is enough to give the side and check the two coordinates *)
  assert (R1 : forall f k s1 s2, 0 < k -> side f (s1, s2) -> x = k * s1 -> y = k * s2 -> exists k, frk (x, y) f k).
  { intros f k s1 s2 K S -> ->. exists k. split; auto. exists (s1, s2). auto. }
  enough (E : exists k, frk (x, y) (let order := if qltb (qabs y) (qabs x) then qabs (y / x) else zq 2 - qabs (x / y) in
     if qleb 0 x then if qleb y 0 then order else zq 8 - order else if qleb y 0 then zq 4 - order else zq 4 + order) k).
  { destruct E as (k & E). eexists _, k. split; [reflexivity|exact E]. }
  cbv zeta.
  destruct (qltb_spec (qabs y) (qabs x)) as [L|L].
  - assert (X : x <> 0) by (intros ->; unfold qabs in *; repeat qcase1; qlra).
    pose proof (qdiv_mul y x X) as M. set (t := y / x) in *. clearbody t.
    destruct (qabs_cases x) as [[P1 Q1]|[P1 Q1]], (qabs_cases y) as [[P2 Q2]|[P2 Q2]]; rewrite Q1, Q2 in *; clear Q1 Q2;
      destruct (qleb_spec 0 x); try (exfalso; qlra); destruct (qleb_spec y 0); try (exfalso; qlra);
      destruct (qabs_cases t) as [[P3 ->]|[P3 ->]]; try (exfalso; qnra).
    + assert (t = 0) by qnra. subst t. eapply (R1 _ x 1 (- 0)); [qlra|left; repeat split; qlra|qlra|qlra].
    + assert (0 < t) by qnra. assert (t < 1) by qnra.
      eapply (R1 _ x 1 (zq 8 - (zq 8 - t))); [qlra|right; left; repeat split; qlra|qlra|qlra].
    + assert (- t < 1) by qnra. eapply (R1 _ x 1 (- (- t))); [qlra|left; repeat split; qlra|qlra|qlra].
    + assert (t = 0) by qnra. subst t.
      eapply (R1 _ (- x) (- (1)) (zq 4 - 0 - zq 4)); [qlra|right; right; left; repeat split; qlra|qlra|qlra].
    + assert (- t < 1) by qnra.
      eapply (R1 _ (- x) (- (1)) (zq 4 + - t - zq 4)); [qlra|right; right; left; repeat split; qlra|qlra|qlra].
    + assert (t < 1) by qnra.
      eapply (R1 _ (- x) (- (1)) (zq 4 - t - zq 4)); [qlra|right; right; left; repeat split; qlra|qlra|qlra].
  - assert (Y : y <> 0).
    { intros ->. apply N. f_equal. unfold qabs in *; repeat qcase1; qlra. }
    pose proof (qdiv_mul x y Y) as M. set (t := x / y) in *. clearbody t.
    destruct (qc_not_eq _ _ Y);
    destruct (qabs_cases x) as [[P1 Q1]|[P1 Q1]], (qabs_cases y) as [[P2 Q2]|[P2 Q2]]; rewrite Q1, Q2 in *; clear Q1 Q2;
      try (exfalso; qlra);
      destruct (qleb_spec 0 x); try (exfalso; qlra); destruct (qleb_spec y 0); try (exfalso; qlra);
      destruct (qabs_cases t) as [[P3 ->]|[P3 ->]]; try (exfalso; qnra).
    all: idtac.
    + assert (t = 0) by qnra. subst t.
      eapply (R1 _ (- y) (zq 2 - (zq 2 - 0)) (- (1))); [qlra|right; right; right; left; repeat split; qlra|qlra|qlra].
    + assert (- t <= 1) by qnra.
      eapply (R1 _ (- y) (zq 2 - (zq 2 - - t)) (- (1))); [qlra|right; right; right; left; repeat split; qlra|qlra|qlra].
    + assert (t <= 1) by qnra.
      eapply (R1 _ (- y) (zq 2 - (zq 4 - (zq 2 - t))) (- (1))); [qlra|right; right; right; left; repeat split; qlra|qlra|qlra].
    + assert (t <= 1) by qnra.
      eapply (R1 _ y (zq 8 - (zq 2 - t) - zq 6) 1); [qlra|right; right; right; right; repeat split; qlra|qlra|qlra].
    + assert (- t <= 1) by qnra.
      eapply (R1 _ y (zq 4 + (zq 2 - - t) - zq 6) 1); [qlra|right; right; right; right; repeat split; qlra|qlra|qlra].
Qed.

Lemma side_range f s : side f s -> 0 <= f /\ f < zq 8.
Proof. intros [(A & B & _)|[(A & B & _)|[(A & B & _)|[(A & B & _)|(A & B & _)]]]]; split; qlra. Qed.
Lemma side_fun f s s' : side f s -> side f s' -> s = s'.
Proof.
  intros [(A & B & ->)|[(A & B & ->)|[(A & B & ->)|[(A & B & ->)|(A & B & ->)]]]]
         [(A' & B' & ->)|[(A' & B' & ->)|[(A' & B' & ->)|[(A' & B' & ->)|(A' & B' & ->)]]]];
    try reflexivity; exfalso; qlra.
Qed.
Lemma side_nonzero f s : side f s -> s <> (0, 0).
Proof.
  intros [(A & B & ->)|[(A & B & ->)|[(A & B & ->)|[(A & B & ->)|(A & B & ->)]]]] E;
    apply pair_inv in E as [E1 E2]; qlra.
Qed.
Lemma prod_lt1 a b : - (1) < a -> a < 1 -> - (1) <= b -> b <= 1 -> - (1) < a * b /\ a * b < 1.
Proof. intros. destruct (qleb_spec 0 b); split; qnra. Qed.
(** the cross product of two points of the square *)
Lemma side_cross f g s t : side f s -> side g t ->
  (cross s t < 0 <-> (f < g /\ g < f + zq 4) \/ g < f - zq 4).
Proof.
  intros [(A & B & ->)|[(A & B & ->)|[(A & B & ->)|[(A & B & ->)|(A & B & ->)]]]]
         [(A' & B' & ->)|[(A' & B' & ->)|[(A' & B' & ->)|[(A' & B' & ->)|(A' & B' & ->)]]]];
    unfold cross; cbn [fst snd];
    (split; [intros H | intros [[H H']|H]]; try qlra; try (exfalso; qlra); try qnra; try (exfalso; qnra);
     try (left; split; qlra); try (right; qlra)).
  - destruct (prod_lt1 (f - zq 4) (g - zq 6)); qlra.
  - destruct (prod_lt1 (g - zq 4) (zq 2 - f)); qlra.
Qed.
Lemma cross_anti u v : cross v u = - cross u v.
Proof. unfold cross. ring. Qed.
Lemma cross_scale k m u v : cross (vscale k u) (vscale m v) = k * m * cross u v.
Proof. unfold cross, vscale; simpl. ring. Qed.
Lemma side_parallel f g s t : side f s -> side g t -> cross s t = 0 -> f = g \/ g = f + zq 4 \/ g = f - zq 4.
Proof.
  intros S T E. pose proof (side_cross f g s t S T) as H1. pose proof (side_cross g f t s T S) as H2.
  rewrite cross_anti, E in H2. rewrite E in H1.
  assert (N1 : ~ ((f < g /\ g < f + zq 4) \/ g < f - zq 4)) by (rewrite <- H1; qlra).
  assert (N2 : ~ ((g < f /\ f < g + zq 4) \/ f < g - zq 4)) by (rewrite <- H2; qlra).
  destruct (qltb_spec f g), (qltb_spec g f), (qltb_spec g (f + zq 4)), (qltb_spec f (g + zq 4)),
    (qltb_spec g (f - zq 4)), (qltb_spec f (g - zq 4)); try tauto;
    first [left; qlra | right; left; qlra | right; right; qlra].
Qed.
Definition cw90 (v : point) : point := (snd v, - fst v).
Lemma side_rot f s : side f s -> side (if qltb f (zq 6) then f + zq 2 else f - zq 6) (cw90 s).
Proof.
  intros S. assert (forall (a b c d : Qc), a = c -> b = d -> (a, b) = (c, d)) as PE by congruence.
  destruct S as [(A & B & ->)|[(A & B & ->)|[(A & B & ->)|[(A & B & ->)|(A & B & ->)]]]];
    unfold cw90, side; cbn [fst snd]; destruct (qltb_spec f (zq 6)); try (exfalso; qlra).
  - do 3 right; left. split; [qlra|]. split; [qlra|]. apply PE; qlra.
  - do 3 right; left. split; [qlra|]. split; [qlra|]. apply PE; qlra.
  - do 4 right. split; [qlra|]. split; [qlra|]. apply PE; qlra.
  - destruct (qeqb_spec f 1) as [->|N1].
    + do 3 right; left. split; [qlra|]. split; [qlra|]. apply PE; qlra.
    + destruct (qeqb_spec f (zq 3)) as [->|N3].
      * do 4 right. split; [qlra|]. split; [qlra|]. apply PE; qlra.
      * apply qc_not_eq in N1, N3. do 2 right; left. split; [destruct N1, N3; qlra|]. split; [destruct N1, N3; qlra|]. apply PE; qlra.
  - destruct (qeqb_spec f (zq 5)) as [->|N1].
    + do 4 right. split; [qlra|]. split; [qlra|]. apply PE; qlra.
    + apply qc_not_eq in N1. right; left. split; [destruct N1; qlra|]. split; [qlra|]. apply PE; qlra.
  - destruct (qeqb_spec f (zq 7)) as [->|N1].
    + do 3 right; left. split; [qlra|]. split; [qlra|]. apply PE; qlra.
    + apply qc_not_eq in N1. left. split; [qlra|]. split; [destruct N1; qlra|]. apply PE; qlra.
Qed.
Lemma cw90_cw90 v : cw90 (cw90 v) = vscale (- (1)) v.
Proof. destruct v. unfold cw90, vscale; simpl. f_equal; ring. Qed.
Lemma side_neg f s : side f s -> side (if qltb f (zq 4) then f + zq 4 else f - zq 4) (vscale (-(1)) s).
Proof.
  intros S. pose proof (side_range _ _ S) as [R1 R2]. apply side_rot, side_rot in S. rewrite cw90_cw90 in S.
  destruct (qltb_spec f (zq 4)); destruct (qltb_spec f (zq 6)).
  - destruct (qltb_spec (f + zq 2) (zq 6)); [|exfalso; qlra]. replace (f + zq 4) with (f + zq 2 + zq 2) by qlra. exact S.
  - exfalso; qlra.
  - destruct (qltb_spec (f + zq 2) (zq 6)); [exfalso; qlra|]. replace (f - zq 4) with (f + zq 2 - zq 6) by qlra. exact S.
  - destruct (qltb_spec (f - zq 6) (zq 6)); [|exfalso; qlra]. replace (f - zq 4) with (f - zq 6 + zq 2) by qlra. exact S.
Qed.
Lemma vscale_inj k s t : k <> 0 -> vscale k s = vscale k t -> s = t.
Proof.
  destruct s, t. unfold vscale; simpl. intros N E. apply pair_inv in E as [E1 E2].
  assert (X1 : k * (q - q1) = 0) by qlra. assert (X2 : k * (q0 - q2) = 0) by qlra.
  apply Qcmult_integral in X1 as [|X1], X2 as [|X2]; try tauto. f_equal; qlra.
Qed.
Lemma frk_fun v f g k m : frk v f k -> frk v g m -> f = g.
Proof.
  intros (K & s & -> & S) (M & t & E & T).
  assert (C : cross s t = 0).
  { assert (X : k * m * cross s t = 0).
    { rewrite <- cross_scale, <- E. unfold cross; ring. }
    apply Qcmult_integral in X as [X|X]; auto. apply Qcmult_integral in X as [X|X]; exfalso; qlra. }
  destruct (side_parallel _ _ _ _ S T C) as [|H]; auto. exfalso.
  pose proof (side_range _ _ S) as [R1 R2]. pose proof (side_range _ _ T) as [R3 R4].
  assert (t = vscale (-(1)) s).
  { eapply side_fun; [exact T|]. pose proof (side_neg _ _ S) as Q.
    destruct H as [-> | ->]; destruct (qltb_spec f (zq 4)); auto; exfalso; qlra. }
  subst t. apply (side_nonzero _ _ S). destruct s as [a b]. unfold vscale in E; simpl in E. apply pair_inv in E as [E1 E2].
  assert (P : k + m <> 0) by (intros Z; qlra).
  assert (X1 : (k + m) * a = 0) by qlra. assert (X2 : (k + m) * b = 0) by qlra.
  apply Qcmult_integral in X1 as [|X1], X2 as [|X2]; try tauto. congruence.
Qed.
Lemma frk_nonzero v f k : frk v f k -> v <> (0, 0).
Proof.
  intros (K & s & -> & S) E. apply (side_nonzero _ _ S). apply (vscale_inj k); [intros ->; qlra|].
  rewrite E. unfold vscale; simpl. f_equal; ring.
Qed.
Lemma frk_frangle v f k : frk v f k -> vector_frangle v = Ok f.
Proof.
  intros H. destruct (frangle_ok v (frk_nonzero _ _ _ H)) as (g & m & -> & G). f_equal. eapply frk_fun; eauto.
Qed.
Lemma frangle_frk v f : vector_frangle v = Ok f -> exists k, frk v f k.
Proof.
  intros H. destruct (pt_eqb_spec v (0, 0)) as [->|N]; [discriminate|].
  destruct (frangle_ok v N) as (g & m & E & G). rewrite E in H. injection H as ->. eauto.
Qed.

Lemma qmod_spec q m : 0 < m -> exists n : Z, q = qmod q m + m * zq n /\ 0 <= qmod q m /\ qmod q m < m.
Proof.
  intros M. assert (Nz : m <> 0) by (intros ->; qlra). exists (qfloor (q / m)). unfold qmod, qfloor.
  pose proof (Qfloor_le (this (q / m))) as F1. pose proof (Qlt_floor (this (q / m))) as F2.
  pose proof (qdiv_mul q m Nz) as E. set (t := q / m) in *. clearbody t. set (n := Qfloor (this t)) in *. clearbody n.
  assert (G1 : zq n <= t). { unfold Qcle, zq. rewrite this_Q2Qc. exact F1. }
  assert (G2 : t < zq n + 1).
  { unfold Qclt. rewrite this_plus. unfold zq. rewrite this_Q2Qc. change (this 1) with 1%Q.
    rewrite inject_Z_plus in F2. exact F2. }
  set (z := zq n) in *. clearbody z. subst q. split; [ring|]. split; qnra.
Qed.
Lemma fusv_side f : side (qmod f (zq 8)) (frangle_unit_square_vector f).
Proof.
  unfold frangle_unit_square_vector. destruct (qmod_spec f (zq 8)) as (_ & _ & R1 & R2); [qlra|].
  set (g := qmod f (zq 8)) in *. clearbody g.
  assert (H : (g < zq 4 /\ qmod g (zq 4) = g) \/ (zq 4 <= g /\ qmod g (zq 4) = g - zq 4)).
  { destruct (qmod_spec g (zq 4)) as (n & E & L1 & L2); [qlra|]. set (h := qmod g (zq 4)) in *. clearbody h.
    assert (B : (0 <= n < 2)%Z).
    { assert (-(1) < zq n) as B1 by qlra. assert (zq n < zq 2) as B2 by qlra.
      unfold Qclt in B1, B2. unfold zq in B1, B2. rewrite this_Q2Qc in B1, B2.
      rewrite (this_Q2Qc (inject_Z 2)) in B2. change (this (- (1))) with (-1 # 1)%Q in B1.
      unfold Qlt, inject_Z in *; simpl in *. lia. }
    assert (n = 0 \/ n = 1)%Z as [->| ->] by lia; [left|right]; split; qlra. }
  assert (PE : forall (a b c d : Qc), a = c -> b = d -> (a, b) = (c, d)) by congruence.
  destruct H as [[H E]|[H E]]; rewrite E; cbv zeta;
    match goal with |- context [qabs ?x] => destruct (qabs_cases x) as [[P1 ->]|[P1 ->]] end;
    match goal with |- context [qltb ?x 1] => destruct (qltb_spec x 1) end;
    match goal with |- context [qltb (zq 2) ?x] => destruct (qltb_spec (zq 2) x) end;
    match goal with |- context [qleb (zq 4) g] => destruct (qleb_spec (zq 4) g) end; try (exfalso; qlra); cbn [fst snd];
    unfold side.
  all: try (do 3 right; left; split; [qlra|]; split; [qlra|]; apply PE; qlra).
  all: try (do 4 right; split; [qlra|]; split; [qlra|]; apply PE; qlra).
  all: try (left; split; [qlra|]; split; [qlra|]; apply PE; qlra).
  all: try (right; left; split; [qlra|]; split; [qlra|]; apply PE; qlra).
  all: try (do 2 right; left; split; [qlra|]; split; [qlra|]; apply PE; qlra).
  - destruct (qeqb_spec g 1) as [->|Z]; [do 3 right; left; split; [qlra|]; split; [qlra|]; apply PE; qlra|].
    apply qc_not_eq in Z. left. split; [qlra|]. split; [destruct Z; qlra|]. apply PE; qlra.
  - destruct (qeqb_spec g (zq 3)) as [->|Z]; [do 3 right; left; split; [qlra|]; split; [qlra|]; apply PE; qlra|].
    apply qc_not_eq in Z. do 2 right; left. split; [destruct Z; qlra|]. split; [qlra|]. apply PE; qlra.
  - destruct (qeqb_spec g (zq 5)) as [->|Z]; [do 4 right; split; [qlra|]; split; [qlra|]; apply PE; qlra|].
    apply qc_not_eq in Z. do 2 right; left. split; [qlra|]. split; [destruct Z; qlra|]. apply PE; qlra.
  - destruct (qeqb_spec g (zq 7)) as [->|Z]; [do 4 right; split; [qlra|]; split; [qlra|]; apply PE; qlra|].
    apply qc_not_eq in Z. right; left. split; [destruct Z; qlra|]. split; [qlra|]. apply PE; qlra.
Qed.

(** ** C21 *)
Definition same_direction (u v : point) : Prop := exists k, 0 < k /\ u = vscale k v.
Definition congruent8 (a b : Qc) : Prop := exists n : Z, a = b + zq 8 * zq n.

Theorem frangle_faithful :
  (forall v, vector_frangle v = Err AssertionError <-> v = (0, 0)) /\
  (forall v, v <> (0, 0) -> exists f, vector_frangle v = Ok f /\ 0 <= f /\ f < zq 8 /\
     same_direction v (frangle_unit_square_vector f)) /\
  (forall u v f g, vector_frangle u = Ok f -> vector_frangle v = Ok g -> (f = g <-> same_direction u v)) /\
  (forall f, exists r, vector_frangle (frangle_unit_square_vector f) = Ok r /\
     0 <= r /\ r < zq 8 /\ congruent8 f r).
Proof.
  assert (FS : forall f, frk (frangle_unit_square_vector f) (qmod f (zq 8)) 1).
  { intros f. split; [qlra|]. exists (frangle_unit_square_vector f). split; [|apply fusv_side].
    destruct (frangle_unit_square_vector f). unfold vscale; simpl. f_equal; ring. }
  split; [|split; [|split]].
  - intros v. split; [|intros ->; reflexivity]. intros H. destruct (pt_eqb_spec v (0, 0)) as [|N]; auto.
    destruct (frangle_ok v N) as (f & k & E & _). congruence.
  - intros v N. destruct (frangle_ok v N) as (f & k & E & K & s & -> & S). exists f. split; auto.
    pose proof (side_range _ _ S) as [R1 R2]. split; auto. split; auto. exists k. split; auto. f_equal.
    eapply side_fun; [exact S|]. pose proof (fusv_side f) as Q.
    assert (Z : qmod f (zq 8) = f); [|rewrite Z in Q; exact Q].
    destruct (qmod_spec f (zq 8)) as (n & E' & L1 & L2); [qlra|]. set (h := qmod f (zq 8)) in *. clearbody h.
    assert (B : (-1 < n < 1)%Z).
    { assert (-(1) < zq n) as B1 by qlra. assert (zq n < zq 1) as B2 by qlra.
      unfold Qclt in B1, B2. unfold zq in B1, B2. rewrite this_Q2Qc in B1, B2.
      rewrite (this_Q2Qc (inject_Z 1)) in B2. change (this (- (1))) with (-1 # 1)%Q in B1.
      unfold Qlt, inject_Z in *; simpl in *. lia. }
    assert (n = 0)%Z as -> by lia. qlra.
  - intros u v f g Hu Hv. apply frangle_frk in Hu as (k & K & s & -> & S), Hv as (m & M & t & -> & T).
    split.
    + intros ->. assert (s = t) as -> by (eapply side_fun; eauto). exists (k / m).
      assert (Mn : m <> 0) by (intros ->; qlra). pose proof (qdiv_mul k m Mn) as E. set (r := k / m) in *. clearbody r.
      split; [qnra|]. destruct t. unfold vscale; simpl. rewrite <- E. f_equal; ring.
    + intros (r & R & E). apply (frk_fun (vscale k s) f g k (r * m)).
      * split; auto. exists s. auto.
      * split; [qnra|]. exists t. split; auto. rewrite E. destruct t. unfold vscale; simpl. f_equal; ring.
  - intros f. exists (qmod f (zq 8)). split; [eapply frk_frangle; apply FS|].
    destruct (qmod_spec f (zq 8)) as (n & E & L1 & L2); [qlra|]. split; auto. split; auto. exists n. exact E.
Qed.
Print Assumptions frangle_faithful.
Example frangle_faithful_ex :
  vector_frangle (zq 3, - zq 3) = Ok 1 /\ vector_frangle (zq 0, zq 5) = Ok (zq 6) /\
  same_direction (zq 4, zq 2) (zq 2, zq 1).
Proof.
  split; [|split].
  - apply (frk_frangle _ _ (zq 3)). split; [qlra|]. exists (zq 2 - 1, - (1)).
    split; [unfold vscale; simpl; f_equal; apply Qc_is_canon; reflexivity|]. do 3 right; left. repeat split; qlra.
  - apply (frk_frangle _ _ (zq 5)). split; [qlra|]. exists (zq 6 - zq 6, 1).
    split; [unfold vscale; simpl; f_equal; apply Qc_is_canon; reflexivity|]. do 4 right. repeat split; qlra.
  - exists (zq 2). split; [qlra|]. unfold vscale; simpl; f_equal; apply Qc_is_canon; reflexivity.
Qed.

(** ** C22 *)
Theorem frangle_clockwise :
  (* v is clockwise from u by less than a half-turn iff its frangle is ahead by less than 4 (mod 8) *)
  (forall u v f g, vector_frangle u = Ok f -> vector_frangle v = Ok g ->
     (cross u v < 0 <-> exists d, 0 < d /\ d < FRANGLE_180 /\ congruent8 g (f + d))) /\
  (* within a half-turn window of frangles the order is the order of directions *)
  (forall u v f g, vector_frangle u = Ok f -> vector_frangle v = Ok g ->
     f - g < FRANGLE_180 -> g - f < FRANGLE_180 -> (f < g <-> cross u v < 0)) /\
  (forall v f, vector_frangle v = Ok f ->
     exists r, vector_frangle (cw90 v) = Ok r /\ congruent8 (f + FRANGLE_90) r) /\
  (forall v f, vector_frangle v = Ok f ->
     exists r, vector_frangle (vscale (- (1)) v) = Ok r /\ congruent8 (f + FRANGLE_180) r).
Proof.
  unfold FRANGLE_180, FRANGLE_90.
  assert (X : forall u v f g, vector_frangle u = Ok f -> vector_frangle v = Ok g ->
     (cross u v < 0 <-> (f < g /\ g < f + zq 4) \/ g < f - zq 4) /\ 0 <= f /\ f < zq 8 /\ 0 <= g /\ g < zq 8).
  { intros u v f g Hu Hv. apply frangle_frk in Hu as (k & K & s & -> & S), Hv as (m & M & t & -> & T).
    rewrite <- (side_cross f g s t S T), cross_scale. pose proof (side_range _ _ S) as []. pose proof (side_range _ _ T) as [].
    split; auto. assert (0 < k * m) by qnra. set (r := k * m) in *. set (c := cross s t). clearbody r c.
    split; intros; qnra. }
  assert (PM : forall (P : Prop), (P \/ ~ P) -> P \/ ~ P) by auto.
  split; [|split; [|split]].
  - intros u v f g Hu Hv. destruct (X u v f g Hu Hv) as (-> & R1 & R2 & R3 & R4). split.
    + intros [[A B]|A].
      * exists (g - f). split; [qlra|]. split; [qlra|]. exists 0%Z. qlra.
      * exists (g - f + zq 8). split; [qlra|]. split; [qlra|]. exists (-1)%Z. qlra.
    + intros (d & D1 & D2 & n & E).
      assert (B : (-2 < n < 1)%Z).
      { assert (- zq 2 < zq n) as B1 by qlra. assert (zq n < zq 1) as B2 by qlra.
        unfold Qclt in B1, B2. unfold zq in B1, B2. rewrite this_Q2Qc in B1, B2.
        rewrite (this_Q2Qc (inject_Z 1)) in B2. change (this (- Q2Qc (inject_Z 2))) with (-2 # 1)%Q in B1.
        unfold Qlt, inject_Z in *; simpl in *. lia. }
      assert (n = 0 \/ n = -1)%Z as [-> | ->] by lia; [left|right]; [split|]; qlra.
  - intros u v f g Hu Hv D1 D2. destruct (X u v f g Hu Hv) as (-> & _). split; [left; split; qlra|].
    intros [[A B]|A]; qlra.
  - intros v f Hv. apply frangle_frk in Hv as (k & K & s & -> & S).
    eexists. split; [apply (frk_frangle _ _ k); split; auto; exists (cw90 s); split; [|apply side_rot; exact S]|].
    + destruct s. unfold cw90, vscale; simpl. f_equal; ring.
    + destruct (qltb_spec f (zq 6)); [exists 0%Z|exists 1%Z]; qlra.
  - intros v f Hv. apply frangle_frk in Hv as (k & K & s & -> & S).
    eexists. split; [apply (frk_frangle _ _ k); split; auto; exists (vscale (-(1)) s); split; [|apply side_neg; exact S]|].
    + destruct s. unfold vscale; simpl. f_equal; ring.
    + destruct (qltb_spec f (zq 4)); [exists 0%Z|exists 1%Z]; qlra.
Qed.
Print Assumptions frangle_clockwise.
Example frangle_clockwise_ex :
  exists f g, vector_frangle (1, 0) = Ok f /\ vector_frangle (0, - (1)) = Ok g /\ f < g /\ cross (1, 0) (0, - (1)) < 0.
Proof. eexists _, _. split; [reflexivity|]. split; [reflexivity|]. split; vm_compute; reflexivity. Qed.
