(** * The sweep: invariant, progress and completeness. *)
From Coq Require Import Sorting.Sorted.
From Verif.Model Require Import Scan2d.
From Verif.Proofs Require Import PyP SweepOrd.

(** ** segments and their ends *)
Definition lower (s : segment) : point := if ev_ltb (fst s) (snd s) then fst s else snd s.
Definition upper (s : segment) : point := if ev_ltb (fst s) (snd s) then snd s else fst s.
Definition ons (s : segment) (p : point) : Prop :=
  at_y s (snd p) = fst p /\ snd (lower s) <= snd p /\ snd p <= snd (upper s).

Lemma at_y_fst s : at_y s (snd (fst s)) = fst (fst s).
Proof. unfold at_y. now rewrite qeqb_refl. Qed.
Lemma at_y_snd s : good s -> at_y s (snd (snd s)) = fst (snd s).
Proof. unfold at_y, good. intros G. destruct (qeqb_spec (snd (snd s)) (snd (fst s))); [congruence|]. now rewrite qeqb_refl. Qed.
Lemma lower_upper s : good s -> snd (lower s) < snd (upper s).
Proof.
  intros G. unfold lower, upper. destruct (ev_ltb_spec (fst s) (snd s)) as [[H|(H & _)]|N]; auto; [contradiction|].
  apply ev_nlt in N as [H|(H & _)]; auto. congruence.
Qed.
Lemma ons_lower s : good s -> ons s (lower s).
Proof.
  intros G. assert (L := lower_upper s G). unfold ons. split; [|split; qlra].
  unfold lower. destruct (ev_ltb _ _); [apply at_y_fst|now apply at_y_snd].
Qed.
Lemma ons_upper s : good s -> ons s (upper s).
Proof.
  intros G. assert (L := lower_upper s G). unfold ons. split; [|split; qlra].
  unfold upper. destruct (ev_ltb _ _); [now apply at_y_snd|apply at_y_fst].
Qed.
Lemma upper_max s : good s -> qmax (snd (fst s)) (snd (snd s)) = snd (upper s).
Proof.
  intros G. unfold upper. destruct (ev_ltb_spec (fst s) (snd s)) as [[H|(H & _)]|N].
  - apply qmax_r. qlra.
  - apply qmax_r. qlra.
  - apply ev_nlt in N as [H|(H & _)]; apply qmax_l; qlra.
Qed.
Lemma ons_eq s p q : ons s p -> ons s q -> snd p = snd q -> p = q.
Proof. intros (H & _) (K & _) E. apply pt_eq; auto. rewrite <- H, <- K. now rewrite E. Qed.
Lemma ons_ev s p q : ons s p -> ons s q -> snd p <= snd q -> evle p q.
Proof.
  intros H K L. destruct (qeqb_spec (snd p) (snd q)) as [E|N].
  - rewrite (ons_eq _ _ _ H K E). apply evle_refl.
  - destruct (qc_not_eq _ _ N); [now left|qlra].
Qed.
Lemma lower_le s p : good s -> ons s p -> evle (lower s) p.
Proof. intros G H. apply (ons_ev s); auto. now apply ons_lower. apply H. Qed.
Lemma upper_ge s p : good s -> ons s p -> evle p (upper s).
Proof. intros G H. apply (ons_ev s); auto. now apply ons_upper. apply H. Qed.
(** a position and a level between which the segment extends *)
Lemma ons_span s pos tgt y : evle (lower s) pos -> evle tgt (upper s) -> snd pos <= y -> y <= snd tgt ->
  ons s (at_y s y, y).
Proof.
  intros L U H K. assert (snd (lower s) <= snd pos) by (destruct L as [L|(L & _)]; qlra).
  assert (snd tgt <= snd (upper s)) by (destruct U as [U|(U & _)]; qlra).
  unfold ons. cbn. split; [auto|split; qlra].
Qed.

(** ** crossings *)
Lemma qcmul_pos a b : 0 < a -> 0 < b -> 0 < a * b.
Proof. intros. qnra. Qed.
Lemma qdiv_pos a b : 0 < a -> 0 < b -> 0 < a / b.
Proof.
  intros A B. assert (E := qdiv_mul a b). assert (b <> 0) by (intros ->; qlra). specialize (E H).
  destruct (qltb_spec 0 (a / b)) as [|N]; auto. exfalso. set (q := a / b) in *. assert (q <= 0) by qlra. qnra.
Qed.
Lemma cross_between a b y t : good a -> good b -> y <= t -> at_y a y < at_y b y -> at_y b t <= at_y a t ->
  exists z, y < z /\ z <= t /\ at_y a z = at_y b z /\ sl b < sl a /\ (at_y b t < at_y a t -> z < t).
Proof.
  intros Ga Gb YT H K. rewrite (at_y_move a y), (at_y_move b y) in K by auto.
  set (A := at_y a y) in *. set (B := at_y b y) in *. set (d := sl a - sl b).
  assert (Dp : 0 < d). { unfold d. destruct (qltb_spec 0 (sl a - sl b)) as [|N]; auto. exfalso. assert (sl a - sl b <= 0) by qlra. qnra. }
  exists (y + (B - A) / d). assert (Nd : d <> 0) by (intros E; rewrite E in Dp; qlra).
  assert (M := qdiv_mul (B - A) d Nd). assert (P : 0 < (B - A) / d) by (apply qdiv_pos; qlra).
  set (w := (B - A) / d) in *.
  split; [qlra|]. split; [|split; [|split]].
  - destruct (qleb_spec (y + w) t) as [|N]; auto. exfalso. assert (0 < (y + w - t) * d) by (apply qcmul_pos; qlra). unfold d in *. qnra.
  - rewrite (at_y_move a y), (at_y_move b y) by auto. fold A B. unfold d in *. qnra.
  - unfold d in Dp. qlra.
  - rewrite (at_y_move a y t), (at_y_move b y t) by auto. fold A B. intros S.
    destruct (qltb_spec (y + w) t) as [|N]; auto. exfalso.
    assert (0 <= (y + w - t) * d). { assert (0 <= y + w - t) by qlra. qnra. } unfold d in *. qnra.
Qed.

(** ** one step of order: from just after [pos] to just before [tgt] *)
Lemma adv_pair pos tgt a b : good a -> good b -> evlt pos tgt ->
  evle (lower a) pos -> evle (lower b) pos -> evle tgt (upper a) -> evle tgt (upper b) ->
  (forall m, ons a m -> ons b m -> sl a <> sl b -> evlt pos m -> evle tgt m) ->
  ordA pos a b -> ordB tgt a b.
Proof.
  intros Ga Gb PT La Lb Ua Ub NX H. set (y := snd pos) in *. set (t := snd tgt).
  assert (YT : y <= t). { unfold y, t. destruct PT as [P|(P & _)]; qlra. }
  assert (SA : forall z, y <= z -> z <= t -> ons a (at_y a z, z)) by (intros; eapply ons_span; eauto).
  assert (SB : forall z, y <= z -> z <= t -> ons b (at_y b z, z)) by (intros; eapply ons_span; eauto).
  unfold ordB, sord. fold t.
  destruct (qltb_spec (at_y a t) (at_y b t)) as [|N]; auto. right.
  assert (GE : at_y b t <= at_y a t) by qlra. clear N.
  destruct H as [H|(H & H')]; fold y in H.
  - (* apart at pos *)
    destruct (cross_between a b y t Ga Gb YT H GE) as (z & Z1 & Z2 & Z3 & Z4 & Z5).
    assert (NE : sl a <> sl b) by (intros E; rewrite E in Z4; qlra).
    assert (Oa := SA z ltac:(qlra) Z2). assert (Ob := SB z ltac:(qlra) Z2). rewrite <- Z3 in Ob.
    assert (EV : evle tgt (at_y a z, z)). { apply NX; auto. left. exact Z1. }
    assert (ZT : z = t). { destruct EV as [E|(E & _)]; cbn in E; fold t in E; qlra. }
    subst z. split; [congruence|]. left. unfold passB.
    destruct (qltb_spec (at_y a t) (fst tgt)) as [L|L]; auto. exfalso.
    destruct EV as [E|(_ & E)]; cbn in E; fold t in E; qlra.
  - fold y in H'. destruct H' as [H'|(E & S)].
    + unfold passA in H'. destruct (qleb_spec (at_y a y) (fst pos)) as [L|L].
      * (* passed: they diverge *)
        rewrite (at_y_move a y t), (at_y_move b y t) in GE by auto.
        assert (ET : t = y).
        { destruct (qeqb_spec t y) as [|N]; auto. exfalso. assert (y < t) by (destruct (qc_not_eq _ _ N); qlra).
          assert (0 < (sl b - sl a) * (t - y)) by (apply qcmul_pos; qlra). qnra. }
        rewrite ET in *. split; [auto|]. left. unfold passB.
        destruct (qltb_spec (at_y a y) (fst tgt)) as [L'|L']; auto. exfalso.
        destruct PT as [P|(_ & P)]; [fold y t in P; qlra|]. qlra.
      * assert (NE : sl a <> sl b) by (intros E; rewrite E in H'; qlra).
        assert (Oa := SA y ltac:(qlra) YT). assert (Ob := SB y ltac:(qlra) YT). rewrite <- H in Ob.
        assert (EV : evle tgt (at_y a y, y)). { apply NX; auto. right. cbn. split; auto. qlra. }
        assert (ET : t = y). { destruct EV as [E|(E & _)]; cbn in E; fold t in E; qlra. }
        rewrite ET in *. split; auto. left. unfold passB.
        destruct (qltb_spec (at_y a y) (fst tgt)) as [L'|L']; auto. exfalso.
        destruct EV as [E|(_ & E)]; cbn in E; fold t in E; qlra.
    + split; [|right; auto]. rewrite (at_y_move a y t), (at_y_move b y t) by auto. rewrite E, H. reflexivity.
Qed.

(** ** exactness of _nonparallel_intersection_point *)
Lemma nip_some a b p : nonparallel_intersection_point a b = Some p ->
  det (pt_sub (snd a) (fst a)) (pt_sub (snd b) (fst b)) <> 0 /\
  exists t u, 0 <= t /\ t <= 1 /\ 0 <= u /\ u <= 1 /\
    p = (fst (fst a) + t * (fst (snd a) - fst (fst a)), snd (fst a) + t * (snd (snd a) - snd (fst a))) /\
    p = (fst (fst b) + u * (fst (snd b) - fst (fst b)), snd (fst b) + u * (snd (snd b) - snd (fst b))).
Proof.
  unfold nonparallel_intersection_point. destruct (qeqb_spec (det (pt_sub (snd a) (fst a)) (pt_sub (snd b) (fst b))) 0) as [|N]; [discriminate|].
  set (dn := det (pt_sub (snd a) (fst a)) (pt_sub (snd b) (fst b))) in *.
  set (tn := det (pt_sub (snd b) (fst b)) (pt_sub (fst a) (fst b))).
  set (un := det (pt_sub (snd a) (fst a)) (pt_sub (fst a) (fst b))).
  intros H. split; auto.
  enough (exists d t u, d <> 0 /\ 0 < d /\ 0 <= t /\ t <= d /\ 0 <= u /\ u <= d /\
    (d = dn /\ t = tn /\ u = un \/ d = - dn /\ t = - tn /\ u = - un) /\
    p = (fst (fst a) + t / d * (fst (snd a) - fst (fst a)), snd (fst a) + t / d * (snd (snd a) - snd (fst a)))) as (d & t & u & Nd & Pd & T0 & T1 & U0 & U1 & C & E).
  { exists (t / d), (u / d). assert (ET := qdiv_mul t d Nd). assert (EU := qdiv_mul u d Nd).
    set (tt := t / d) in *. set (uu := u / d) in *.
    assert (0 <= tt) by (destruct (qleb_spec 0 tt) as [|X]; auto; exfalso; assert (tt < 0) by qlra; qnra).
    assert (tt <= 1) by (destruct (qleb_spec tt 1) as [|X]; auto; exfalso; assert (1 < tt) by qlra; assert (0 < (tt - 1) * d) by (apply qcmul_pos; qlra); qnra).
    assert (0 <= uu) by (destruct (qleb_spec 0 uu) as [|X]; auto; exfalso; assert (uu < 0) by qlra; qnra).
    assert (uu <= 1) by (destruct (qleb_spec uu 1) as [|X]; auto; exfalso; assert (1 < uu) by qlra; assert (0 < (uu - 1) * d) by (apply qcmul_pos; qlra); qnra).
    do 4 (split; [auto|]). split; [exact E|]. rewrite E.
    assert (EC : forall x y, x * d = y * d -> x = y).
    { intros x y X. assert (Z : (x - y) * d = 0) by (rewrite <- (Qcplus_opp_r (y * d)), <- X at 1; ring).
      apply Qcmult_integral in Z as [Z|Z]; [qlra|contradiction]. }
    assert (ET' : tt * d = t) by exact ET. assert (EU' : uu * d = u) by exact EU.
    f_equal; apply EC.
    - transitivity (fst (fst a) * d + t * (fst (snd a) - fst (fst a))); [rewrite <- ET'; ring|].
      transitivity (fst (fst b) * d + u * (fst (snd b) - fst (fst b))); [|rewrite <- EU'; ring].
      destruct C as [(-> & -> & ->)|(-> & -> & ->)]; unfold dn, tn, un, det, pt_sub; cbn [fst snd]; ring.
    - transitivity (snd (fst a) * d + t * (snd (snd a) - snd (fst a))); [rewrite <- ET'; ring|].
      transitivity (snd (fst b) * d + u * (snd (snd b) - snd (fst b))); [|rewrite <- EU'; ring].
      destruct C as [(-> & -> & ->)|(-> & -> & ->)]; unfold dn, tn, un, det, pt_sub; cbn [fst snd]; ring. }
  destruct (qltb_spec dn 0) as [L|L].
  - destruct ((qleb 0 (- tn) && qleb (- tn) (- dn)) && (qleb 0 (- un) && qleb (- un) (- dn))) eqn:B; [|discriminate].
    apply andb_true_iff in B as (B1 & B2). apply andb_true_iff in B1 as (B1 & B3). apply andb_true_iff in B2 as (B2 & B4).
    apply some_inv in H. exists (- dn), (- tn), (- un). rewrite qleb_le in *. subst p.
    split; [intros E; apply N; qlra|]. split; [qlra|]. do 4 (split; [auto|]). split; [right; auto|]. reflexivity.
  - destruct ((qleb 0 tn && qleb tn dn) && (qleb 0 un && qleb un dn)) eqn:B; [|discriminate].
    apply andb_true_iff in B as (B1 & B2). apply andb_true_iff in B1 as (B1 & B3). apply andb_true_iff in B2 as (B2 & B4).
    apply some_inv in H. exists dn, tn, un. rewrite qleb_le in *. subst p.
    split; [auto|]. split; [destruct (qc_not_eq _ _ N); qlra|]. do 4 (split; [auto|]). split; [left; auto|]. reflexivity.
Qed.
Lemma nip_complete a b t u :
  det (pt_sub (snd a) (fst a)) (pt_sub (snd b) (fst b)) <> 0 ->
  0 <= t -> t <= 1 -> 0 <= u -> u <= 1 ->
  (fst (fst a) + t * (fst (snd a) - fst (fst a)), snd (fst a) + t * (snd (snd a) - snd (fst a))) =
  (fst (fst b) + u * (fst (snd b) - fst (fst b)), snd (fst b) + u * (snd (snd b) - snd (fst b))) ->
  nonparallel_intersection_point a b =
    Some (fst (fst a) + t * (fst (snd a) - fst (fst a)), snd (fst a) + t * (snd (snd a) - snd (fst a))).
Proof.
  intros N T0 T1 U0 U1 E. apply pair_inv in E as (E1 & E2).
  unfold nonparallel_intersection_point. destruct (qeqb_spec (det (pt_sub (snd a) (fst a)) (pt_sub (snd b) (fst b))) 0) as [|_]; [contradiction|].
  set (dn := det (pt_sub (snd a) (fst a)) (pt_sub (snd b) (fst b))) in *.
  set (tn := det (pt_sub (snd b) (fst b)) (pt_sub (fst a) (fst b))).
  set (un := det (pt_sub (snd a) (fst a)) (pt_sub (fst a) (fst b))).
  assert (ET : tn = t * dn).
  { unfold tn, dn, det, pt_sub. cbn [fst snd].
    replace (fst (fst a) - fst (fst b)) with (u * (fst (snd b) - fst (fst b)) - t * (fst (snd a) - fst (fst a))) by (qlra).
    replace (snd (fst a) - snd (fst b)) with (u * (snd (snd b) - snd (fst b)) - t * (snd (snd a) - snd (fst a))) by (qlra). ring. }
  assert (EU : un = u * dn).
  { unfold un, dn, det, pt_sub. cbn [fst snd].
    replace (fst (fst a) - fst (fst b)) with (u * (fst (snd b) - fst (fst b)) - t * (fst (snd a) - fst (fst a))) by (qlra).
    replace (snd (fst a) - snd (fst b)) with (u * (snd (snd b) - snd (fst b)) - t * (snd (snd a) - snd (fst a))) by (qlra). ring. }
  rewrite ET, EU. clearbody dn. clear tn un ET EU.
  assert (G : forall d, 0 < d -> (qleb 0 (t * d) && qleb (t * d) d) && (qleb 0 (u * d) && qleb (u * d) d) = true).
  { intros d D. rewrite !andb_true_iff, !qleb_le. split; split; qnra. }
  assert (EQ : forall d, d <> 0 -> t * d / d = t) by (intros; field; auto).
  destruct (qltb_spec dn 0) as [L|L].
  - replace (- (t * dn)) with (t * - dn) by ring. replace (- (u * dn)) with (u * - dn) by ring.
    rewrite G by qlra. rewrite EQ by (intros X; apply N; qlra). reflexivity.
  - rewrite G by (destruct (qc_not_eq _ _ N); qlra). rewrite EQ by auto. reflexivity.
Qed.

(** parametric and by-level descriptions of a non-horizontal segment *)
Lemma ons_param s p : good s -> ons s p <-> exists t, 0 <= t /\ t <= 1 /\
  p = (fst (fst s) + t * (fst (snd s) - fst (fst s)), snd (fst s) + t * (snd (snd s) - snd (fst s))).
Proof.
  intros G. assert (M := sl_mul s G). assert (GN := good_ne s G).
  assert (ENDS : snd (lower s) <= snd p /\ snd p <= snd (upper s) <->
    (snd (fst s) <= snd p /\ snd p <= snd (snd s)) \/ (snd (snd s) <= snd p /\ snd p <= snd (fst s))).
  { unfold lower, upper. destruct (ev_ltb_spec (fst s) (snd s)) as [[L|(L & _)]|L].
    - split; [auto|]. intros [H|(H & K)]; auto. exfalso; qlra.
    - contradiction.
    - apply ev_nlt in L as [L|(L & _)]; [|now elim G]. split; [auto|]. intros [(H & K)|H]; auto. exfalso; qlra. }
  split.
  - intros (A & B). apply ENDS in B. rewrite at_y_aff in A by auto.
    exists ((snd p - snd (fst s)) / (snd (snd s) - snd (fst s))).
    assert (E := qdiv_mul (snd p - snd (fst s)) _ GN). set (t := _ / _) in *.
    set (dy := snd (snd s) - snd (fst s)) in *. assert (DY : 0 < dy \/ dy < 0) by (destruct (qc_not_eq _ _ GN); auto).
    split; [|split].
    + destruct (qleb_spec 0 t) as [|X]; auto. exfalso. assert (0 < - t) by qlra. unfold dy in *. destruct DY as [D|D]; destruct B as [(B & B')|(B & B')]; try (exfalso; qlra).
      * assert (0 < - t * dy) by (apply qcmul_pos; auto). unfold dy in *. qlra.
      * assert (0 < - t * - dy) by (apply qcmul_pos; unfold dy; qlra). unfold dy in *. qlra.
    + destruct (qleb_spec t 1) as [|X]; auto. exfalso. assert (0 < t - 1) by qlra. unfold dy in *. destruct DY as [D|D]; destruct B as [(B & B')|(B & B')]; try (exfalso; qlra).
      * assert (0 < (t - 1) * dy) by (apply qcmul_pos; auto). unfold dy in *. qlra.
      * assert (0 < (t - 1) * - dy) by (apply qcmul_pos; unfold dy; qlra). unfold dy in *. qlra.
    + apply pt_eq; cbn.
      * rewrite <- A, <- M. fold dy. rewrite <- E. ring.
      * fold dy. rewrite E. ring.
  - intros (t & T0 & T1 & ->). split.
    + cbn [fst snd]. rewrite at_y_aff by auto. rewrite <- M. ring.
    + apply ENDS. cbn [fst snd]. set (dy := snd (snd s) - snd (fst s)) in *.
      assert (DY : 0 < dy \/ dy < 0) by (destruct (qc_not_eq _ _ GN); auto).
      assert (snd (snd s) = snd (fst s) + dy) by (unfold dy; ring). rewrite H. clearbody dy. destruct DY; [left|right]; split; qnra.
Qed.
Lemma sl_det a b : good a -> good b -> sl a = sl b <-> det (pt_sub (snd a) (fst a)) (pt_sub (snd b) (fst b)) = 0.
Proof.
  intros Ga Gb. unfold det, pt_sub. cbn [fst snd]. rewrite <- (sl_mul a Ga), <- (sl_mul b Gb).
  assert (Na := good_ne a Ga). assert (Nb := good_ne b Gb).
  set (ya := snd (snd a) - snd (fst a)) in *. set (yb := snd (snd b) - snd (fst b)) in *.
  split; [intros ->; ring|]. intros E. assert (Z : (sl a - sl b) * (ya * yb) = 0) by (rewrite <- E; ring).
  apply Qcmult_integral in Z as [Z|Z]; [qlra|]. apply Qcmult_integral in Z as [Z|Z]; contradiction.
Qed.
Lemma nip_ons a b p : good a -> good b ->
  nonparallel_intersection_point a b = Some p <-> sl a <> sl b /\ ons a p /\ ons b p.
Proof.
  intros Ga Gb. split.
  - intros H. apply nip_some in H as (N & t & u & T0 & T1 & U0 & U1 & E1 & E2).
    split; [|split].
    + intros E. now apply N, sl_det.
    + apply ons_param; auto. eauto.
    + apply ons_param; auto. eauto.
  - intros (N & Oa & Ob). apply ons_param in Oa as (t & T0 & T1 & E1); auto. apply ons_param in Ob as (u & U0 & U1 & E2); auto.
    rewrite E1. apply (nip_complete a b t u); auto; [|congruence]. intros E. now apply N, sl_det.
Qed.
(** two non-parallel segments have at most one common point *)
Lemma meet_once a b p q : good a -> good b -> sl a <> sl b -> ons a p -> ons b p -> ons a q -> ons b q -> p = q.
Proof.
  intros Ga Gb N A B C D.
  assert (X := proj2 (nip_ons a b p Ga Gb) (conj N (conj A B))). assert (Y := proj2 (nip_ons a b q Ga Gb) (conj N (conj C D))).
  rewrite X in Y. now apply some_inv in Y.
Qed.
