(** * The ring around one of its boundary points *)
From Verif.Model Require Import Geom2d.
From Verif.Spec Require Import Plane Region.
From Verif.Proofs Require Import PyP PolyP WindingP WindingQ WindingR NearP ReachP.

(** ** Small parameters *)
Lemma forall_small {X} (P : X -> Qc -> Prop) l : (forall x, In x l -> exists e, 0 < e /\ forall t, 0 < t -> t <= e -> P x t) ->
  exists e, 0 < e /\ forall x t, In x l -> 0 < t -> t <= e -> P x t.
Proof.
  induction l as [|x l IH]; intros H; [exists 1; split; [qlra|intros ? ? []]|].
  destruct IH as (e1 & E1 & H1); [intros; apply H; cbn; auto|]. destruct (H x) as (e2 & E2 & H2); [cbn; auto|].
  exists (qmin e1 e2). unfold qmin. destruct (qleb_spec e1 e2); (split; [auto|]); intros y t [<-|Hy] T1 T2;
    first [apply H2; auto; qlra|apply H1; auto; qlra].
Qed.
Definition pt2 (b u a : point) (x y : Qc) : point := vadd b (vadd (vscale x u) (vscale y a)).
Lemma lin_pos2 c w1 w2 : 0 < c -> exists e, 0 < e /\ forall x y, 0 <= x -> x <= e -> 0 <= y -> y <= e -> 0 < c + x * w1 + y * w2.
Proof.
  intros C. destruct (lin_pos (c * qq 1 2) w1) as (e1 & E1 & H1); [qlra|]. destruct (lin_pos (c * qq 1 2) w2) as (e2 & E2 & H2); [qlra|].
  exists (qmin e1 e2). unfold qmin. destruct (qleb_spec e1 e2); (split; [auto|]); intros x y X0 X1 Y0 Y1;
    (assert (A1 := H1 x X0 ltac:(qlra)); assert (A2 := H2 y Y0 ltac:(qlra)); qlra).
Qed.
Lemma off_cases a b p : ~ on_seg (a, b) p -> 0 < orient a b p \/ orient a b p < 0 \/
  (fst p < fst a /\ fst p < fst b) \/ (fst a < fst p /\ fst b < fst p) \/ (snd p < snd a /\ snd p < snd b) \/ (snd a < snd p /\ snd b < snd p).
Proof.
  intros N. rewrite on_seg_iff in N. unfold WindingP.between in N.
  destruct (qltb_spec 0 (orient a b p)); auto. destruct (qltb_spec (orient a b p) 0); auto. right. right.
  assert (orient a b p = 0) by qlra.
  destruct (qltb_spec (fst p) (fst a)), (qltb_spec (fst p) (fst b)), (qltb_spec (fst a) (fst p)), (qltb_spec (fst b) (fst p)); auto;
  destruct (qltb_spec (snd p) (snd a)), (qltb_spec (snd p) (snd b)), (qltb_spec (snd a) (snd p)), (qltb_spec (snd b) (snd p)); auto;
    exfalso; apply N; (split; [auto|]); split; first [left; split; qlra | right; split; qlra].
Qed.
Lemma seg_away2 s p u a : ~ on_seg s p -> exists e, 0 < e /\ forall x y, 0 <= x -> x <= e -> 0 <= y -> y <= e -> ~ on_seg s (pt2 p u a x y).
Proof.
  intros N. destruct s as [v w].
  assert (K1 : forall f : point -> Qc, (forall x y, f (pt2 p u a x y) = f p + x * (f u - f (0, 0)) + y * (f a - f (0, 0))) -> (forall q, on_seg (v, w) q -> f q <= 0) -> 0 < f p ->
     exists e, 0 < e /\ forall x y, 0 <= x -> x <= e -> 0 <= y -> y <= e -> ~ on_seg (v, w) (pt2 p u a x y)).
  { intros f F L P. destruct (lin_pos2 (f p) (f u - f (0, 0)) (f a - f (0, 0)) P) as (e & E & H). exists e. split; auto.
    intros x y X0 X1 Y0 Y1 O. apply L in O. rewrite F in O. specialize (H x y X0 X1 Y0 Y1). qlra. }
  assert (L0 : forall q, on_seg (v, w) q -> orient v w q = 0 /\ WindingP.between (fst v) (fst q) (fst w) /\ WindingP.between (snd v) (snd q) (snd w)) by (intros q; apply on_seg_iff).
  destruct (off_cases _ _ _ N) as [C|[C|[(C & C')|[(C & C')|[(C & C')|(C & C')]]]]].
  - apply (K1 (orient v w)); auto.
    + intros. destruct p, u, a, v, w. unfold pt2, orient, cross, vsub, vadd, vscale. cbn [fst snd]. ring.
    + intros q Q. apply L0 in Q as (Q & _). rewrite Q. qlra.
  - apply (K1 (fun q => - orient v w q)); [| |qlra].
    + intros. destruct p, u, a, v, w. unfold pt2, orient, cross, vsub, vadd, vscale. cbn [fst snd]. ring.
    + intros q Q. apply L0 in Q as (Q & _). rewrite Q. qlra.
  - set (m := qmin (fst v) (fst w)). apply (K1 (fun q => m - fst q)).
    + intros. destruct p, u, a. unfold pt2, vadd, vscale. cbn [fst snd]. ring.
    + intros q Q. apply L0 in Q as (_ & Q & _). unfold m, qmin, WindingP.between in *. destruct (qleb_spec (fst v) (fst w)); destruct Q as [(? & ?)|(? & ?)]; qlra.
    + unfold m, qmin. destruct (qleb_spec (fst v) (fst w)); qlra.
  - set (m := qmax (fst v) (fst w)). apply (K1 (fun q => fst q - m)).
    + intros. destruct p, u, a. unfold pt2, vadd, vscale. cbn [fst snd]. ring.
    + intros q Q. apply L0 in Q as (_ & Q & _). unfold m, qmax, WindingP.between in *. destruct (qleb_spec (fst v) (fst w)); destruct Q as [(? & ?)|(? & ?)]; qlra.
    + unfold m, qmax. destruct (qleb_spec (fst v) (fst w)); qlra.
  - set (m := qmin (snd v) (snd w)). apply (K1 (fun q => m - snd q)).
    + intros. destruct p, u, a. unfold pt2, vadd, vscale. cbn [fst snd]. ring.
    + intros q Q. apply L0 in Q as (_ & _ & Q). unfold m, qmin, WindingP.between in *. destruct (qleb_spec (snd v) (snd w)); destruct Q as [(? & ?)|(? & ?)]; qlra.
    + unfold m, qmin. destruct (qleb_spec (snd v) (snd w)); qlra.
  - set (m := qmax (snd v) (snd w)). apply (K1 (fun q => snd q - m)).
    + intros. destruct p, u, a. unfold pt2, vadd, vscale. cbn [fst snd]. ring.
    + intros q Q. apply L0 in Q as (_ & _ & Q). unfold m, qmax, WindingP.between in *. destruct (qleb_spec (snd v) (snd w)); destruct Q as [(? & ?)|(? & ?)]; qlra.
    + unfold m, qmax. destruct (qleb_spec (snd v) (snd w)); qlra.
Qed.
Lemma segs_away2 (S : list segment) p u a : (forall s, In s S -> ~ on_seg s p) ->
  exists e, 0 < e /\ forall s x y, In s S -> 0 <= x -> x <= e -> 0 <= y -> y <= e -> ~ on_seg s (pt2 p u a x y).
Proof.
  induction S as [|s S IH]; intros H; [exists 1; split; [qlra|intros ? ? ? []]|].
  destruct IH as (e1 & E1 & H1); [intros; apply H; cbn; auto|]. destruct (seg_away2 s p u a) as (e2 & E2 & H2); [apply H; cbn; auto|].
  exists (qmin e1 e2). unfold qmin. destruct (qleb_spec e1 e2); (split; [auto|]); intros r x y [<-|Hr] X0 X1 Y0 Y1;
    first [apply H2; auto; qlra|apply H1; auto; qlra].
Qed.

(** ** The jump of the winding number at a boundary point that is no vertex *)
Lemma ring_on_boundary r s p : In s (edges_iter r) -> on_seg s p -> on_boundary r p.
Proof. intros H O. exists s. split; auto. now apply is_edge_iter. Qed.
Definition hits (x : point) (n : point) (s : segment) : Z := if hit x s then sgn (cross (vsub (snd s) (fst s)) n) else 0%Z.
Lemma hit_on x s : x <> fst s -> (hit x s = true <-> on_seg s x).
Proof. intros N. split; [apply hit_sound|]. intros O. apply hit_complete in O as [O|O]; congruence. Qed.
Lemma sgn_mul_pos t x : 0 < t -> sgn (t * x) = sgn x.
Proof. intros T. destruct (sgn_cases x) as [[A ->]|[[A ->]|[A ->]]]; [apply sgn_pos; qnra|subst; replace (t * 0) with 0 by ring; reflexivity|apply sgn_neg; qnra]. Qed.

Lemma lin_two f w : f <> 0 -> exists e, 0 < e /\ forall t, 0 < t -> t <= e -> sgn (f + t * w) = sgn f /\ sgn (f + - t * w) = sgn f.
Proof.
  intros N. destruct (qc_not_eq _ _ N) as [L|L].
  - destruct (lin_pos2 (- f) (- w) w) as (e & E & H); [qlra|]. exists e. split; auto. intros t T0 T1.
    assert (X1 := H t 0 ltac:(qlra) ltac:(qlra) ltac:(qlra) ltac:(qlra)). assert (X2 := H 0 t ltac:(qlra) ltac:(qlra) ltac:(qlra) ltac:(qlra)).
    rewrite !sgn_neg by qlra. auto.
  - destruct (lin_pos2 f (- w) w) as (e & E & H); [qlra|]. exists e. split; auto. intros t T0 T1.
    assert (X1 := H t 0 ltac:(qlra) ltac:(qlra) ltac:(qlra) ltac:(qlra)). assert (X2 := H 0 t ltac:(qlra) ltac:(qlra) ltac:(qlra) ltac:(qlra)).
    rewrite !sgn_pos by qlra. auto.
Qed.
Lemma sgn_ne0 q r : sgn q = sgn r -> r <> 0 -> q <> 0.
Proof. intros E N ->. destruct (sgn_cases r) as [[A B]|[[A B]|[A B]]]; [|tauto|]; rewrite B in E; discriminate. Qed.
Lemma orient_step a b x n t : orient a b (vadd x (vscale t n)) = orient a b x + t * cross (vsub b a) n.
Proof. destruct a, b, x, n. unfold orient, cross, vadd, vscale, vsub. cbn [fst snd]. ring. Qed.
(** one edge: the indicator of the triangle over it *)
Lemma tri_jump o a b x n : x <> a -> x <> b -> orient o a x <> 0 -> orient b o x <> 0 ->
  (on_seg (a, b) x -> cross (vsub b a) n <> 0) ->
  exists e, 0 < e /\ forall t, 0 < t -> t <= e -> let p := vadd x (vscale t n) in let q := vadd x (vscale (- t) n) in
    ~ on_seg (a, b) p /\ ~ on_seg (a, b) q /\ ~ on_seg (o, a) p /\ ~ on_seg (o, a) q /\
    (tri_ind o a b p - tri_ind o a b q = hits x n (a, b))%Z.
Proof.
  intros Na Nb Oa Ob C.
  destruct (lin_two (orient o a x) (cross (vsub a o) n) Oa) as (e1 & E1 & H1).
  destruct (lin_two (orient b o x) (cross (vsub o b) n) Ob) as (e2 & E2 & H2).
  assert (H3 : exists e, 0 < e /\ forall t, 0 < t -> t <= e -> ~ on_seg (a, b) (vadd x (vscale t n)) /\ ~ on_seg (a, b) (vadd x (vscale (- t) n)) /\
     (sgn (orient o a (vadd x (vscale t n))) = sgn (orient o a x) -> sgn (orient o a (vadd x (vscale (- t) n))) = sgn (orient o a x) ->
      sgn (orient b o (vadd x (vscale t n))) = sgn (orient b o x) -> sgn (orient b o (vadd x (vscale (- t) n))) = sgn (orient b o x) ->
      (tri_ind o a b (vadd x (vscale t n)) - tri_ind o a b (vadd x (vscale (- t) n)) = hits x n (a, b))%Z)).
  { unfold hits. destruct (hit x (a, b)) eqn:Hh.
    - pose proof (hit_sound _ _ Hh) as O. specialize (C O). exists 1. split; [qlra|]. intros t T0 T1.
      assert (Oab : orient a b x = 0) by (apply on_seg_iff in O; apply O).
      assert (P : orient a b (vadd x (vscale t n)) = t * cross (vsub b a) n) by (rewrite orient_step, Oab; ring).
      assert (Q : orient a b (vadd x (vscale (- t) n)) = - (t * cross (vsub b a) n)) by (rewrite orient_step, Oab; ring).
      assert (N : t * cross (vsub b a) n <> 0) by (intros E; apply Qcmult_integral in E as [E|E]; [qlra|tauto]).
      split; [intros S; apply on_seg_iff in S as (S & _); congruence|].
      split; [intros S; apply on_seg_iff in S as (S & _); apply N; qlra|].
      intros S1 S2 S3 S4. unfold tri_ind. rewrite S1, S2, S3, S4, P, Q, sgn_opp, (sgn_mul_pos t) by auto. cbn [fst snd].
      destruct O as (u & U0 & U1 & Ex). set (D := orient o a b).
      assert (X1 : orient o a x = u * D) by (rewrite Ex, at_t_lin; unfold D; destruct o, a, b; unfold orient, cross, vsub; cbn [fst snd]; ring).
      assert (X2 : orient b o x = (1 - u) * D) by (rewrite Ex, at_t_lin; unfold D; destruct o, a, b; unfold orient, cross, vsub; cbn [fst snd]; ring).
      assert (0 < u). { destruct (qeqb_spec u 0) as [->|Nu]; [|destruct (qc_not_eq _ _ Nu); qlra]. exfalso. apply Oa. rewrite X1. ring. }
      assert (u < 1). { destruct (qeqb_spec u 1) as [->|Nu]; [|destruct (qc_not_eq _ _ Nu); qlra]. exfalso. apply Ob. rewrite X2. ring. }
      rewrite X1, X2, (sgn_mul_pos u), (sgn_mul_pos (1 - u)) by qlra.
      assert (D <> 0) by (intros E; apply Oa; rewrite X1, E; ring).
      destruct (sgn_cases D) as [[D1 ->]|[[D1 D2]|[D1 ->]]]; [|tauto|];
        (destruct (sgn_cases (cross (vsub b a) n)) as [[C1 ->]|[[C1 C2]|[C1 ->]]]; [|tauto|]); reflexivity.
    - assert (NO : ~ on_seg (a, b) x). { intros O. apply hit_complete in O as [O|O]; cbn [fst] in *; congruence. }
      destruct (seg_away2 (a, b) x n (vscale (- (1)) n) NO) as (e & E & A).
      assert (A' : forall t, 0 < t -> t <= e -> ~ on_seg (a, b) (vadd x (vscale t n)) /\ ~ on_seg (a, b) (vadd x (vscale (- t) n))).
      { intros t T0 T1. split; intros S.
        - apply (A t 0); try qlra. replace (pt2 x n (vscale (- (1)) n) t 0) with (vadd x (vscale t n)); auto.
          destruct x, n. unfold pt2, vadd, vscale. cbn [fst snd]. f_equal; ring.
        - apply (A 0 t); try qlra. replace (pt2 x n (vscale (- (1)) n) 0 t) with (vadd x (vscale (- t) n)); auto.
          destruct x, n. unfold pt2, vadd, vscale. cbn [fst snd]. f_equal; ring. }
      destruct (qeqb_spec (orient a b x) 0) as [Z0|Z0].
      + exists e. split; auto. intros t T0 T1. destruct (A' t T0 T1) as (A1 & A2). split; auto. split; auto. intros S1 S2 S3 S4.
        assert (DD : sgn (orient o a x) <> sgn (orient b o x)).
        { intros EQ. apply NO.
          assert (SUM : orient o a x + orient b o x = orient o a b) by (transitivity (orient o a x + orient a b x + orient b o x); [rewrite Z0; ring|destruct o, a, b, x; unfold orient, cross, vsub; cbn [fst snd]; ring]).
          assert (DN : orient o a b <> 0). { rewrite <- SUM. destruct (sgn_cases (orient o a x)) as [[B1 B2]|[[B1 B2]|[B1 B2]]], (sgn_cases (orient b o x)) as [[B3 B4]|[[B3 B4]|[B3 B4]]]; try tauto; rewrite B2, B4 in EQ; try discriminate; intros X; qlra. }
          pose proof (qdiv_mul (orient o a x) (orient o a b) DN) as M. set (u := orient o a x / orient o a b) in *. exists u.
          assert (U : 0 <= u /\ u <= 1).
          { assert (ED : orient o a b = orient o a x - - orient b o x) by (rewrite <- SUM; ring). unfold u. rewrite ED. apply frac01; [|rewrite <- ED; auto].
            destruct (sgn_cases (orient o a x)) as [[B1 B2]|[[B1 B2]|[B1 B2]]], (sgn_cases (orient b o x)) as [[B3 B4]|[[B3 B4]|[B3 B4]]]; try tauto; rewrite B2, B4 in EQ; try discriminate; [left|right]; split; qlra. }
          destruct U as (U0 & U1). split; auto. split; auto. rewrite at_t_lin. clearbody u.
          assert (M1 : orient o a x = u * orient o a b) by qlra. assert (M2 : orient b o x = (1 - u) * orient o a b) by qlra.
          assert (I1 : orient o a b * fst x = orient b o x * fst a + orient o a x * fst b + orient a b x * fst o) by (destruct o, a, b, x; unfold orient, cross, vsub; cbn [fst snd]; ring).
          assert (I2 : orient o a b * snd x = orient b o x * snd a + orient o a x * snd b + orient a b x * snd o) by (destruct o, a, b, x; unfold orient, cross, vsub; cbn [fst snd]; ring).
          rewrite Z0, M1, M2 in I1, I2. destruct x as [x1 x2]. cbn [fst snd] in *. set (D := orient o a b) in *. clearbody D.
          f_equal; [assert (D * (x1 - ((1 - u) * fst a + u * fst b)) = 0) as X by (transitivity (D * x1 - ((1 - u) * D * fst a + u * D * fst b + 0 * fst o)); [ring|rewrite I1; ring])|assert (D * (x2 - ((1 - u) * snd a + u * snd b)) = 0) as X by (transitivity (D * x2 - ((1 - u) * D * snd a + u * D * snd b + 0 * snd o)); [ring|rewrite I2; ring])];
            apply Qcmult_integral in X as [X|X]; [tauto|qlra|tauto|qlra]. }
        unfold tri_ind. rewrite S1, S2, S3, S4.
        assert (forall y, (if ((sgn (orient o a x) =? y) && (sgn (orient o a x) =? sgn (orient b o x)))%Z then sgn (orient o a x) else 0%Z) = 0%Z) as K.
        { intros y. destruct (Z.eqb_spec (sgn (orient o a x)) (sgn (orient b o x))); [tauto|]. rewrite andb_false_r. reflexivity. }
        rewrite !K. reflexivity.
      + destruct (lin_two (orient a b x) (cross (vsub b a) n) Z0) as (e' & E' & H'). exists (qmin e e').
        assert (qmin e e' <= e /\ qmin e e' <= e' /\ 0 < qmin e e') as (M1 & M2 & M3) by (unfold qmin; destruct (qleb_spec e e'); repeat split; qlra).
        split; auto. intros t T0 T1. destruct (A' t T0 ltac:(qlra)) as (A1 & A2). split; auto. split; auto. intros S1 S2 S3 S4.
        destruct (H' t T0 ltac:(qlra)) as (S5 & S6). rewrite <- !orient_step in S5, S6. unfold tri_ind. rewrite S1, S2, S3, S4, S5, S6. lia. }
  destruct H3 as (e3 & E3 & H3). exists (qmin e1 (qmin e2 e3)).
  assert (qmin e1 (qmin e2 e3) <= e1 /\ qmin e1 (qmin e2 e3) <= e2 /\ qmin e1 (qmin e2 e3) <= e3 /\ 0 < qmin e1 (qmin e2 e3)) as (M1 & M2 & M3 & M4)
    by (unfold qmin; destruct (qleb_spec e2 e3); [destruct (qleb_spec e1 e2)|destruct (qleb_spec e1 e3)]; repeat split; qlra).
  split; auto. intros t T0 T1. cbv zeta. destruct (H1 t T0 ltac:(qlra)) as (S1 & S2). destruct (H2 t T0 ltac:(qlra)) as (S3 & S4).
  rewrite <- !orient_step in S1, S2, S3, S4. destruct (H3 t T0 ltac:(qlra)) as (A1 & A2 & A3).
  split; auto. split; auto. split; [|split].
  - intros S. apply on_seg_iff in S as (S & _). exact (sgn_ne0 _ _ S1 Oa S).
  - intros S. apply on_seg_iff in S as (S & _). exact (sgn_ne0 _ _ S2 Oa S).
  - apply A3; auto.
Qed.
Lemma jump r x n : (forall v, In v r -> v <> x) ->
  (forall s, In s (edges_iter r) -> on_seg s x -> cross (vsub (snd s) (fst s)) n <> 0) ->
  exists e, 0 < e /\ forall t, 0 < t -> t <= e -> let p := vadd x (vscale t n) in let q := vadd x (vscale (- t) n) in
    ~ on_boundary r p /\ ~ on_boundary r q /\ (wsum p r - wsum q r = -2 * zsum (hits x n) (edges_iter r))%Z.
Proof.
  intros V C. destruct (generic_dir (map (fun v => (x, v)) r)) as (m & M). set (o := vadd x (1, m)).
  assert (O : forall v, In v r -> orient o v x <> 0).
  { intros v Hv E. apply (M (x, v)); [apply in_map_iff; eauto|cbn [fst snd]; intros E'; apply (V v Hv); auto|]. cbn [fst snd]. rewrite <- E.
    unfold o. destruct x, v. unfold orient, cross, vsub, vadd. cbn [fst snd]. ring. }
  assert (IN : forall s, In s (edges_iter r) -> In (fst s) r /\ In (snd s) r).
  { intros s Hs. apply pedges_in, is_edge_pedges, is_edge_iter, Hs. }
  destruct (forall_small (fun s t => let p := vadd x (vscale t n) in let q := vadd x (vscale (- t) n) in
    ~ on_seg s p /\ ~ on_seg s q /\ ~ on_seg (o, fst s) p /\ ~ on_seg (o, fst s) q /\
    (tri_ind o (fst s) (snd s) p - tri_ind o (fst s) (snd s) q = hits x n s)%Z) (edges_iter r)) as (e & E & H).
  { intros [a b] Hs. destruct (IN _ Hs) as (Ha & Hb). cbn [fst snd] in *. apply tri_jump; auto.
    - intros X. exact (V a Ha (eq_sym X)).
    - intros X. exact (V b Hb (eq_sym X)).
    - intros X. apply (O b Hb). rewrite orient_rev, X. ring.
    - apply (C _ Hs). }
  exists e. split; auto. intros t T0 T1. cbv zeta in *.
  assert (B : ~ on_boundary r (vadd x (vscale t n)) /\ ~ on_boundary r (vadd x (vscale (- t) n))).
  { split; intros (s & Hs & S); apply is_edge_iter in Hs; destruct (H s t Hs T0 T1) as (A1 & A2 & _); auto. }
  destruct B as (B1 & B2). split; auto. split; auto.
  assert (G : generic_apex r o (vadd x (vscale t n)) /\ generic_apex r o (vadd x (vscale (- t) n))).
  { split; intros v Hv S; destruct (pedges_of r v Hv) as (w & Hw); apply is_edge_pedges, is_edge_iter in Hw; destruct (H _ t Hw T0 T1) as (_ & _ & A3 & A4 & _); cbn [fst] in *; auto. }
  destruct G as (G1 & G2). rewrite (wsum_fan o r _ B1 G1), (wsum_fan o r _ B2 G2).
  assert (fan_winding o r (vadd x (vscale t n)) - fan_winding o r (vadd x (vscale (- t) n)) = zsum (hits x n) (edges_iter r))%Z; [|lia].
  unfold fan_winding. change (cyclic_pairs r) with (edges_iter r). clear -H T0 T1.
  induction (edges_iter r) as [|s l IH]; [reflexivity|]. cbn [zsum]. destruct (H s t ltac:(cbn; auto) T0 T1) as (_ & _ & _ & _ & K).
  rewrite <- K. assert (forall s t, In s l -> 0 < t -> t <= e -> ~ on_seg s (vadd x (vscale t n)) /\ ~ on_seg s (vadd x (vscale (- t) n)) /\ ~ on_seg (o, fst s) (vadd x (vscale t n)) /\ ~ on_seg (o, fst s) (vadd x (vscale (- t) n)) /\
    (tri_ind o (fst s) (snd s) (vadd x (vscale t n)) - tri_ind o (fst s) (snd s) (vadd x (vscale (- t) n)) = hits x n s)%Z) as H' by (intros; apply H; cbn; auto).
  specialize (IH H'). lia.
Qed.

(** ** The first edge met when turning counter-clockwise around a boundary point *)
Lemma vec_id x y k : vadd x (vscale k y) = x -> k <> 0 -> y = (0, 0).
Proof.
  destruct x as [x1 x2], y as [y1 y2]. unfold vadd, vscale. cbn [fst snd]. intros E K. apply pair_inv in E as (E1 & E2).
  assert (A : k * y1 = 0) by qlra. assert (B : k * y2 = 0) by qlra. apply Qcmult_integral in A as [A|A]; [tauto|]. apply Qcmult_integral in B as [B|B]; [tauto|]. congruence.
Qed.
Lemma arm_of v0 v1 b w : on_seg (v0, v1) b -> on_seg (v0, v1) (vadd b w) -> w <> (0, 0) ->
  exists k, k <> 0 /\ w = vscale k (vsub v1 v0) /\
    ((0 < k /\ exists m, 0 < m /\ vsub v1 b = vscale m w) \/ (k < 0 /\ exists m, 0 < m /\ vsub v0 b = vscale m w)).
Proof.
  intros (t1 & A0 & A1 & E1) (t2 & B0 & B1 & E2) N. exists (t2 - t1).
  assert (W : w = vscale (t2 - t1) (vsub v1 v0)).
  { rewrite E1 in E2. destruct w as [w1 w2], v0 as [x0 y0], v1 as [x1 y1]. unfold at_t, vadd, vscale, vsub in *. cbn [fst snd] in *. apply pair_inv in E2 as (E2 & E3). f_equal; qlra. }
  assert (K : t2 - t1 <> 0). { intros K. apply N. rewrite W, K. unfold vscale. f_equal; ring. }
  split; auto. split; auto. destruct (qc_not_eq _ _ K) as [L|L].
  - right. split; auto. exists (t1 / (t1 - t2)). assert (Nd : t1 - t2 <> 0) by (intros X; qlra).
    pose proof (qdiv_mul t1 (t1 - t2) Nd) as M. set (m := t1 / (t1 - t2)) in *. clearbody m.
    split; [destruct (qltb_spec 0 m); auto; exfalso; qnra|]. rewrite W, E1. clear -M.
    destruct v0 as [x0 y0], v1 as [x1 y1]. unfold at_t, vadd, vscale, vsub. cbn [fst snd]. f_equal.
    + transitivity (- (m * (t1 - t2)) * (x1 - x0)); [rewrite M; ring|ring].
    + transitivity (- (m * (t1 - t2)) * (y1 - y0)); [rewrite M; ring|ring].
  - left. split; auto. exists ((1 - t1) / (t2 - t1)). pose proof (qdiv_mul (1 - t1) (t2 - t1) K) as M. set (m := (1 - t1) / (t2 - t1)) in *. clearbody m.
    split; [destruct (qltb_spec 0 m); auto; exfalso; qnra|]. rewrite W, E1. clear -M.
    destruct v0 as [x0 y0], v1 as [x1 y1]. unfold at_t, vadd, vscale, vsub. cbn [fst snd]. f_equal.
    + transitivity (m * (t2 - t1) * (x1 - x0)); [rewrite M; ring|ring].
    + transitivity (m * (t2 - t1) * (y1 - y0)); [rewrite M; ring|ring].
Qed.
Lemma on_seg_conv s b z t : on_seg s b -> on_seg s z -> 0 <= t -> t <= 1 -> on_seg s (vadd b (vscale t (vsub z b))).
Proof.
  intros (t1 & A0 & A1 & ->) (t2 & B0 & B1 & ->) T0 T1. exists ((1 - t) * t1 + t * t2). split; [qnra|]. split; [qnra|].
  destruct s as [[x0 y0] [x1 y1]]. unfold at_t, vadd, vscale, vsub. cbn [fst snd]. f_equal; ring.
Qed.
Lemma best {X} (key : X -> Qc) l x0 : In x0 l -> exists x, In x l /\ forall y, In y l -> key y <= key x.
Proof.
  revert x0. induction l as [|a l IH]; intros x0 [].
  - subst a. destruct l as [|b l]; [exists x0; split; [cbn; auto|]; intros y [<-|[]]; qlra|].
    destruct (IH b) as (x & Hx & H); [cbn; auto|]. destruct (qleb_spec (key x) (key x0)).
    + exists x0. split; [left; reflexivity|]. intros y [<-|Hy]; [qlra|]. specialize (H y Hy). qlra.
    + exists x. split; [right; exact Hx|]. intros y [<-|Hy]; [qlra|auto].
  - destruct (IH x0 H) as (x & Hx & K). destruct (qleb_spec (key x) (key a)).
    + exists a. split; [left; reflexivity|]. intros y [<-|Hy]; [qlra|]. specialize (K y Hy). qlra.
    + exists x. split; [right; exact Hx|]. intros y [<-|Hy]; [qlra|auto].
Qed.
Lemma zsum_pos_ex {X} (f : X -> Z) l : (0 <= zsum f l)%Z -> (exists x, In x l /\ f x <> 0%Z) -> exists x, In x l /\ (0 < f x)%Z.
Proof.
  induction l as [|a l IH]; cbn [zsum]; intros S (x & Hx & N); [destruct Hx|].
  destruct (Z.lt_trichotomy (f a) 0) as [L|[L|L]]; [| |exists a; cbn; auto].
  - assert (exists y, In y l /\ f y <> 0%Z) as D. { apply zsum_nz. lia. } destruct IH as (y & Hy & P); [lia|exact D|]. exists y. cbn. auto.
  - destruct Hx as [->|Hx]; [lia|]. destruct IH as (y & Hy & P); [lia|eauto|]. exists y. cbn. auto.
Qed.
Definition onb (b : point) (s : segment) : bool := hit b s || pt_eqb b (fst s).
Lemma onb_spec b s : reflect (on_seg s b) (onb b s).
Proof.
  unfold onb. destruct (hit b s) eqn:H; cbn [orb]; [constructor; now apply hit_sound|]. destruct (pt_eqb_spec b (fst s)) as [->|N]; constructor.
  - destruct s. apply on_seg_end.
  - intros O. apply hit_complete in O as [O|O]; congruence.
Qed.
Lemma first_arm r b u :
  (forall s z, In s (edges_iter r) -> on_seg s b -> z = fst s \/ z = snd s -> ~ exists k, 0 < k /\ vsub z b = vscale k u) ->
  (exists s z, In s (edges_iter r) /\ on_seg s b /\ (z = fst s \/ z = snd s) /\ 0 < cross u (vsub z b)) ->
  (exists e, 0 < e /\ forall t q, 0 < t -> t <= e -> ~ on_boundary r q -> (wsum (vadd b (vscale t u)) r <= wsum q r)%Z) ->
  exists v0 v1, In (v0, v1) (edges_iter r) /\ on_seg (v0, v1) b /\ 0 < cross u (vsub v0 b) /\
    forall s z, In s (edges_iter r) -> on_seg s b -> z = fst s \/ z = snd s -> 0 < cross u (vsub z b) -> cross (vsub z b) (vsub v0 b) <= 0.
Proof.
  intros NU (s0 & z0 & Hs0 & Os0 & Hz0 & Cz0) (e2 & E2 & WS).
  set (arms := filter (fun z => qltb 0 (cross u (vsub z b))) (flat_map (fun s => if onb b s then [fst s; snd s] else []) (edges_iter r))).
  assert (AR : forall z, In z arms <-> exists s, In s (edges_iter r) /\ on_seg s b /\ (z = fst s \/ z = snd s) /\ 0 < cross u (vsub z b)).
  { intros z. unfold arms. rewrite filter_In, in_flat_map. split.
    - intros ((s & Hs & Hz) & C). destruct (qltb_spec 0 (cross u (vsub z b))); [|discriminate]. destruct (onb_spec b s); [|destruct Hz].
      exists s. repeat split; auto. destruct Hz as [<-|[<-|[]]]; auto.
    - intros (s & Hs & O & Hz & C). split; [|destruct (qltb_spec 0 (cross u (vsub z b))); auto]. exists s. split; auto.
      destruct (onb_spec b s); [|tauto]. destruct Hz as [->| ->]; cbn; auto. }
  assert (I0 : In z0 arms) by (apply AR; eauto 6).
  destruct (best (fun z => dot u (vsub z b) / cross u (vsub z b)) arms z0 I0) as (z & Iz & BZ).
  pose proof Iz as Jz. apply AR in Jz as (s1 & Hs1 & Os1 & Hz1 & Cz). set (a := vsub z b) in *.
  assert (Un : 0 < dot u u).
  { destruct u as [u1 u2]. unfold dot. cbn [fst snd]. assert (u1 <> 0 \/ u2 <> 0) as D.
    { destruct (qeqb_spec u1 0) as [->|]; auto. destruct (qeqb_spec u2 0) as [->|]; auto. exfalso. unfold cross in Cz. cbn [fst snd] in Cz. qlra. }
    destruct D as [D|D]; destruct (qc_not_eq _ _ D); qnra. }
  assert (FIRST : forall s z', In s (edges_iter r) -> on_seg s b -> z' = fst s \/ z' = snd s -> 0 < cross u (vsub z' b) -> cross (vsub z' b) a <= 0).
  { intros s z' Hs O Hz C. assert (I : In z' arms) by (apply AR; eauto 6). specialize (BZ z' I). cbv beta in BZ. fold a in BZ.
    set (a' := vsub z' b) in *. assert (N1 : cross u a <> 0) by (intros X; qlra). assert (N2 : cross u a' <> 0) by (intros X; qlra).
    pose proof (qdiv_mul (dot u a) _ N1) as M1. pose proof (qdiv_mul (dot u a') _ N2) as M2.
    set (k := dot u a / cross u a) in *. set (k' := dot u a' / cross u a') in *. clearbody k k'.
    assert (ID : cross a' a * dot u u = cross u a * cross u a' * (k' - k)).
    { transitivity (dot u a' * cross u a - cross u a' * dot u a); [|rewrite <- M1, <- M2; ring]. destruct u, a, a'. unfold cross, dot. cbn [fst snd]. ring. }
    destruct (qleb_spec (cross a' a) 0); auto. exfalso.
    assert (0 < cross u a * cross u a') by (apply mpp; auto). assert (0 < cross a' a * dot u u) by (apply mpp; [qlra|auto]). assert (0 <= (k - k') * (cross u a * cross u a')) by qnra. qlra. }
  destruct (segs_away2 (filter (fun s => negb (onb b s)) (edges_iter r)) b u a) as (e1 & E1 & AW).
  { intros s Hs O. apply filter_In in Hs as (_ & Hs). destruct (onb_spec b s); [discriminate|tauto]. }
  assert (AW' : forall s x y, In s (edges_iter r) -> 0 <= x -> x <= e1 -> 0 <= y -> y <= e1 -> on_seg s (pt2 b u a x y) -> on_seg s b).
  { intros s x y Hs X0 X1 Y0 Y1 O. destruct (onb_spec b s) as [Y|Y]; auto. exfalso. apply (AW s x y); auto. apply filter_In. split; auto. destruct (onb_spec b s); [tauto|reflexivity]. }
  destruct (small_avoid (map (fun v => dot a (vsub v b) / dot a a) r) (qmin e1 1)) as (t0 & T0 & T1' & TV).
  { unfold qmin. destruct (qleb_spec e1 1); qlra. }
  assert (t0 <= e1 /\ t0 <= 1) as (T1 & T2) by (unfold qmin in T1'; destruct (qleb_spec e1 1); split; qlra).
  assert (An : dot a a <> 0).
  { destruct a as [a1 a2] eqn:Ea. unfold dot. cbn [fst snd]. intros X. assert (a1 = 0 /\ a2 = 0) as (-> & ->).
    { destruct (qeqb_spec a1 0) as [->|N]; [split; auto; destruct (qeqb_spec a2 0) as [|N]; auto; exfalso; destruct (qc_not_eq _ _ N); qnra|exfalso; destruct (qc_not_eq _ _ N); qnra]. }
    unfold cross in Cz. cbn [fst snd] in Cz. qlra. }
  set (x := vadd b (vscale t0 a)).
  assert (XV : forall v, In v r -> v <> x).
  { intros v Hv ->. apply TV. apply in_map_iff. exists x. split; auto. unfold x.
    transitivity (t0 * dot a a / dot a a); [f_equal; destruct a, b; unfold dot, vsub, vadd, vscale; cbn [fst snd]; ring|]. field. auto. }
  assert (PX : pt2 b u a 0 t0 = x) by (unfold x; destruct b, u, a; unfold pt2, vadd, vscale; cbn [fst snd]; f_equal; ring).
  assert (THR : forall s, In s (edges_iter r) -> on_seg s x -> on_seg s b).
  { intros s Hs O. apply (AW' s 0 t0); auto; try qlra. now rewrite PX. }
  assert (Ta : vscale t0 a <> (0, 0)). { intros X. destruct a as [a1 a2]. unfold vscale in X. cbn [fst snd] in X. apply pair_inv in X as (X1 & X2). apply An. unfold dot. cbn [fst snd].
    apply Qcmult_integral in X1 as [X1|X1]; [qlra|]. apply Qcmult_integral in X2 as [X2|X2]; [qlra|]. subst. ring. }
  assert (PAR : forall v0 v1, In (v0, v1) (edges_iter r) -> on_seg (v0, v1) x -> exists k, k <> 0 /\ vscale t0 a = vscale k (vsub v1 v0) /\
     ((0 < k /\ exists m, 0 < m /\ vsub v1 b = vscale m (vscale t0 a)) \/ (k < 0 /\ exists m, 0 < m /\ vsub v0 b = vscale m (vscale t0 a)))).
  { intros v0 v1 Hs O. apply arm_of; auto. }
  assert (CR : forall k w, k <> 0 -> vscale t0 a = vscale k w -> k * cross w u = - (t0 * cross u a)).
  { intros k w K E. transitivity (cross (vscale k w) u); [destruct w, u; unfold cross, vscale; cbn [fst snd]; ring|]. rewrite <- E. destruct u, a; unfold cross, vscale; cbn [fst snd]; ring. }
  assert (TC : 0 < t0 * cross u a) by (apply mpp; auto).
  destruct (jump r x u XV) as (e3 & E3 & J).
  { intros [v0 v1] Hs O. cbn [fst snd]. destruct (PAR v0 v1 Hs O) as (k & K & EK & _). pose proof (CR _ _ K EK) as C. intros X. rewrite X in C. qlra. }
  set (t := qmin e1 (qmin e2 e3)).
  assert (t <= e1 /\ t <= e2 /\ t <= e3 /\ 0 < t) as (M1 & M2 & M3 & M4)
    by (unfold t, qmin; destruct (qleb_spec e2 e3); [destruct (qleb_spec e1 e2)|destruct (qleb_spec e1 e3)]; repeat split; qlra).
  destruct (J t M4 M3) as (B1 & B2 & JJ). cbv zeta in *.
  assert (EW : wsum (vadd b (vscale t u)) r = wsum (vadd x (vscale t u)) r).
  { apply wsum_move. intros y (l & L0 & L1 & ->) (s & Hs & O). apply is_edge_iter in Hs.
    replace (at_t (vadd b (vscale t u), vadd x (vscale t u)) l) with (pt2 b u a t (l * t0)) in O.
    2:{ unfold x. rewrite at_t_lin. destruct b, u, a. unfold pt2, vadd, vscale. cbn [fst snd]. f_equal; ring. }
    assert (L2 : 0 <= l * t0) by qnra. assert (L3 : l * t0 <= e1) by qnra.
    pose proof (AW' s t (l * t0) Hs ltac:(qlra) M1 L2 L3 O) as Ob. destruct s as [v0 v1]. set (w := vadd (vscale t u) (vscale (l * t0) a)).
    assert (Wa : cross w a = t * cross u a) by (unfold w; destruct u, a; unfold cross, vadd, vscale; cbn [fst snd]; ring).
    assert (Wu : cross u w = l * t0 * cross u a) by (unfold w; destruct u, a; unfold cross, vadd, vscale; cbn [fst snd]; ring).
    assert (TU : 0 < t * cross u a) by (apply mpp; auto).
    assert (Wn : w <> (0, 0)). { intros X. rewrite X in Wa. unfold cross in Wa at 1. cbn [fst snd] in Wa. qlra. }
    change (pt2 b u a t (l * t0)) with (vadd b w) in O.
    assert (exists z' m, (z' = v0 \/ z' = v1) /\ 0 < m /\ vsub z' b = vscale m w) as (z' & m & Hz' & Mp & Ez).
    { destruct (arm_of v0 v1 b w Ob O Wn) as (k & K & EK & [(_ & m & Mp & Em)|(_ & m & Mp & Em)]); eauto 6. }
    destruct (qeqb_spec (l * t0) 0) as [L0'|L0'].
    - apply (NU _ z' Hs Ob Hz'). exists (m * t). split; [apply mpp; auto|]. rewrite Ez. unfold w. rewrite L0'. destruct u, a. unfold vscale, vadd. cbn [fst snd]. f_equal; ring.
    - assert (L4 : 0 < l * t0) by (destruct (qc_not_eq _ _ L0'); qlra).
      assert (C1 : 0 < cross u (vsub z' b)).
      { rewrite Ez. replace (cross u (vscale m w)) with (m * cross u w) by (destruct u, w; unfold cross, vscale; cbn [fst snd]; ring). rewrite Wu. apply mpp; auto. apply mpp; auto. }
      pose proof (FIRST _ z' Hs Ob Hz' C1) as C2. rewrite Ez in C2.
      replace (cross (vscale m w) a) with (m * cross w a) in C2 by (destruct a, w; unfold cross, vscale; cbn [fst snd]; ring). rewrite Wa in C2.
      assert (0 < m * (t * cross u a)) by (apply mpp; auto). qlra. }
  specialize (WS t _ M4 M2 B2). rewrite EW in WS.
  assert (S1 : on_seg s1 x).
  { unfold x, a. apply on_seg_conv; auto; [|qlra]. destruct s1 as [v0 v1]. destruct Hz1 as [->| ->]; apply on_seg_end. }
  assert (HX : forall s, In s (edges_iter r) -> hit x s = true <-> on_seg s x).
  { intros s Hs. apply hit_on. intros X. assert (In (fst s) r) by (apply pedges_in, is_edge_pedges, is_edge_iter, Hs). exact (XV _ H (eq_sym X)). }
  destruct (zsum_pos_ex (hits x u) (edges_iter r)) as ([v0 v1] & Hs & P); [lia| |].
  { exists s1. split; auto. unfold hits. rewrite (proj2 (HX s1 Hs1) S1). destruct s1 as [w0 w1]. cbn [fst snd].
    destruct (PAR w0 w1 Hs1 S1) as (k & K & EK & _). pose proof (CR _ _ K EK) as C.
    destruct (sgn_cases (cross (vsub w1 w0) u)) as [[A ->]|[[A B]|[A ->]]]; try lia. rewrite A in C. qlra. }
  unfold hits in P. destruct (hit x (v0, v1)) eqn:Hh; [|lia]. apply (HX _ Hs) in Hh. cbn [fst snd] in P.
  assert (P' : 0 < cross (vsub v1 v0) u). { destruct (sgn_cases (cross (vsub v1 v0) u)) as [[A B]|[[A B]|[A B]]]; auto; rewrite B in P; lia. }
  destruct (PAR v0 v1 Hs Hh) as (k & K & EK & D). pose proof (CR _ _ K EK) as C.
  destruct D as [(Kp & _)|(Kn & m & Mp & Em)]; [exfalso; assert (0 < k * cross (vsub v1 v0) u) by (apply mpp; auto); qlra|].
  exists v0, v1. split; auto. split; [now apply THR|]. assert (Mt : 0 < m * t0) by (apply mpp; auto).
  assert (Em' : vsub v0 b = vscale (m * t0) a) by (rewrite Em; destruct a; unfold vscale; cbn [fst snd]; f_equal; ring).
  split.
  - rewrite Em'. replace (cross u (vscale (m * t0) a)) with (m * t0 * cross u a) by (destruct u, a; unfold cross, vscale; cbn [fst snd]; ring). apply mpp; auto.
  - intros s z' Hs' O Hz' C'. pose proof (FIRST s z' Hs' O Hz' C') as F. rewrite Em'.
    replace (cross (vsub z' b) (vscale (m * t0) a)) with (m * t0 * cross (vsub z' b) a) by (destruct (vsub z' b), a; unfold cross, vscale; cbn [fst snd]; ring). qnra.
Qed.
