(** Moving a point slightly: generic nearby points; membership is locally constant. *)
From Verif.Proofs Require Export Geom2dP.
From Verif.Props Require Import LocateProps.

Lemma small_avoid (L : list Qc) eps : 0 < eps -> exists t, 0 < t /\ t <= eps /\ ~ In t L.
Proof.
  intros He. enough (exists t, 0 < t /\ t <= eps /\ forall x, In x L -> 0 < x -> t < x) as (t & A & B & C).
  { exists t. split; auto. split; auto. intros H. specialize (C t H A). qlra. }
  induction L as [|x L (t & A & B & C)]; [exists eps; split; [auto|]; split; [qlra|intros ? []]|].
  destruct (qltb_spec 0 x) as [X|X].
  - exists (qq 1 2 * qmin t x). unfold qmin. destruct (qleb_spec t x) as [T|T]; (split; [qlra|]; split; [qlra|]);
      intros y [<-|Hy] Y; try qlra; specialize (C y Hy Y); qlra.
  - exists t. split; auto. split; auto. intros y [<-|Hy] Y; [tauto|auto].
Qed.
Lemma fresh_q (L : list Qc) : exists t : Qc, ~ In t L.
Proof. destruct (small_avoid L 1) as (t & _ & _ & H); [qlra|]. eauto. Qed.

Definition step (p d : point) (t : Qc) : point := vadd p (vscale t d).
Lemma lin_pos u w : 0 < u -> exists eps, 0 < eps /\ forall t, 0 <= t -> t <= eps -> 0 < u + t * w.
Proof.
  intros U. destruct (qltb_spec w 0) as [W|W].
  - assert (N : - w <> 0) by (intros E; qlra). exists (u / (- w) * qq 1 2).
    pose proof (qdiv_mul u (- w) N) as D. set (k := u / - w) in *. clearbody k.
    assert (0 < k). { destruct (qltb_spec 0 k) as [|K]; auto. exfalso. qnra. }
    split; [qlra|]. intros t T1 T2. qnra.
  - exists 1. split; [qlra|]. intros t T1 T2. qnra.
Qed.
Lemma lin_ne u w : u <> 0 -> exists eps, 0 < eps /\ forall t, 0 <= t -> t <= eps -> u + t * w <> 0.
Proof.
  intros U. destruct (qc_not_eq _ _ U) as [L|L].
  - destruct (lin_pos (- u) (- w)) as (e & E & H); [qlra|]. exists e. split; auto. intros t A B C. specialize (H t A B). qlra.
  - destruct (lin_pos u w) as (e & E & H); [qlra|]. exists e. split; auto. intros t A B C. specialize (H t A B). qlra.
Qed.
Lemma seg_away s p d : ~ on_seg s p -> exists eps, 0 < eps /\ forall t, 0 <= t -> t <= eps -> ~ on_seg s (step p d t).
Proof.
  intros N. destruct s as [a b].
  assert (B : forall u v w dw : Qc, ~ WindingP.between u w v -> exists eps, 0 < eps /\ forall t, 0 <= t -> t <= eps -> ~ WindingP.between u (w + t * dw) v).
  { intros u v w dw NB. unfold WindingP.between in NB.
    assert (C : (w < u /\ w < v) \/ (u < w /\ v < w)).
    { destruct (qltb_spec w u), (qltb_spec w v), (qltb_spec u w), (qltb_spec v w); auto; exfalso; apply NB;
        first [left; split; qlra | right; split; qlra]. }
    destruct C as [[C1 C2]|[C1 C2]].
    - destruct (lin_pos (u - w) (- dw)) as (e1 & E1 & H1); [qlra|]. destruct (lin_pos (v - w) (- dw)) as (e2 & E2 & H2); [qlra|].
      exists (qmin e1 e2). unfold qmin. destruct (qleb_spec e1 e2); (split; [qlra|]); intros t T1 T2;
        (assert (X1 := H1 t T1 ltac:(qlra)); assert (X2 := H2 t T1 ltac:(qlra)); intros [[? ?]|[? ?]]; qlra).
    - destruct (lin_pos (w - u) (dw)) as (e1 & E1 & H1); [qlra|]. destruct (lin_pos (w - v) (dw)) as (e2 & E2 & H2); [qlra|].
      exists (qmin e1 e2). unfold qmin. destruct (qleb_spec e1 e2); (split; [qlra|]); intros t T1 T2;
        (assert (X1 := H1 t T1 ltac:(qlra)); assert (X2 := H2 t T1 ltac:(qlra)); intros [[? ?]|[? ?]]; qlra). }
  rewrite on_seg_iff in N.
  destruct (qeqb_spec (orient a b p) 0) as [O|O].
  - assert (C : ~ WindingP.between (fst a) (fst p) (fst b) \/ ~ WindingP.between (snd a) (snd p) (snd b)).
    { unfold WindingP.between in *.
      destruct (qleb_spec (fst a) (fst p)), (qleb_spec (fst p) (fst b)), (qleb_spec (fst b) (fst p)), (qleb_spec (fst p) (fst a)); tauto. }
    destruct C as [C|C].
    + destruct (B _ _ _ (fst d) C) as (e' & E' & H'). exists e'. split; auto. intros t T1 T2 S. apply on_seg_iff in S as (_ & S & _). exact (H' t T1 T2 S).
    + destruct (B _ _ _ (snd d) C) as (e' & E' & H'). exists e'. split; auto. intros t T1 T2 S. apply on_seg_iff in S as (_ & _ & S). exact (H' t T1 T2 S).
  - destruct (lin_ne (orient a b p) (cross (vsub b a) d) O) as (e & E & H). exists e. split; auto.
    intros t T1 T2 S. apply on_seg_iff in S as (S & _). apply (H t T1 T2). rewrite <- S.
    unfold step, orient, cross, vsub, vadd, vscale. cbn [fst snd]. ring.
Qed.
Lemma segs_away (S : list segment) p d : (forall s, In s S -> ~ on_seg s p) ->
  exists eps, 0 < eps /\ forall s t, In s S -> 0 <= t -> t <= eps -> ~ on_seg s (step p d t).
Proof.
  induction S as [|s S IH]; intros H.
  - exists 1. split; [qlra|intros ? ? []].
  - destruct IH as (e1 & E1 & H1); [intros; apply H; right; auto|].
    destruct (seg_away s p d) as (e2 & E2 & H2); [apply H; left; auto|].
    exists (qmin e1 e2). unfold qmin. destruct (qleb_spec e1 e2); (split; [auto|]); intros x t [<-|Hx] T1 T2.
    + apply H2; auto; qlra.
    + apply H1; auto.
    + apply H2; auto.
    + apply H1; auto; qlra.
Qed.
Lemma generic_dir (S : list segment) : exists m, forall s, In s S -> fst s <> snd s -> cross (1, m) (vsub (snd s) (fst s)) <> 0.
Proof.
  destruct (fresh_q (map (fun s => (snd (snd s) - snd (fst s)) / (fst (snd s) - fst (fst s))) S)) as (m & H).
  exists m. intros s Hs N C. unfold cross, vsub in C. cbn [fst snd] in C.
  destruct (qeqb_spec (fst (snd s) - fst (fst s)) 0) as [E|E].
  - apply N. destruct s as [[x0 y0] [x1 y1]]. cbn [fst snd] in *. rewrite E in C. f_equal; qlra.
  - apply H. apply in_map_iff. exists s. split; auto.
    pose proof (qdiv_mul (snd (snd s) - snd (fst s)) _ E) as D. set (q := _ / _) in *. clearbody q.
    assert (X : (q - m) * (fst (snd s) - fst (fst s)) = 0) by qlra.
    apply Qcmult_integral in X. destruct X as [X|X]; [qlra|tauto].
Qed.
Lemma near_generic p (S1 S2 : list segment) : (forall s, In s S1 -> ~ on_seg s p) ->
  exists q, (forall s x, In s S1 -> on_seg (p, q) x -> ~ on_seg s x) /\ (forall s, In s S2 -> ~ on_seg s q).
Proof.
  intros H. destruct (generic_dir S2) as (m & M). set (d := (1, m)) in *.
  destruct (segs_away S1 p d H) as (eps & E & A).
  destruct (small_avoid (flat_map (fun s => [ - orient (fst s) (snd s) p / cross (vsub (snd s) (fst s)) d; fst (fst s) - fst p]) S2) eps E) as (t & T1 & T2 & T3).
  exists (step p d t). split.
  - intros s x Hs (u & U1 & U2 & ->).
    replace (at_t (p, step p d t) u) with (step p d (u * t)).
    + apply A; auto; qnra.
    + unfold at_t, step, vadd, vscale, vsub. cbn [fst snd]. f_equal; ring.
  - intros s Hs S. apply T3. apply in_flat_map. exists s. split; auto. destruct s as [a b]. cbn [fst snd].
    pose proof S as S'. apply on_seg_iff in S as (O & Bx & By).
    assert (D : a = b \/ a <> b) by (destruct (pt_eqb_spec a b); auto). destruct D as [->|D].
    + right. left. assert (X : fst (step p d t) = fst b). { unfold WindingP.between in Bx. destruct Bx as [[? ?]|[? ?]]; qlra. }
      unfold step, vadd, vscale, d in X. cbn [fst snd] in X. rewrite <- X. ring.
    + left. assert (C : cross (vsub b a) d <> 0).
      { intros C. apply (M _ Hs D). cbn [fst snd]. replace (cross d (vsub b a)) with (- cross (vsub b a) d).
        - rewrite C. ring.
        - unfold cross, d. cbn [fst snd]. ring. }
      assert (X : orient a b p + t * cross (vsub b a) d = 0).
      { rewrite <- O. unfold step, orient, cross, vsub, vadd, vscale. cbn [fst snd]. ring. }
      pose proof (qdiv_mul (- orient a b p) _ C) as Y. set (k := _ / _) in *. clearbody k.
      assert (Z : (k - t) * cross (vsub b a) d = 0) by qlra.
      apply Qcmult_integral in Z. destruct Z as [Z|Z]; [qlra|tauto].
Qed.

Lemma in_ring_move r p q : r <> [] -> (forall x, on_seg (p, q) x -> ~ on_boundary r x) -> (in_ring r p <-> in_ring r q).
Proof.
  intros N A. assert (E : locate_point_polygon_winding_number r p = locate_point_polygon_winding_number r q).
  { apply (locate_constant_on_paths r [p; q]); auto. intros s x [<-|[]]. apply A. }
  destruct (on_seg_end p q) as (E1 & E2).
  destruct (locate_ring r p N (A _ E1)) as [(L1 & H1)|(L1 & H1)], (locate_ring r q N (A _ E2)) as [(L2 & H2)|(L2 & H2)];
    rewrite L1, L2 in E; try discriminate; tauto.
Qed.
Lemma in_geom_move g p q : is_geom2d g -> (forall x, on_seg (p, q) x -> ~ on_bd g x) -> (in_geom g p <-> in_geom g q).
Proof.
  intros G A. assert (R : forall r, ring_of g r -> (in_ring r p <-> in_ring r q)).
  { intros r Hr. apply in_ring_move; [now apply (proj1 (is_geom2d_rings g) G)|]. intros x X B. apply (A x X). exists r. auto. }
  unfold in_geom, in_poly. split; intros (s & Hs & I & J); exists s; (split; [auto|]).
  - split; [apply (R (outer s)); auto; exists s; auto|]. intros h Hh K. apply (J h Hh). apply (R h); auto. exists s; auto.
  - split; [apply (R (outer s)); auto; exists s; auto|]. intros h Hh K. apply (J h Hh). apply (R h); auto. exists s; auto.
Qed.
(** A statement about membership that holds at all points off some finite set of segments holds
    at all points off the boundaries it talks about. *)
Lemma near_point p (gs : list geom2d) (S : list segment) : Forall is_geom2d gs -> (forall g, In g gs -> ~ on_bd g p) ->
  exists q, (forall s, In s S -> ~ on_seg s q) /\ forall g, In g gs -> ~ on_bd g q /\ (in_geom g p <-> in_geom g q).
Proof.
  intros G B. destruct (near_generic p (flat_map all_segments gs) S) as (q & A1 & A2).
  { intros s Hs O. apply in_flat_map in Hs as (g & Hg & Hs). apply (B g Hg). apply on_bd_segments. eauto. }
  exists q. split; auto. intros g Hg. rewrite Forall_forall in G.
  assert (M : forall x, on_seg (p, q) x -> ~ on_bd g x).
  { intros x X Y. apply on_bd_segments in Y as (s & Hs & Y). apply (A1 s x); auto. apply in_flat_map. eauto. }
  split; [apply M; apply on_seg_end|]. apply in_geom_move; auto.
Qed.
