(** Building the arrangement never fails up to the tracing of cells: the graph, the order at each vertex
    and the general direction. *)
From Verif.Model Require Import CellMerger Arrangement2d.
From Verif.Spec Require Import Plane Subdivision.
From Verif.Proofs Require Import PyP PolyP WindingP DictP SweepOrd SweepL PlanarP SubdivP MergerQ ArrVertexP ArrGraphP.
From Verif.Props Require Import Primitive2dProps Frangle2dProps Scan2dProps.

(** ** the normalized segments have the same subdivision *)
Lemma direction_sorted_seg s : direction (sorted_seg s) = direction s \/ direction (sorted_seg s) = vscale (- (1)) (direction s).
Proof. unfold sorted_seg. destruct (pt_ltb _ _); auto. right. unfold direction, rev_seg. apply pteq; vec; ring. Qed.
Lemma cross_sorted_seg a b : cross (direction (sorted_seg a)) (direction (sorted_seg b)) = 0 <-> cross (direction a) (direction b) = 0.
Proof.
  set (u := direction a). set (v := direction b).
  destruct (direction_sorted_seg a) as [-> | ->], (direction_sorted_seg b) as [-> | ->]; fold u v; [tauto|..].
  - replace (cross u (vscale (- (1)) v)) with (- cross u v) by (vec; ring). split; intros; qlra.
  - replace (cross (vscale (- (1)) u) v) with (- cross u v) by (vec; ring). split; intros; qlra.
  - replace (cross (vscale (- (1)) u) (vscale (- (1)) v)) with (cross u v) by (vec; ring). tauto.
Qed.
Section Norm.
Variables segs sid : list segment.
Hypothesis EQ : forall s, In s segs <-> exists s', In s' sid /\ sorted_seg s' = s.
Lemma vert_norm p : vert segs p <-> vert sid p.
Proof.
  unfold vert. split.
  - intros [(s & S & E)|(a & b & A & B & N & OA & OB & C)].
    + apply EQ in S as (s' & S & <-). left. exists s'. split; auto. now apply endpoint_sorted_seg.
    + apply EQ in A as (a' & A & <-), B as (b' & B & <-). right. exists a', b'. rewrite !on_sorted_seg, cross_sorted_seg, !endpoint_sorted_seg in *.
      repeat (split; [assumption|]). split; [congruence|]. auto.
  - intros [(s & S & E)|(a & b & A & B & N & OA & OB & C)].
    + left. exists (sorted_seg s). split; [apply EQ; eauto|]. now apply endpoint_sorted_seg.
    + destruct (seg_eqb_ok (sorted_seg a) (sorted_seg b)) as [E|E].
      * left. destruct C as [C|[C|C]].
        -- exfalso. apply C. apply (proj1 (cross_sorted_seg a b)). rewrite E. unfold cross. ring.
        -- exists (sorted_seg a). split; [apply EQ; eauto|]. now apply endpoint_sorted_seg.
        -- exists (sorted_seg b). split; [apply EQ; eauto|]. now apply endpoint_sorted_seg.
      * right. exists (sorted_seg a), (sorted_seg b). rewrite !on_sorted_seg, cross_sorted_seg, !endpoint_sorted_seg.
        split; [apply EQ; eauto|]. split; [apply EQ; eauto|]. auto.
Qed.
Lemma on_some_norm p : (exists s, In s segs /\ on_seg s p) <-> (exists s, In s sid /\ on_seg s p).
Proof.
  split.
  - intros (s & S & O). apply EQ in S as (s' & S & <-). rewrite on_sorted_seg in O. eauto.
  - intros (s & S & O). exists (sorted_seg s). rewrite on_sorted_seg. split; auto. apply EQ. eauto.
Qed.
Lemma sub_edge_norm e : sub_edge segs e <-> sub_edge sid e.
Proof.
  assert (V : forall p, vert segs p <-> vert sid p) by apply vert_norm.
  unfold sub_edge. rewrite !V. split; intros (A & B & C & (s & S & O1 & O2) & G); (split; [auto|]; split; [auto|]; split; [auto|]; split).
  - apply EQ in S as (s' & S & <-). rewrite !on_sorted_seg in *. eauto.
  - intros x X Y. apply (G x X). now apply V.
  - exists (sorted_seg s). rewrite !on_sorted_seg. split; auto. apply EQ. eauto.
  - intros x X Y. apply (G x X). now apply V.
Qed.
End Norm.
Lemma in_simple_segments o sid s : In s (simple_segments o sid) <-> exists s', In s' sid /\ sorted_seg s' = s.
Proof.
  unfold simple_segments. rewrite in_permuted, (in_dedup_by _ seg_eqb_dec), in_map_iff. split; intros (s' & A & B); eauto.
Qed.

(** ** the invariants of the finished graph, in terms of the input *)
Record graph_ok (sid hes : list segment) (vs : list (point * vertex)) : Prop := {
  go_nd : NoDup hes;
  go_sub : forall e, In e hes <-> sub_edge sid e;
  go_keys : NoDup (keys vs);
  go_all : forall p, In p (keys vs) <-> vert sid p;
  go_v : forall c v, In (c, v) vs -> vgood hes c v;
  go_cover : forall s x, In s sid -> on_seg s x -> exists e, In e hes /\ on_seg e x;
  go_on : forall e x, In e hes -> on_seg e x -> exists s, In s sid /\ on_seg s x }.
Theorem build_graph orc1 orc2 sid : Forall nondeg sid ->
  exists calls vs0 hes vs, vertex_calls (simple_segments orc1 sid) = Ok calls /\
    (exists l, mapM (fun c => mapM (check_vertex (fst c)) (snd c)) calls = Ok l) /\
    vs0 = permuted orc2 (all_vertices calls) /\
    foldM (add_segment_edges calls) sid ([], map (fun v => (v, [])) vs0) = Ok (hes, vs) /\ graph_ok sid hes vs /\
    keys vs = vs0.
Proof.
  intros F. set (segs := simple_segments orc1 sid).
  assert (EQ : forall s, In s segs <-> exists s', In s' sid /\ sorted_seg s' = s) by apply in_simple_segments.
  assert (N : NoDup segs).
  { unfold segs, simple_segments. apply (Permutation_NoDup (Permutation_sym (permuted_perm _ _))). apply nodup_dedup_by, seg_eqb_dec. }
  assert (G : Forall nondeg segs).
  { apply Forall_forall. intros s S. apply EQ in S as (s' & S & <-). rewrite Forall_forall in F. specialize (F _ S).
    unfold nondeg, sorted_seg in *. destruct (pt_ltb _ _); cbn; auto. }
  destruct (vertex_calls_ok segs N G) as (calls & E & GC). exists calls, (permuted orc2 (all_vertices calls)).
  destruct (check_vertices_ok segs calls G GC) as (l & CV).
  assert (P : Permutation (permuted orc2 (all_vertices calls)) (all_vertices calls)) by apply permuted_perm.
  set (vs0 := permuted orc2 (all_vertices calls)) in *.
  destruct (add_segments_ok segs calls G GC sid) with (hes := @nil segment) (vs := map (fun v : point => (v, @nil (Qc * segment))) vs0)
    as (hes & vs & E2 & GI2 & K & X).
  { intros s S. apply EQ. eauto. }
  { now apply (start_ok segs calls GC). }
  exists hes, vs. split; auto. split; [eauto|]. split; auto. split; [exact E2|].
  destruct (graph_exact segs calls G GC hes sid) as (X1 & X2 & X3).
  { intros s S. apply EQ. eauto. }
  { intros s S. apply EQ in S as (s' & S & <-). eauto. }
  { intros e. rewrite X. split; [intros [[]|]; auto|auto]. }
  split.
  2:{ rewrite K. unfold keys. rewrite map_map. cbn. apply map_id. }
  constructor.
  - apply GI2.
  - intros e. rewrite X1. now apply sub_edge_norm.
  - apply GI2.
  - intros p. rewrite (gi_all _ _ _ GI2). now apply vert_norm.
  - intros c v I. apply (gi_v _ _ _ GI2). apply (dget_nodup _ pt_eqb_dec); auto. apply GI2.
  - intros s x S O. apply (X2 (sorted_seg s)); [apply EQ; eauto|now rewrite on_sorted_seg].
  - intros e x I O. apply (proj1 (on_some_norm _ _ EQ x)). eapply X3; eauto.
Qed.
Lemma go_rev sid hes vs e : graph_ok sid hes vs -> In e hes -> In (rev_e e) hes.
Proof. intros G I. apply (go_sub _ _ _ G). apply sub_edge_rev. now apply (go_sub _ _ _ G). Qed.
Lemma go_nondeg sid hes vs e : graph_ok sid hes vs -> In e hes -> fst e <> snd e.
Proof. intros G I. apply (go_sub _ _ _ G) in I. apply I. Qed.
Lemma go_planar sid hes vs : graph_ok sid hes vs -> planar hes.
Proof. intros G e f x E F X O. apply (sub_edge_planar sid e f x); auto; now apply (go_sub _ _ _ G). Qed.
Lemma go_dget sid hes vs c : graph_ok sid hes vs -> vert sid c -> exists v, dget pt_eqb c vs = Some v /\ vgood hes c v.
Proof.
  intros G V. destruct (dget pt_eqb c vs) as [v|] eqn:D.
  - exists v. split; auto. apply (go_v _ _ _ G). now apply (dget_in _ pt_eqb_dec).
  - apply (dget_none _ pt_eqb_dec) in D. exfalso. apply D. now apply (go_all _ _ _ G).
Qed.
Lemma vert_on sid p : vert sid p -> exists s, In s sid /\ on_seg s p.
Proof.
  intros [(s & S & E)|(a & b & A & _ & _ & O & _)]; [|eauto]. exists s. split; auto. now apply endpoint_on.
Qed.
(** every vertex has a half-edge *)
Lemma go_leaves sid hes vs p : graph_ok sid hes vs -> vert sid p -> exists e, In e hes /\ fst e = p.
Proof.
  intros G V. destruct (vert_on _ _ V) as (s & S & O). destruct (go_cover _ _ _ G s p S O) as (e & I & OE).
  destruct (on_seg_cases _ _ OE) as [->|[->|X]].
  - exists e. auto.
  - exists (rev_e e). split; [eapply go_rev; eauto|auto].
  - apply (go_sub _ _ _ G) in I. exfalso. now apply (proj2 (proj2 (proj2 (proj2 I))) p X).
Qed.

(** ** the check of the order at a vertex *)
Section Turns.
Variables (hes : list segment) (c : point) (v : vertex) (d : Qc * segment).
Hypothesis V : vgood hes c v.
Let n := length v.
Let at_ i := snd (nth i v d).
Lemma cw_at i : (i < n)%nat -> get_next_cw c v (at_ i) = Ok (at_ (S i mod n)).
Proof.
  intros L. destruct (nth_split v d L) as (l & r & E & LL). unfold at_. destruct (nth i v d) as [k e] eqn:X. cbn [snd].
  destruct V as (S & G). assert (I : In (k, e) v) by (rewrite E; apply in_or_app; right; now left). apply G in I as (_ & <- & K).
  rewrite E in S. rewrite E at 1. rewrite cw_split by auto. do 2 f_equal. unfold n. rewrite E at 1.
  rewrite app_length. cbn [length]. destruct r as [|y r].
  - cbn [app]. cbn [length]. replace (Datatypes.S i) with (length l + 1)%nat by lia. rewrite Nat.mod_same by lia. rewrite E. destruct l; cbn; auto.
  - cbn [app hd]. rewrite Nat.mod_small by (cbn; lia). rewrite E, app_nth2 by lia. replace (Datatypes.S i - length l)%nat with 1%nat by lia. reflexivity.
Qed.
Lemma ccw_at i : (i < n)%nat -> get_next_ccw c v (at_ i) = Ok (at_ ((i + n - 1) mod n)).
Proof.
  intros L. destruct (nth_split v d L) as (l & r & E & LL). unfold at_. destruct (nth i v d) as [k e] eqn:X. cbn [snd].
  destruct V as (S & G). assert (I : In (k, e) v) by (rewrite E; apply in_or_app; right; now left). apply G in I as (_ & <- & K).
  rewrite E in S. rewrite E at 1. rewrite ccw_split; auto; [|rewrite <- E; intros k' e' H; apply G in H; tauto].
  do 2 f_equal. unfold n in *. destruct (exists_last' l) as [->|(l' & y & ->)].
  - cbn in LL. subst i. rewrite Nat.mod_small by (rewrite E in *; cbn in *; lia). rewrite E. cbn [app length]. rewrite app_nil_r.
    destruct (exists_last' r) as [->|(r' & y & ->)]; [reflexivity|]. rewrite last_last.
    cbn [Nat.add]. rewrite Nat.sub_succ, Nat.sub_0_r, app_length. cbn [length]. rewrite Nat.add_1_r. cbn [nth]. rewrite app_nth2, Nat.sub_diag by lia. reflexivity.
  - rewrite app_assoc, last_last. rewrite app_length in LL. cbn in LL.
    replace (i + length v - 1)%nat with (length l' + 1 * length v)%nat by lia.
    rewrite Nat.mod_add by lia. rewrite Nat.mod_small by lia. rewrite E, <- app_assoc. rewrite app_nth2, Nat.sub_diag by lia. reflexivity.
Qed.
Lemma at_inj i j : (i < n)%nat -> (j < n)%nat -> at_ i = at_ j -> i = j.
Proof.
  destruct V as (S & G). intros I J E.
  assert (K : forall i, (i < n)%nat -> he_key (at_ i) = Ok (fst (nth i v d))).
  { intros k L. unfold at_. apply (proj1 (G (fst (nth k v d)) (snd (nth k v d)))). rewrite <- surjective_pairing. now apply nth_In. }
  pose proof (K i I) as A. pose proof (K j J) as B. rewrite E in A. rewrite A in B. assert (F : fst (nth i v d) = fst (nth j v d)) by congruence.
  assert (ND : NoDup v) by (eapply ss_nodup; [|exact S]; intros x; cbn; qlra).
  apply (proj1 (NoDup_nth v d) ND); auto. rewrite (surjective_pairing (nth i v d)), (surjective_pairing (nth j v d)). now f_equal.
Qed.
Lemma check_turns_ok : forall m i, (i + m = n)%nat -> (0 < n)%nat ->
  check_turns m c v (at_ 0) (at_ (i mod n)) (at_ ((n - i) mod n)) = Ok tt.
Proof.
  induction m as [|m IH]; intros i E P.
  - cbn [check_turns]. replace i with n by lia. rewrite Nat.sub_diag, Nat.mod_same, Nat.mod_0_l by lia. rewrite seg_eqb_refl'. reflexivity.
  - cbn [check_turns]. rewrite (Nat.mod_small i) by lia. rewrite cw_at by lia. cbn [bind].
    rewrite ccw_at by (apply Nat.mod_upper_bound; lia). cbn [bind].
    assert (ID : (((n - i) mod n + n - 1) mod n = (n - S i) mod n)%nat).
    { destruct (Nat.eq_dec i 0) as [->|NI].
      - rewrite Nat.sub_0_r, Nat.mod_same by lia. f_equal.
      - rewrite (Nat.mod_small (n - i)) by lia. replace (n - i + n - 1)%nat with (n - S i + 1 * n)%nat by lia. now rewrite Nat.mod_add by lia. }
    rewrite ID. assert (passert (match m with O => true | _ => negb (seg_eqb (at_ (S i mod n)) (at_ 0)) && negb (seg_eqb (at_ ((n - S i) mod n)) (at_ 0)) end) = Ok tt) as ->.
    { destruct m as [|m]; auto.
      destruct (seg_eqb_ok (at_ (S i mod n)) (at_ 0)) as [X|_].
      { apply at_inj in X; try lia; [|apply Nat.mod_upper_bound; lia]. rewrite Nat.mod_small in X by lia. lia. }
      destruct (seg_eqb_ok (at_ ((n - S i) mod n)) (at_ 0)) as [X|_]; auto.
      apply at_inj in X; try lia; [|apply Nat.mod_upper_bound; lia]. rewrite Nat.mod_small in X by lia. lia. }
    cbn [bind]. apply IH; lia.
Qed.
End Turns.
Lemma check_orders_ok sid hes vs : graph_ok sid hes vs -> exists l, mapM check_vertex_order vs = Ok l.
Proof.
  intros G. apply mapM_every. intros [c v] I. exists tt. unfold check_vertex_order. cbn [fst snd].
  pose proof (go_v _ _ _ G _ _ I) as V. destruct v as [|[k he0] v].
  - exfalso. assert (VC : vert sid c). { apply (go_all _ _ _ G). apply in_map_iff. exists (c, []). auto. }
    destruct (go_leaves _ _ _ _ G VC) as (e & E & F). destruct (he_key_ok e) as (k & K); [eapply go_nondeg; eauto|].
    destruct V as (_ & V). apply (V k e). auto.
  - pose proof (check_turns_ok hes c _ (k, he0) V (length ((k, he0) :: v)) 0) as W.
    rewrite Nat.mod_0_l, Nat.sub_0_r, Nat.mod_same in W by (cbn; lia). apply W; cbn; lia.
Qed.

(** ** the general direction *)
Lemma qmod8 x : 0 <= x -> x < zq 16 -> qmod x (zq 8) = if qltb x (zq 8) then x else x - zq 8.
Proof.
  intros A B. destruct (qmod_spec x (zq 8)) as (n & E & L1 & L2); [qlra|]. set (h := qmod x (zq 8)) in *. clearbody h.
  assert (C : (0 <= n < 2)%Z).
  { assert (-(1) < zq n) as B1 by qlra. assert (zq n < zq 2) as B2 by qlra.
    unfold Qclt in B1, B2. unfold zq in B1, B2. rewrite this_Q2Qc in B1, B2.
    rewrite (this_Q2Qc (inject_Z 2)) in B2. change (this (- (1))) with (-1 # 1)%Q in B1.
    unfold Qlt, inject_Z in *; simpl in *. lia. }
  assert (n = 0 \/ n = 1)%Z as [->| ->] by lia; destruct (qltb_spec x (zq 8)); qlra.
Qed.
Definition quarter_turns (f : Qc) : list Qc := map (fun i => qmod (f + zq i * FRANGLE_90) MAX_FRANGLE) [0; 1; 2; 3]%Z.
Lemma quarter_turns_in f x : 0 <= f -> f < zq 8 -> 0 <= x -> x < zq 8 ->
  (x = f \/ (x = f + zq 2 \/ x = f - zq 6) \/ (x = f + zq 4 \/ x = f - zq 4) \/ (x = f + zq 6 \/ x = f - zq 2)) <-> In x (quarter_turns f).
Proof.
  intros F0 F1 X0 X1. unfold quarter_turns, FRANGLE_90, MAX_FRANGLE. cbn [map In].
  rewrite !qmod8 by qlra.
  destruct (qltb_spec (f + zq 0 * zq 2) (zq 8)); [|exfalso; qlra].
  destruct (qltb_spec (f + zq 1 * zq 2) (zq 8)), (qltb_spec (f + zq 2 * zq 2) (zq 8)), (qltb_spec (f + zq 3 * zq 2) (zq 8));
    try (exfalso; qlra); (split; [intros [H|[[H|H]|[[H|H]|[H|H]]]]|intros [H|[H|[H|[H|[]]]]]]); try (exfalso; qlra);
    first [left; qlra|right; left; qlra|right; right; left; qlra|right; right; right; left; qlra
          |right; left; left; qlra|right; left; right; qlra|right; right; left; left; qlra|right; right; left; right; qlra
          |right; right; right; left; qlra|right; right; right; right; qlra].
Qed.
Lemma side_frangle f s : side f s -> vector_frangle s = Ok f.
Proof. intros S. apply (frk_frangle s f 1). split; [qlra|]. exists s. split; auto. apply pteq; vec; ring. Qed.
Lemma frangle_cw90 u f : vector_frangle u = Ok f -> vector_frangle (cw90 u) = Ok (if qltb f (zq 6) then f + zq 2 else f - zq 6).
Proof.
  intros H. apply frangle_frk in H as (k & K & s & -> & S). apply (frk_frangle _ _ k). split; auto. exists (cw90 s).
  split; [apply pteq; unfold cw90; vec; ring|]. now apply side_rot.
Qed.
Theorem general_vector_ok hes : (forall e, In e hes -> fst e <> snd e) ->
  exists gv, find_general_vector hes = Ok gv /\ gv <> (0, 0) /\
    forall e, In e hes -> cross gv (dir e) <> 0 /\ dot gv (dir e) <> 0.
Proof.
  intros ND. unfold find_general_vector.
  destruct (mapM_every he_key hes) as (frs & E). { intros e I. now apply he_key_ok, ND. }
  rewrite E. cbn [bind]. apply mapM_ok in E.
  fold quarter_turns. set (l := sort_by qltb (flat_map _ frs)).
  assert (IN : forall x, In x l <-> exists f, In f frs /\ In x (quarter_turns f)).
  { intros x. unfold l. rewrite sort_by_in, in_flat_map. reflexivity. }
  assert (FR : forall e, In e hes -> exists f, In f frs /\ he_key e = Ok f).
  { clear -E. induction E as [|a b r1 r2 H1 H2 IH]; intros e []; subst; [exists b; split; [now left|auto]|].
    destruct (IH e H) as (f & A & B). exists f. split; auto. now right. }
  assert (RF : forall f, In f frs -> exists e, In e hes /\ he_key e = Ok f).
  { clear -E. induction E as [|a b r1 r2 H1 H2 IH]; intros e []; subst; [exists a; split; [now left|auto]|].
    destruct (IH e H) as (f & A & B). exists f. split; auto. now right. }
  assert (RANGE : forall f, In f frs -> 0 <= f /\ f < zq 8).
  { intros f F. apply RF in F as (e & I & K). apply frangle_frk in K as (k & K & s & _ & S). eapply side_range; eauto. }
  assert (S : StronglySorted (fun a b => qltb b a = false) l).
  { apply sort_by_sorted; intros; repeat match goal with |- context [qltb ?a ?b] => destruct (qltb_spec a b) | H : context [qltb ?a ?b] |- _ => destruct (qltb_spec a b) end; auto; try discriminate; exfalso; qlra. }
  destruct l as [|first l'] eqn:EL.
  - exists (0, 1). split; auto. split; [intros X; apply pair_inv in X as (_ & X); discriminate|].
    intros e I. apply FR in I as (f & F & K). exfalso. destruct (RANGE f F). apply (IN f). exists f. split; auto.
    apply quarter_turns_in; auto.
  - assert (I1 : In first (first :: l')) by now left. apply IN in I1 as (f & F & Q). destruct (RANGE f F) as (R0 & R1).
    assert (QR : forall x, In x (first :: l') -> 0 <= x /\ x < zq 8).
    { intros x X. apply IN in X as (g & _ & X). unfold quarter_turns in X. apply in_map_iff in X as (i & <- & _).
      destruct (qmod_spec (g + zq i * FRANGLE_90) MAX_FRANGLE) as (? & _ & A & B); [unfold MAX_FRANGLE; qlra|]. split; auto. }
    assert (MIN : forall x, In x (first :: l') -> first <= x).
    { inversion S as [|? ? _ FA]; subst. rewrite Forall_forall in FA. intros x [<-|X]; [qlra|]. specialize (FA x X).
      destruct (qltb_spec x first); [discriminate|qlra]. }
    destruct (QR first (or_introl eq_refl)) as (A0 & A1).
    assert (SEC : exists x, In x (first :: l') /\ first < x).
    { set (x := if qltb first (zq 6) then first + zq 2 else first - zq 6).
      assert (X : In x (first :: l')).
      { apply IN. exists f. split; auto. apply quarter_turns_in; auto; unfold x; [destruct (qltb_spec first (zq 6)); qlra..|].
        apply quarter_turns_in in Q; auto.
        destruct (qltb_spec first (zq 6)); destruct Q as [H|[[H|H]|[[H|H]|[H|H]]]];
          first [left; qlra|right; left; left; qlra|right; left; right; qlra|right; right; left; left; qlra|right; right; left; right; qlra
          |right; right; right; left; qlra|right; right; right; right; qlra]. }
      exists x. split; auto. specialize (MIN x X). unfold x in *. destruct (qltb_spec first (zq 6)); qlra. }
    destruct (filter (fun g => qltb first g) (first :: l')) as [|second rest] eqn:EF.
    { exfalso. destruct SEC as (x & X & LT). assert (Y : In x (filter (fun g => qltb first g) (first :: l'))).
      { apply filter_In. split; auto. destruct (qltb_spec first x); auto. }
      rewrite EF in Y. destruct Y. }
    assert (SI : In second (first :: l') /\ first < second).
    { assert (Y : In second (filter (fun g => qltb first g) (first :: l'))) by (rewrite EF; now left).
      apply filter_In in Y as (Y1 & Y2). split; auto. destruct (qltb_spec first second); [auto|discriminate]. }
    destruct SI as (SI & LT). destruct (QR _ SI) as (B0 & B1).
    assert (NEXT : forall x, In x (first :: l') -> x = first \/ second <= x).
    { intros x X. destruct (qltb_spec first x) as [L|L]; [|left; specialize (MIN x X); qlra]. right.
      assert (Y : In x (filter (fun g => qltb first g) (first :: l'))).
      { apply filter_In. split; auto. destruct (qltb_spec first x); auto. }
      assert (SS : StronglySorted (fun a b => qltb b a = false) (filter (fun g => qltb first g) (first :: l'))).
      { clear -S. revert S. generalize (first :: l'). intros l S. induction S as [|a l S IH FA]; cbn; [constructor|].
        destruct (qltb first a); auto. constructor; auto. rewrite Forall_forall in *. intros y Y. apply filter_In in Y as (Y & _). auto. }
      rewrite EF in Y, SS. destruct Y as [->|Y]; [qlra|]. inversion SS as [|? ? _ FA]; subst. rewrite Forall_forall in FA.
      specialize (FA x Y). destruct (qltb_spec x second); [discriminate|qlra]. }
    set (mid := (first + second) / q2).
    assert (MM : mid * zq 2 = first + second) by (unfold mid, q2; apply qdiv_mul; now apply zq_neq0).
    assert (NI : forall g, In g frs -> In mid (quarter_turns g) -> False).
    { intros g G M. assert (X : In mid (first :: l')) by (apply IN; eauto). destruct (NEXT _ X); qlra. }
    exists (frangle_unit_square_vector mid).
    pose proof (fusv_side mid) as SD. rewrite qmod8 in SD by qlra. destruct (qltb_spec mid (zq 8)); [|exfalso; qlra].
    split; auto. split; [eapply side_nonzero; eauto|]. pose proof (side_frangle _ _ SD) as FM. set (gv := frangle_unit_square_vector mid) in *. clearbody gv.
    intros e I. destruct (FR e I) as (g & G & K). destruct (RANGE g G) as (G0 & G1). split; intros Z.
    + apply (NI g G). apply quarter_turns_in; auto; [qlra..|].
      destruct (fr_parallel gv (dir e) mid g FM K Z) as [(H & _)|([H|H] & _)].
      * left. now symmetry.
      * right. right. left. right. qlra.
      * right. right. left. left. qlra.
    + apply (NI g G). apply quarter_turns_in; auto; [qlra..|].
      assert (Z' : cross gv (cw90 (dir e)) = 0). { transitivity (- dot gv (dir e)); [unfold cw90; vec; ring|rewrite Z; ring]. }
      pose proof (fr_parallel gv (cw90 (dir e)) _ _ FM (frangle_cw90 _ _ K) Z') as P.
      destruct (qltb_spec g (zq 6)); destruct P as [(H & _)|([H|H] & _)];
          first [left; qlra|right; left; left; qlra|right; left; right; qlra|right; right; left; left; qlra|right; right; left; right; qlra
          |right; right; right; left; qlra|right; right; right; right; qlra].
Qed.
