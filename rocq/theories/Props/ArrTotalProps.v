(** * The set operators on operands without slits: C87. *)
From Verif.Model Require Import SegmentTree CellMerger Arrangement2d Aabb Geom2d.
From Verif.Spec Require Import Plane Region Crisp Jordan Simple.
From Verif.Proofs Require Import PyP PolyP WindingP WindingQ WindingR NearP Geom2dP Geom2dOps PlanarP ArrGraphP ArrSoundP ReachP CoverP CrispP CrispQ FlatP ArrTotalR JordanP JordanQ.
From Verif.Props Require Import Primitive2dProps LocateProps Geom2dProps SetOpsProps AreaProps CrispProps JordanProps.

(** the arrangement of the edges of such operands is always built, every sample point of it lies off all edges and is classified, so that only
    the assertions of the merger and of the final check can stop an operation *)
Theorem operations_outcome : forall orc gs op, Forall is_geom2d gs -> Forall clean_geom gs ->
  let A := segment_arrangement orc in
  let segs := flat_map all_segments gs in
  exists a cells, SegmentArrangement (orc segs) segs = Ok a /\
    (forall c, In c (a_cells a) -> off_all gs (fc_point c)) /\
    select_cells A gs op (cell_points a) = Ok cells /\
    ((poly_cells a cells = Err AssertionError /\ arrangement_op A gs op = Err AssertionError) \/
     exists polys, poly_cells a cells = Ok polys /\ is_geom2d polys /\
       (((forall c, In c (a_cells a) -> exists b, op_at gs op (fc_point c) = Ok b /\ (in_geom polys (fc_point c) <-> b = true)) /\ arrangement_op A gs op = Ok polys) \/
        ((exists c b, In c (a_cells a) /\ op_at gs op (fc_point c) = Ok b /\ ~ (in_geom polys (fc_point c) <-> b = true)) /\ arrangement_op A gs op = Err AssertionError))).
Proof.
  intros orc gs op F C A segs. destruct (operation_outcome orc gs op F C) as (a & cells & M & S & H). exists a, cells. split; auto. split; [|auto].
  pose proof (geoms_nondeg gs F) as ND. pose proof (arrangement_ok _ _ a ND M) as AO. intros c I. apply (graph_off gs _ _ (ao_graph _ _ AO)). exact (sample_off _ a AO c I).
Qed.
Print Assumptions operations_outcome.

Definition only_asserts {X} (r : result X) : Prop := match r with Ok _ => True | Err e => e = AssertionError end.
Lemma arr_only orc gs op : Forall is_geom2d gs -> Forall clean_geom gs -> only_asserts (arrangement_op (segment_arrangement orc) gs op).
Proof.
  intros F C. destruct (operation_outcome orc gs op F C) as (a & cells & _ & _ & [(_ & H)|(ps & _ & _ & [(_ & H)|(_ & H)])]); rewrite H; cbn; auto.
Qed.
Lemma tree_errors orc gs f e : Forall sharp gs -> union_tree_loop (segment_arrangement orc) f gs = Err e -> e = AssertionError \/ e = OutOfFuel.
Proof.
  revert gs. induction f as [|f IH]; intros gs F H; (destruct gs as [|g [|h gs]]; [discriminate|discriminate|]).
  - injection H as <-. auto.
  - set (l := g :: h :: gs) in *. change (union_tree_loop (segment_arrangement orc) (S f) l) with
      (nxt <- mapM (union_slice (segment_arrangement orc)) (chunks (length l) l) ;; union_tree_loop (segment_arrangement orc) f nxt) in H.
    destruct (chunks_spec (length l) l) as (C1 & _ & _); [lia|]. assert (FC : Forall (Forall sharp) (chunks (length l) l)).
    { rewrite <- C1 in F. clear -F. induction (chunks (length l) l) as [|c cs IH]; [constructor|]. cbn in F. apply Forall_app in F as (F1 & F2). constructor; auto. }
    destruct (mapM (union_slice (segment_arrangement orc)) (chunks (length l) l)) as [nxt|e'] eqn:NX; cbn [bind] in H.
    + apply (IH nxt) in H; auto. apply mapM_ok in NX. clear -NX FC. induction NX as [|c m cs ms H NX IH]; [constructor|]. inversion FC; subst. constructor; auto. now apply (slice_sharp orc c m).
    + injection H as ->. clear -NX FC. induction (chunks (length l) l) as [|c cs IH]; [discriminate|]. inversion FC as [|? ? F1 F2]; subst. cbn [mapM] in NX.
      destruct (union_slice (segment_arrangement orc) c) as [m|e'] eqn:U; cbn [bind] in NX.
      * destruct (mapM _ cs) as [ms|e'] eqn:MS; cbn [bind] in NX; [discriminate|]. apply IH; auto.
      * injection NX as ->. left. destruct (sharp_both c F1) as (G1 & G2). pose proof (arr_only orc c any_op G1 G2) as O.
        destruct c as [|x [|y c]]; cbn [union_slice] in U; [rewrite U in O; exact O|discriminate|rewrite U in O; exact O].
Qed.
Theorem operators_total : forall orc, let A := segment_arrangement orc in
  (forall gs, Forall is_geom2d gs -> Forall clean_geom gs -> exists a, SegmentArrangement (orc (flat_map all_segments gs)) (flat_map all_segments gs) = Ok a) /\
  (forall a b, sharp a -> sharp b -> only_asserts (g2_or A a b) /\ only_asserts (g2_and A a b) /\ only_asserts (g2_sub A a b)) /\
  (forall gs, Forall sharp gs -> only_asserts (g2_union A gs) /\ only_asserts (union_tree A gs)).
Proof.
  intros orc A. split; [intros gs F C; now apply arrangement_made|]. split.
  - intros a b Sa Sb. destruct (sharp_both [a; b]) as (F & C); auto. pose proof (fun op => arr_only orc [a; b] op F C) as K. unfold A, g2_or, g2_and, g2_sub.
    destruct (g2_is_empty a), (g2_is_empty b); cbn; auto.
  - intros gs F. destruct (sharp_both gs F) as (G & C).
    assert (T : only_asserts (union_tree A gs)).
    { destruct (operations_end orc) as (_ & E). destruct (E gs G) as (E1 & _). fold A in E1. destruct (union_tree A gs) as [r|e] eqn:U; [exact I|]. destruct (tree_errors orc gs _ e F U); auto. congruence. }
    split; auto. unfold g2_union. destruct (UNION_N <? length gs)%nat; auto. now apply arr_only.
Qed.
Print Assumptions operators_total.

(** the assertions can fail: three polygons drawn from simple rings; the union of two of them exists, and joining the third succeeds or fails
    with the order in which the cells come out of their set *)
Local Definition P (x y : Z) : point := (zq x, zq y).
Local Definition dart : list point := [P 0 0; P 2 2; P 0 8; P 8 0].
Local Definition wing : list point := [P 0 0; P 0 8; P 2 2].
Local Definition blade : list point := [P 0 0; P 4 2; P 4 1].
Local Definition order (t : list nat) : list segment -> nat -> nat -> nat := fun _ n k => if Nat.eqb n 3 then nth k t 0%nat else 0%nat.
Lemma simpleb_sharp r : simpleb r = true -> qltb 0 (ring_area r) = true -> sharp [mkSpwh r []].
Proof.
  intros J A. apply simpleb_ok in J. destruct (simple_polygons r J) as (g & r' & _ & -> & R & _ & _ & _ & S & _). rewrite R in S.
  destruct (qltb_spec 0 (ring_area r)); [|discriminate]. destruct (qltb_spec (ring_area r) 0); [exfalso; qlra|exact S].
Qed.
Theorem union_may_fail_refuted : exists pa pb pc a b c d, simple_polygon pa /\ simple_polygon pb /\ simple_polygon pc /\
  polygon (mpq_points pa) true = Ok a /\ polygon (mpq_points pb) true = Ok b /\ polygon (mpq_points pc) true = Ok c /\
  (exists orc, g2_or (segment_arrangement orc) b c = Ok d) /\ sharp a /\ sharp d /\
  (exists orc r, g2_or (segment_arrangement orc) a d = Ok r) /\ (exists orc, g2_or (segment_arrangement orc) a d = Err AssertionError).
Proof.
  assert (Sa : sharp [mkSpwh dart []]) by (apply simpleb_sharp; vm_compute; reflexivity). assert (Sb : sharp [mkSpwh wing []]) by (apply simpleb_sharp; vm_compute; reflexivity).
  assert (Sc : sharp [mkSpwh blade []]) by (apply simpleb_sharp; vm_compute; reflexivity).
  destruct (g2_or (segment_arrangement (order [])) [mkSpwh wing []] [mkSpwh blade []]) as [d|e] eqn:D; [|vm_compute in D; discriminate].
  pose proof (or_sharp _ _ _ d Sb Sc D) as Sd.
  exists dart, wing, blade, [mkSpwh dart []], [mkSpwh wing []], [mkSpwh blade []], d.
  do 3 (split; [apply simpleb_ok; vm_compute; reflexivity|]). do 3 (split; [vm_compute; reflexivity|]). split; [exists (order []); exact D|]. split; [exact Sa|]. split; [exact Sd|]. clear Sa Sb Sc Sd.
  vm_compute in D. injection D as <-. split.
  - exists (order []). eexists. vm_compute. reflexivity.
  - exists (order [2; 1; 0; 0; 0]%nat). vm_compute. reflexivity.
Qed.
Print Assumptions union_may_fail_refuted.
Local Definition sq0 : geom2d := [mkSpwh [P 0 0; P 0 2; P 2 2; P 2 0] []].
Local Definition sq1 : geom2d := [mkSpwh [P 1 1; P 1 3; P 3 3; P 3 1] []].
(** the usual outcome *)
Example operators_total_ex : sharp sq0 /\ sharp sq1 /\ exists r, g2_and (segment_arrangement (order [])) sq0 sq1 = Ok r /\ g2_area r = Ok 1.
Proof.
  do 2 (split; [apply simpleb_sharp; vm_compute; reflexivity|]). exists [mkSpwh [P 1 2; P 2 2; P 2 1; P 1 1] []]. split; vm_compute; reflexivity.
Qed.
