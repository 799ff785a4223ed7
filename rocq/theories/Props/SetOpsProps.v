(** * The set operators over the real arrangement: C38-C40, C42, C71. *)
From Verif.Model Require Import SegmentTree CellMerger Arrangement2d Aabb Geom2d.
From Verif.Spec Require Import Plane Subdivision Region.
From Verif.Proofs Require Import PyP PolyP NearP SimplifyP MergerP MergerQ ArrSoundP ArrFuelP Geom2dP Geom2dOps BufferP.
From Verif.Props Require Import Geom2dProps Arrangement2dProps LocateProps.

Local Definition P (x y : Z) : point := (zq x, zq y).
Local Definition orc0 : list segment -> nat -> nat -> nat := fun _ _ _ => O.
Local Definition A0 := segment_arrangement orc0.
Local Definition sq (a b : Z) : list point := [P a a; P a b; P b b; P b a].
Local Definition box (a b : Z) : geom2d := [mkSpwh (sq a b) []].
Local Ltac geom := repeat constructor; vm_compute; reflexivity.

(** ** C38 on two overlapping squares *)
Example set_operators_ex : is_geom2d (box 0 4) /\ is_geom2d (box 2 6) /\
  (r <- g2_or A0 (box 0 4) (box 2 6) ;; g2_area r) = Ok (zq 28) /\
  (r <- g2_and A0 (box 0 4) (box 2 6) ;; g2_area r) = Ok (zq 4) /\
  (r <- g2_sub A0 (box 0 4) (box 2 6) ;; g2_area r) = Ok (zq 12) /\
  (r <- g2_sub A0 (box 0 4) (box 1 3) ;; Ok (map (fun s => length (holes s)) r)) = Ok [1%nat].
Proof. repeat split; try geom; vm_compute; reflexivity. Qed.

(** ** C39 *)
Lemma no_cells a : poly_cells a [] = Ok [].
Proof. reflexivity. Qed.
Lemma select_none A gs op cps cells : (forall p b, op_at gs op p = Ok b -> b = false) -> select_cells A gs op cps = Ok cells -> cells = [].
Proof.
  intros H. revert cells. induction cps as [|[c p] cps IH]; intros cells S; cbn [select_cells] in S; [now injection S as <-|].
  apply bind_ok in S as (b & B & S). apply bind_ok in S as (r & R & S). rewrite (H p b B) in S. injection S as <-. now apply IH.
Qed.
Lemma nothing_selected orc gs op r : (forall p b, op_at gs op p = Ok b -> b = false) -> arrangement_op (segment_arrangement orc) gs op = Ok r -> r = [].
Proof.
  intros H R. unfold arrangement_op in R. cbn [arr_make arr_cell_points arr_poly_cells segment_arrangement arr_t arr_cell] in R.
  apply bind_ok in R as (a & _ & R). apply bind_ok in R as (cps & _ & R). apply bind_ok in R as (cells & S & R).
  apply (select_none (segment_arrangement orc)) in S; auto. subst cells. rewrite no_cells in R. cbn [bind] in R. apply bind_ok in R as (u & _ & R). now injection R as <-.
Qed.
Lemma op_at2 a b op p v : op_at [a; b] op p = Ok v -> exists x y, g2_locate a p = Ok x /\ g2_locate b p = Ok y /\ v = op [(0 <? x)%Z; (0 <? y)%Z].
Proof.
  unfold op_at. intros B. apply bind_ok in B as (locs & L & B). apply bind_ok in B as (u & _ & B). injection B as <-.
  apply mapM_ok in L. inversion L as [|? x ? l X L1]; subst. inversion L1 as [|? y ? l' Y L2]; subst. inversion L2; subst. eauto.
Qed.
Theorem empty_shortcuts : forall orc a, let A := segment_arrangement orc in
  g2_or A a g2_empty = Ok a /\ g2_or A g2_empty a = Ok a /\ g2_sub A a g2_empty = Ok a /\
  (forall r, g2_and A g2_empty a = Ok r \/ g2_and A a g2_empty = Ok r \/ g2_sub A g2_empty a = Ok r -> r = g2_empty).
Proof.
  intros orc a A. split; [unfold g2_or; destruct a; reflexivity|]. split; [reflexivity|]. split; [reflexivity|].
  intros r [R|[R|R]].
  - apply (nothing_selected orc) in R; auto. intros p b B. apply op_at2 in B as (x & y & X & Y & ->). injection X as <-. reflexivity.
  - apply (nothing_selected orc) in R; auto. intros p b B. apply op_at2 in B as (x & y & X & Y & ->). injection Y as <-. apply andb_false_r.
  - unfold g2_sub in R. destruct a as [|s a]; [now injection R as <-|]. cbn [g2_is_empty] in R.
    apply (nothing_selected orc) in R; auto. intros p b B. apply op_at2 in B as (x & y & X & Y & ->). injection X as <-. reflexivity.
Qed.
Print Assumptions empty_shortcuts.
Example empty_shortcuts_ex : g2_and A0 g2_empty (box 0 4) = Ok [] /\ g2_and A0 (box 0 4) g2_empty = Ok [] /\ g2_sub A0 g2_empty (box 0 4) = Ok [].
Proof. repeat split; vm_compute; reflexivity. Qed.

(** ** C71: no operation runs forever *)
Lemma nf_slice orc gs : Forall is_geom2d gs -> nf (union_slice (segment_arrangement orc) gs).
Proof.
  intros F. unfold union_slice. destruct gs as [|g [|h gs]]; try apply nf_ok; now apply set_operation_ends.
Qed.
Lemma chunks_in {X} fuel : forall (l c : list X) x, In c (chunks fuel l) -> In x c -> In x l.
Proof.
  induction fuel as [|f IH]; intros [|y l] c x C I; cbn [chunks] in C; try destruct C as [<-|C]; try destruct C; auto.
  - rewrite <- (firstn_skipn UNION_N (y :: l)). apply in_or_app. now left.
  - rewrite <- (firstn_skipn UNION_N (y :: l)). apply in_or_app. right. eapply IH; eauto.
Qed.
Lemma nf_union_tree orc gs : Forall is_geom2d gs -> nf (union_tree (segment_arrangement orc) gs).
Proof.
  set (A := segment_arrangement orc).
  unfold union_tree. enough (G : forall f l, (length l <= f)%nat -> Forall is_geom2d l -> nf (union_tree_loop A f l)) by (intros; apply G; auto).
  induction f as [|f IH]; intros [|g [|h l]] L F; try apply nf_ok; [cbn in L; lia|].
  set (m := g :: h :: l) in *. change (union_tree_loop A (S f) m) with
      (nxt <- mapM (union_slice A) (chunks (length m) m) ;; union_tree_loop A f nxt).
  assert (FC : forall c, In c (chunks (length m) m) -> Forall is_geom2d c).
  { intros c C. apply Forall_forall. intros x X. rewrite Forall_forall in F. apply F. eapply chunks_in; eauto. }
  apply nf_bind; [apply nf_mapM; intros c C; apply nf_slice; now apply FC|]. intros nxt E. apply mapM_ok in E. apply IH.
  - apply F2_length in E. rewrite <- E. assert (2 <= length m)%nat by (cbn; lia). pose proof (chunks_shrink m). lia.
  - assert (NE : forall c, In c (chunks (length m) m) -> c <> []).
    { destruct (chunks_spec (length m) m) as (_ & N & _); [lia|]. rewrite Forall_forall in N. exact N. }
    clear -FC E NE. induction E as [|c r cs rs R E IHE]; constructor.
    + apply (union_slice_ok A) in R; [apply R|apply arrangement_sound|apply FC; now left|apply NE; now left].
    + apply IHE; intros; [apply FC|apply NE]; now right.
Qed.
Lemma nf_sub orc a b : is_geom2d a -> is_geom2d b -> nf (g2_sub (segment_arrangement orc) a b).
Proof. intros Ga Gb. unfold g2_sub. destruct (g2_is_empty b); [apply nf_ok|]. apply set_operation_ends. auto. Qed.
Theorem operations_end : forall orc, let A := segment_arrangement orc in
  (forall a b, is_geom2d a -> is_geom2d b -> g2_or A a b <> Err OutOfFuel /\ g2_and A a b <> Err OutOfFuel /\ g2_sub A a b <> Err OutOfFuel) /\
  (forall gs, Forall is_geom2d gs -> union_tree A gs <> Err OutOfFuel /\ g2_union A gs <> Err OutOfFuel).
Proof.
  intros orc A. split.
  - intros a b Ga Gb. split; [|split; [apply set_operation_ends; auto|now apply nf_sub]].
    unfold g2_or. destruct (g2_is_empty a); [discriminate|]. destruct (g2_is_empty b); [discriminate|]. apply set_operation_ends. auto.
  - intros gs F. split; [now apply nf_union_tree|]. unfold g2_union. destruct (UNION_N <? length gs)%nat; [now apply nf_union_tree|now apply set_operation_ends].
Qed.
Print Assumptions operations_end.

Lemma nf_spwh o hs : nf (Simple_Polygon_With_Holes o hs).
Proof. unfold Simple_Polygon_With_Holes, check_hole, check_no_dups. nfs; apply nf_area. Qed.
Lemma nf_single o : nf (single o).
Proof. unfold single. nfs. apply nf_spwh. Qed.
Lemma nf_starts i es d : nf (edge_starts i es d).
Proof. revert i d. induction es as [|[v0 v1] es IH]; intros i d; cbn [edge_starts]; nfs; auto. apply nf_frangle. Qed.
Lemma nf_ribbon sp cp sg : nf (minkowski_ribbon_simple_convex sp cp sg).
Proof.
  unfold minkowski_ribbon_simple_convex. nfs; [apply nf_starts|]. unfold ribbon_part. nfs; try apply nf_frangle; try (unfold find_vertex_on; nfs; fail);
  match goal with |- nf (simplify_degeneracies ?v) => destruct (simplify_degeneracies_ok v) as (r & -> & _); apply nf_ok end.
Qed.
Lemma nf_mink orc depth : forall g cpoly sign, (2 <= depth \/ 1 <= depth /\ flat_map holes g = [])%nat ->
  nf (minkowski_convex_op (segment_arrangement orc) depth g cpoly sign).
Proof.
  pose proof (arrangement_sound orc) as SA. induction depth as [|depth IH]; intros g cpoly sign D; [lia|]. cbn [minkowski_convex_op].
  apply nf_bind; [apply nf_passert|intros u _]. apply nf_bind; [apply nf_locate|intros l _]. apply nf_bind.
  { nfs. apply nf_locate. }
  intros (off & cp) _. apply nf_bind.
  { unfold spwh_transformed_with, fpoly, reorient. nfs; try apply nf_area; try apply nf_spwh; try apply nf_single; apply nf_ribbon. }
  intros parts P1. apply mink_parts, parts_geoms in P1 as (F1 & F2 & F3). apply nf_bind.
  { apply nf_mapM. intros h H. apply nf_bind; [apply nf_single|]. intros x X. apply single_ok in X as (-> & _). apply IH. right.
    split; [|reflexivity]. destruct D as [D|(_ & D)]; [lia|]. rewrite D in H. destruct H. }
  intros hneg HN. assert (FH : Forall is_geom2d hneg).
  { apply mapM_ok in HN. clear -HN SA. induction HN as [|h x l l' R HN IHH]; constructor; auto. apply bind_ok in R as (y & _ & R). eapply mink_geom; eauto. }
  assert (FP : Forall is_geom2d (if qltb 0 sign then flat_map (fun pe => fst pe :: snd pe) parts else map fst parts)) by (destruct (qltb 0 sign); auto).
  assert (FN : Forall is_geom2d ((if qltb 0 sign then [] else flat_map snd parts) ++ hneg)) by (apply Forall_app; split; auto; destruct (qltb 0 sign); auto).
  apply nf_bind; [now apply nf_union_tree|]. intros gpos U1. apply nf_bind; [now apply nf_union_tree|]. intros gneg U2.
  apply (union_tree_ok (segment_arrangement orc)) in U1; auto. apply (union_tree_ok (segment_arrangement orc)) in U2; auto. apply nf_sub; [apply U1|apply U2].
Qed.
Theorem buffer_ends : forall orc fsqrt g amount, g2_buffer (segment_arrangement orc) fsqrt g amount <> Err OutOfFuel.
Proof.
  intros. unfold g2_buffer. match goal with |- (if ?b then _ else _) <> _ => destruct b; [discriminate|] end.
  apply nf_bind; [unfold FractionFromExact; nfs|]. intros q _. apply nf_mink. left. lia.
Qed.
Print Assumptions buffer_ends.

(** ** C40 *)
Theorem union_any_number : forall orc gs, Forall is_geom2d gs -> let A := segment_arrangement orc in
  (forall r, union_tree A gs = Ok r -> is_op gs (fun p => exists g, In g gs /\ in_geom g p) r) /\
  (forall r, g2_union A gs = Ok r -> is_op gs (fun p => exists g, In g gs /\ in_geom g p) r) /\
  union_tree A gs <> Err OutOfFuel /\ g2_union A gs <> Err OutOfFuel.
Proof.
  intros orc gs F A. pose proof (arrangement_sound orc) as S. split; [intros r; now apply union_tree_ok|]. split; [intros r; now apply g2_union_ok|].
  now apply (operations_end orc).
Qed.
Print Assumptions union_any_number.
Example union_ex : (r <- union_tree A0 [box 0 4; box 2 6; box 10 12; box 5 7] ;; g2_area r) = Ok (zq 35).
Proof. vm_compute. reflexivity. Qed.

(** ** C42 *)
(** what holds *)
Theorem buffer_direction_partial : forall orc fsqrt g amount q r, 0 < fsqrt 1 -> 0 < fsqrt (zq 2) -> is_geom2d g ->
  g2_buffer (segment_arrangement orc) fsqrt g amount = Ok r -> pval amount = Some (Fin q) ->
  is_geom2d r /\ (q = 0 -> r = g) /\
  (0 < q -> no_nesting g -> forall p, ~ on_bd g p -> ~ on_bd r p -> in_geom g p -> in_geom r p) /\
  (q < 0 -> forall p, ~ on_bd g p -> ~ on_bd r p -> in_geom r p -> in_geom g p).
Proof. intros. eapply (buffer_direction_rel (segment_arrangement orc)); eauto. apply arrangement_sound. Qed.
Print Assumptions buffer_direction_partial.

(** what does not: an island in a hole, as [|] and [-] themselves make it, disappears when grown by 1.
    [fs] is FractionFromFloat(math.sqrt(x), -10) (gmpy2.f2q with relative error 2^-10) on the two numbers
    it is called with: 1 and, for x = 2, the continued fraction convergent 41/29. *)
Local Definition fs (q : Qc) : Qc := if qeqb q 1 then 1 else qq 41 29.
Local Definition island : geom2d := [mkSpwh (sq 14 16) []; mkSpwh (sq 0 30) [sq 10 20]].
Lemma island_gone : (r <- g2_buffer A0 fs island (NInt 1) ;; g2_locate r (P 15 15)) = Ok (-1)%Z.
Proof. vm_compute. reflexivity. Qed.
Theorem buffer_island_refuted : exists orc fsqrt outer hole inner g r p, 0 < fsqrt 1 /\ 0 < fsqrt (zq 2) /\
  let A := segment_arrangement orc in
  (ring <- g2_sub A outer hole ;; g2_or A ring inner) = Ok g /\ is_geom2d g /\
  g2_buffer A fsqrt g (NInt 1) = Ok r /\ g2_locate g p = Ok 1%Z /\ g2_locate r p = Ok (-1)%Z.
Proof.
  exists orc0, fs, (box 0 30), (box 10 20), (box 14 16), island. pose proof island_gone as H.
  destruct (g2_buffer A0 fs island (NInt 1)) as [r|e] eqn:E; [|discriminate H]. cbn [bind] in H. exists r, (P 15 15).
  split; [reflexivity|]. split; [reflexivity|]. cbv zeta. split; [vm_compute; reflexivity|]. split; [geom|].
  split; [exact E|]. split; [vm_compute; reflexivity|exact H].
Qed.
Print Assumptions buffer_island_refuted.
(** and grown without nesting *)
Example buffer_ex : (r <- g2_buffer A0 fs (box 0 4) (NInt 1) ;; a <- g2_locate r (P 2 2) ;; b <- g2_locate r (qq 9 2, zq 2) ;; c <- g2_locate r (zq 6, zq 2) ;; Ok (a, b, c)) = Ok (1, 1, -1)%Z /\
  (r <- g2_buffer A0 fs (box 0 4) (NInt (-1)) ;; a <- g2_locate r (P 2 2) ;; b <- g2_locate r (qq 7 2, zq 2) ;; Ok (a, b)) = Ok (1, -1)%Z.
Proof. split; vm_compute; reflexivity. Qed.
