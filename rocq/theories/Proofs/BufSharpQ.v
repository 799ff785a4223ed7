(** * Buffers have no slits: the union and difference of the ribbon pieces *)
From Verif.Model Require Import SegmentTree CellMerger Arrangement2d Aabb Geom2d.
From Verif.Spec Require Import Plane Region Crisp.
From Verif.Proofs Require Import PyP PolyP WindingP WindingQ WindingR NearP Geom2dP Geom2dOps PlanarP SweepOrd SimplifyP ArrGraphP ArrSoundP ReachP AreaP FlatP JumpP CoverP AngleP RibbonP RibbonQ RibbonR CrispP CrispQ OctagonP BufferP BufSharpP.
From Verif.Props Require Import Frangle2dProps LocateProps Geom2dProps SetOpsProps AreaProps CrispProps.

Lemma clean_rev r : clean r -> clean (rev r).
Proof.
  intros C p eps B E. assert (BD : forall x, on_boundary (rev r) x <-> on_boundary r x).
  { assert (K : forall l x, on_boundary l x -> on_boundary (rev l) x).
    { intros l x B'. apply on_boundary_iff in B' as (s & Hs & O). apply on_boundary_iff. exists (sswap s). split.
      - apply (Permutation.Permutation_in _ (Permutation.Permutation_sym (edges_iter_rev l))). now apply in_map.
      - destruct s as [a b]. now apply on_seg_sym. }
    intros x. split; auto. intros X. apply K in X. now rewrite rev_involutive in X. }
  apply BD in B. assert (NE : r <> []) by (intros ->; destruct B as (s & Hs & _); apply is_edge_iter in Hs; exact Hs). assert (NE' : rev r <> []) by (intros X; apply NE; rewrite <- (rev_involutive r), X; reflexivity).
  destruct (C p eps B E) as (q & q' & w & w' & N & N' & Q & Q' & W & W' & D). exists q, q', (- w)%Z, (- w')%Z. rewrite !BD. do 4 (split; [auto|]).
  apply wind_wsum in W, W'; auto. split; [apply wind_wsum; auto; [now rewrite BD|rewrite wsum_rev; lia]|]. split; [apply wind_wsum; auto; [now rewrite BD|rewrite wsum_rev; lia]|lia].
Qed.
Lemma single_clean o : clean_geom [mkSpwh o []] <-> clean o.
Proof. split; [intros C; apply C; exists (mkSpwh o []); cbn; auto|]. intros C r (s & [<-|[]] & [->|[]]). exact C. Qed.
Lemma clean_part g s : clean_geom g -> In s g -> clean (outer s) /\ Forall clean (holes s).
Proof. intros C Hs. split; [apply C; exists s; auto|]. apply Forall_forall. intros h Hh. apply C. exists s. auto. Qed.

(** ** unions of clean parts *)
Definition neat (g : geom2d) : Prop := is_geom2d g /\ clean_geom g.
Lemma sharp_neat g : sharp g -> neat g.
Proof. intros (A & _ & B). split; auto. Qed.
Lemma neat_both gs : Forall neat gs -> Forall is_geom2d gs /\ Forall clean_geom gs.
Proof. intros F. split; (eapply Forall_impl; [|exact F]); intros g (A & B); auto. Qed.
(** what holds of the empty geometry and of every result of the arrangement holds of unions and buffers *)
Section Made.
Variable orc : list segment -> nat -> nat -> nat.
Variable Q : geom2d -> Prop.
Hypothesis Q_nil : Q [].
Hypothesis Q_op : forall gs op r, Forall is_geom2d gs -> Forall clean_geom gs -> op (map (fun _ => false) gs) = false -> arrangement_op (segment_arrangement orc) gs op = Ok r -> Q r.
Lemma slice_made gs r : Forall neat gs -> union_slice (segment_arrangement orc) gs = Ok r -> neat r /\ ((2 <= length gs)%nat -> Q r).
Proof.
  intros F R. destruct (neat_both gs F) as (F1 & F2).
  assert (K : forall l, gs = l -> arrangement_op (segment_arrangement orc) l any_op = Ok r -> neat r /\ Q r) by (intros l <- H; assert (AN : any_op (map (fun _ => false) gs) = false) by apply any_none; split; [exact (sharp_neat _ (arrangement_sharp orc gs any_op r F1 F2 AN H))|exact (Q_op gs any_op r F1 F2 AN H)]).
  destruct gs as [|g [|h gs]]; cbn [union_slice] in R.
  - destruct (K _ eq_refl R). auto.
  - injection R as <-. split; [now inversion F|cbn; lia].
  - destruct (K _ eq_refl R). auto.
Qed.
Lemma tree_made f : forall gs r, Forall neat gs -> union_tree_loop (segment_arrangement orc) f gs = Ok r -> neat r /\ ((2 <= length gs)%nat -> Q r).
Proof.
  induction f as [|f IH]; intros gs r F H; (destruct gs as [|g [|h gs]]; [cbn in H; injection H as <-; split; [apply sharp_neat, sharp_nil|cbn; lia]|cbn in H; injection H as <-; split; [now inversion F|cbn; lia]|]).
  - discriminate.
  - set (l := g :: h :: gs) in *. change (union_tree_loop (segment_arrangement orc) (S f) l) with
      (nxt <- mapM (union_slice (segment_arrangement orc)) (chunks (length l) l) ;; union_tree_loop (segment_arrangement orc) f nxt) in H.
    apply bind_ok in H as (nxt & NX & H). destruct (chunks_spec (length l) l) as (C1 & C2 & _); [lia|]. apply mapM_ok in NX. set (ch := chunks (length l) l) in *. clearbody ch.
    assert (N : Forall neat nxt).
    { rewrite <- C1 in F. clear -NX F Q Q_op. induction NX as [|c m cs ms H NX IH]; [constructor|]. cbn in F. apply Forall_app in F as (F1 & F2). constructor; auto. exact (proj1 (slice_made c m F1 H)). }
    destruct (IH nxt r N H) as (Nr & Sr). split; auto. intros _. destruct nxt as [|m [|m' nxt]].
    + inversion NX; subst ch. discriminate.
    + inversion NX as [|c ? cs ? Hc Hcs E1]. subst. inversion Hcs. subst. cbn [concat] in C1. rewrite app_nil_r in C1. subst c.
      assert (E : union_tree_loop (segment_arrangement orc) f [m] = Ok m) by (destruct f; reflexivity). rewrite E in H. injection H as <-.
      apply (slice_made l m F Hc). cbn. lia.
    + apply Sr. cbn. lia.
Qed.
End Made.
Lemma slice_neat orc gs r : Forall neat gs -> union_slice (segment_arrangement orc) gs = Ok r -> neat r /\ ((2 <= length gs)%nat -> sharp r).
Proof. apply slice_made. apply arrangement_sharp. Qed.
Lemma tree_neat orc f gs r : Forall neat gs -> union_tree_loop (segment_arrangement orc) f gs = Ok r -> neat r /\ ((2 <= length gs)%nat -> sharp r).
Proof. apply tree_made. apply arrangement_sharp. Qed.

(** a union with a clean part is not empty *)
Lemma neat_inhabited g : neat g -> g <> [] -> Forall (fun s => holes s = []) g -> exists p, ~ on_bd g p /\ in_geom g p.
Proof.
  intros (G & C) NE H. destruct g as [|s g]; [tauto|]. assert (Gs : spwh_ok s) by (inversion G; auto). pose proof Gs as Ks. apply spwh_ok_iff in Ks as ((N & _) & _).
  destruct (clean_part _ s C ltac:(now left)) as (Co & _). destruct (clean_differ _ Co N) as (p & NB & W).
  assert (G1 : is_geom2d [mkSpwh (outer s) []]). { constructor; [|constructor]. apply spwh_ok_iff in Gs as (R & _). apply spwh_ok_iff. cbn. auto. }
  destruct (near_region p 1 [mkSpwh (outer s) []] [s :: g]) as (q & _ & B & I & O); [qlra|exact G1|intros (x & (s' & [<-|[]] & [->|[]]) & B); auto|].
  exists q. split; [apply O; now left|]. rewrite !in_single in I. exists s. split; [now left|]. split; [apply I; now apply wsum_in_ring|]. inversion H as [|? ? E _]. rewrite E. intros ? [].
Qed.
Lemma union_inhabited orc gs g r : Forall neat gs -> In g gs -> g <> [] -> Forall (fun s => holes s = []) g -> union_tree (segment_arrangement orc) gs = Ok r -> r <> [].
Proof.
  intros F Hg NE H R -> . destruct (neat_both gs F) as (F1 & F2). destruct (neat_inhabited g) as (p & B & I); auto. { rewrite Forall_forall in F. auto. }
  destruct (near_region p 1 g gs) as (q & _ & _ & J & O); [qlra|rewrite Forall_forall in F1; auto|auto|].
  apply (union_tree_ok _ gs [] (arrangement_sound orc) F1) in R. destruct R as (_ & _ & R). apply (R q) in O.
  assert (X : in_geom [] q) by (apply O; exists g; tauto). destruct X as (s & [] & _).
Qed.

(** ** the whole operation *)
Section Oct.
Variables a b : Qc.
Hypothesis B0 : 0 < b.
Hypothesis AB : b < a.
Hypothesis A2 : a < zq 2 * b.
Lemma pieces_clean s R es : s = 1 \/ s = - (1) -> R <> [] -> minkowski_ribbon_simple_convex R (oct a b) s = Ok es -> es <> [] /\ Forall (fun e => clean e /\ e <> []) es.
Proof.
  intros S N H. pose proof H as H'. unfold minkowski_ribbon_simple_convex in H'. apply bind_ok in H' as (u & _ & H'). apply bind_ok in H' as (u' & _ & H'). apply bind_ok in H' as (D & DE & _).
  exact (ribbons_clean (oct a b) (oct_F a b) ltac:(cbn; lia) (oct_FT a b) (oct_FI a b B0 AB A2) (oct_FA a b B0 AB A2) D DE (oct_C1 a b B0 AB A2) (oct_C3 a b B0 AB A2) s R es S N H).
Qed.
Section Mink.
Variable orc : list segment -> nat -> nat -> nat.
Variable Q : geom2d -> Prop.
Hypothesis Q_nil : Q [].
Hypothesis Q_op : forall gs op r, Forall is_geom2d gs -> Forall clean_geom gs -> op (map (fun _ => false) gs) = false -> arrangement_op (segment_arrangement orc) gs op = Ok r -> Q r.
Lemma mink_made depth : forall g sign r, neat g -> locate_point_polygon_winding_number (oct a b) (0, 0) = Ok 1%Z -> sign = 1 \/ sign = - (1) ->
  minkowski_convex_op (segment_arrangement orc) depth g (oct a b) sign = Ok r -> neat r /\ Q r.
Proof.
  set (A := segment_arrangement orc). induction depth as [|depth IH]; intros g sign r (G & C) L Sg R; [discriminate|].
  cbn [minkowski_convex_op] in R. rewrite L in R. cbn [bind] in R.
  change (negb (1 =? 1)%Z) with false in R. cbn iota in R.
  destruct (passert (negb (qeqb sign 0))) as [u|] eqn:P0; cbn [bind] in R; [|discriminate].
  destruct (mapM _ g) as [parts|] eqn:EP in R; cbn [bind] in R; [|discriminate].
  destruct (mapM _ (flat_map holes g)) as [hneg|] eqn:EH in R; cbn [bind] in R; [|discriminate].
  destruct (union_tree A _) as [gpos|] eqn:EU1 in R; cbn [bind] in R; [|discriminate].
  destruct (union_tree A _) as [gneg|] eqn:EU2 in R; cbn [bind] in R; [|discriminate].
  apply PyP.mapM_ok in EP. apply PyP.mapM_ok in EH.
  assert (FP : Forall2 (fun s pe => neat (fst pe) /\ snd pe <> [] /\ Forall (fun x => neat x /\ x <> [] /\ Forall (fun s => holes s = []) x) (snd pe)) g parts).
  { clear -EP G C Sg B0 AB A2. revert G C. induction EP as [|s pe g parts H EP IHp]; intros G C; constructor.
    - inversion G; subst. destruct (clean_part _ s C ltac:(now left)) as (Co & _).
      apply bind_ok in H as (t & T & H). apply bind_ok in H as (o & O & H). apply bind_ok in H as (simples & S & H). apply bind_ok in H as (ext & X & H).
      injection H as <-. rewrite transformed_shift0 in T by auto. injection T as <-. pose proof (single_geom _ _ O) as Go. apply single_ok in O as (-> & RO). cbn [fst snd].
      split; [split; [auto|now apply single_clean]|]. apply PyP.mapM_ok in X. destruct (pieces_clean sign _ _ Sg (proj1 RO) S) as (NS & FS). split.
      + intros ->. inversion X. subst. tauto.
      + clear -X FS. induction X as [|e x l m H X IHe]; constructor; [|inversion FS; auto]. apply bind_ok in H as (e' & E' & H). pose proof (single_geom _ _ H) as Gx. rewrite shift0 in H. apply single_ok in H as (-> & _).
        assert (Ce : clean e') by (unfold reorient in E'; apply bind_ok in E' as (ar & _ & E'); injection E' as <-; inversion FS as [|? ? (Q & _)]; destruct (qltb ar 0); [now apply clean_rev|auto]).
        split; [split; [exact Gx|now apply single_clean]|]. split; [discriminate|repeat constructor].
    - apply IHp; [inversion G; auto|]. intros x (s' & Hs & Q). apply C. exists s'. split; [now right|auto]. }
  assert (NH : Forall neat hneg).
  { assert (CH : Forall clean (flat_map holes g)). { apply Forall_forall. intros h Hh. apply in_flat_map in Hh as (s & Hs & Hh). destruct (clean_part _ s C Hs) as (_ & Qx). rewrite Forall_forall in Qx. auto. }
    clear -EH L Sg IH CH. induction EH as [|h m hs ms H EH IHh]; constructor; [|inversion CH; auto]. apply bind_ok in H as (x & E & H).
    pose proof (single_geom _ _ E) as G1. apply single_ok in E as (-> & RO). inversion CH. apply (IH [mkSpwh h []] (- sign) m); auto; [split; [auto|now apply single_clean]|destruct Sg as [->| ->]; [right|left]; qlra]. }
  assert (NP : Forall neat (map fst parts) /\ Forall neat (flat_map snd parts)).
  { clear -FP. induction FP as [|s pe g parts (P1 & P2 & P3) FP (IH1 & IH2)]; [split; constructor|]. split; [constructor; auto|]. cbn [flat_map]. apply Forall_app. split; auto. eapply Forall_impl; [|exact P3]. intros x (X & _). exact X. }
  destruct NP as (N1 & N2).
  assert (NPE : Forall neat (flat_map (fun pe => fst pe :: snd pe) parts)).
  { clear -N1 N2. induction parts as [|pe ps IH]; [constructor|]. cbn [flat_map map] in *. apply Forall_app in N2 as (Q1 & Q2). inversion N1. cbn [app]. constructor; auto. apply Forall_app. auto. }
  assert (SUB : neat gpos -> neat gneg -> Q gpos \/ gneg <> [] -> neat r /\ Q r).
  { intros Np Ng D. unfold g2_sub in R. destruct (g2_is_empty gneg) eqn:E.
    - injection R as <-. split; auto. destruct D as [D|D]; auto. destruct gneg; [tauto|discriminate].
    - destruct (neat_both [gpos; gneg]) as (F1 & F2); [repeat constructor; first [apply Np|apply Ng]|]. split; [apply sharp_neat; refine (arrangement_sharp orc _ _ r F1 F2 _ R); reflexivity|].
      refine (Q_op _ _ r F1 F2 _ R). reflexivity. }
  destruct Sg as [-> | ->].
  - change (qltb 0 1) with true in *. cbv iota in *. cbn [app] in EU2. destruct (tree_made orc Q Q_op _ _ _ NPE EU1) as (Np & S1). destruct (tree_made orc Q Q_op _ _ _ NH EU2) as (Ng & _).
    apply SUB; auto. left. destruct FP as [|s pe g parts (P1 & P2 & P3) FP].
    + cbn in EU1. injection EU1 as <-. exact Q_nil.
    + apply S1. cbn [flat_map app length]. rewrite app_length. destruct (snd pe); [tauto|cbn; lia].
  - change (qltb 0 (- (1))) with false in *. cbv iota in *. assert (N3 : Forall neat (flat_map snd parts ++ hneg)) by (apply Forall_app; auto).
    destruct (tree_made orc Q Q_op _ _ _ N1 EU1) as (Np & _). destruct (tree_made orc Q Q_op _ _ _ N3 EU2) as (Ng & _). apply SUB; auto.
    destruct FP as [|s pe g parts (P1 & P2 & P3) FP].
    + cbn in EU1. injection EU1 as <-. left. exact Q_nil.
    + right. destruct (snd pe) as [|x xs] eqn:EX; [tauto|]. inversion P3 as [|? ? (X1 & X2 & X3) _]. apply (union_inhabited orc (flat_map snd (pe :: parts) ++ hneg) x gneg); auto. cbn [flat_map]. rewrite EX. left. reflexivity.
Qed.
End Mink.
Lemma mink_sharp orc depth g sign r : neat g -> locate_point_polygon_winding_number (oct a b) (0, 0) = Ok 1%Z -> sign = 1 \/ sign = - (1) ->
  minkowski_convex_op (segment_arrangement orc) depth g (oct a b) sign = Ok r -> sharp r.
Proof. intros N L S H. apply (mink_made orc sharp sharp_nil (arrangement_sharp orc) depth g sign r N L S H). Qed.
End Oct.
