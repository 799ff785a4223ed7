(** * What a buffer contains, in terms of the ribbons along the rings *)
From Verif.Model Require Import Geom2d.
From Verif.Spec Require Import Plane Region Hull Simple.
From Verif.Proofs Require Import PyP PolyP WindingP WindingQ WindingR NearP SimplifyP Geom2dP Geom2dOps ReachP FingerP CoverP RibbonR.
From Verif.Props Require Import Geom2dProps.

Definition ribbed (cpoly : list point) (sign : Qc) (R : list point) (p : point) : Prop :=
  exists es e, minkowski_ribbon_simple_convex R cpoly sign = Ok es /\ In e es /\ in_ring e p.
Lemma in_ring_ne r p : in_ring r p -> r <> [].
Proof. intros (w & (o & _ & ->) & N) ->. apply N. reflexivity. Qed.

Lemma mink_ribbed A depth : arr_sound A -> forall g cpoly sign r, is_geom2d g ->
  locate_point_polygon_winding_number cpoly (0, 0) = Ok 1%Z -> sign = 1 \/ sign = - (1) ->
  minkowski_convex_op A depth g cpoly sign = Ok r ->
  is_geom2d r /\ (forall s, In s g -> (exists es, minkowski_ribbon_simple_convex (outer s) cpoly sign = Ok es) /\ forall h, In h (holes s) -> exists es, minkowski_ribbon_simple_convex h cpoly (- sign) = Ok es) /\ exists S, forall p, off_segs S p ->
    (sign = 1 -> (exists s, In s g /\ (in_ring (outer s) p \/ ribbed cpoly 1 (outer s) p)) ->
       (forall s h, In s g -> In h (holes s) -> in_ring h p -> ribbed cpoly (- (1)) h p) -> in_geom r p) /\
    (sign = - (1) -> in_geom r p -> (exists s, In s g /\ in_ring (outer s) p) /\ (forall s, In s g -> ~ ribbed cpoly (- (1)) (outer s) p) /\
       forall s h, In s g -> In h (holes s) -> ~ in_ring h p /\ ~ ribbed cpoly 1 h p).
Proof.
  intros SA. induction depth as [|depth IH]; intros g cpoly sign r G L Sg R; [discriminate|].
  cbn [minkowski_convex_op] in R. rewrite L in R. cbn [bind] in R.
  change (negb (1 =? 1)%Z) with false in R. cbn iota in R.
  destruct (passert (negb (qeqb sign 0))) as [u|] eqn:P0; cbn [bind] in R; [|discriminate].
  destruct (mapM _ g) as [parts|] eqn:EP in R; cbn [bind] in R; [|discriminate].
  destruct (mapM _ (flat_map holes g)) as [hneg|] eqn:EH in R; cbn [bind] in R; [|discriminate].
  destruct (union_tree A _) as [gpos|] eqn:EU1 in R; cbn [bind] in R; [|discriminate].
  destruct (union_tree A _) as [gneg|] eqn:EU2 in R; cbn [bind] in R; [|discriminate].
  apply PyP.mapM_ok in EP. apply PyP.mapM_ok in EH.
  assert (FP : Forall2 (fun s pe => fst pe = [mkSpwh (outer s) []] /\ ring_ok (outer s) /\ Forall is_geom2d (snd pe) /\
     (exists es, minkowski_ribbon_simple_convex (outer s) cpoly sign = Ok es) /\
     forall p, off_all (snd pe) p -> ribbed cpoly sign (outer s) p -> exists x, In x (snd pe) /\ in_geom x p) g parts).
  { clear -EP G. revert G. induction EP as [|s pe g parts H EP IHp]; intros G; constructor.
    - inversion G; subst. apply bind_ok in H as (t & T & H). apply bind_ok in H as (o & O & H). apply bind_ok in H as (simples & S & H). apply bind_ok in H as (ext & X & H).
      injection H as <-. rewrite transformed_shift0 in T by auto. injection T as <-. apply single_ok in O as (-> & RO). cbn [fst snd]. split; [reflexivity|]. split; [exact RO|].
      apply PyP.mapM_ok in X. split; [|split; [eauto|]].
      + clear -X. induction X as [|e x l m H X IHe]; constructor; auto. apply bind_ok in H as (e' & _ & H). eapply single_geom; eauto.
      + intros p OFF (es & e & S' & He & I). rewrite S in S'. injection S' as <-.
        assert (exists e' x, In x ext /\ (e' = e \/ e' = rev e) /\ x = [mkSpwh e' []]) as (e' & x & Hx & Ee & ->).
        { clear -X He. induction X as [|e0 x' l m H X IHe]; [destruct He|]. destruct He as [->|He].
          - apply bind_ok in H as (e' & E' & H). rewrite shift0 in H. apply single_ok in H as (-> & _). exists e', [mkSpwh e' []]. split; [cbn; auto|]. split; auto.
            unfold reorient in E'. apply bind_ok in E' as (a & _ & E'). injection E' as <-. destruct (qltb a 0); auto.
          - destruct (IHe He) as (e1 & e2 & A1 & A2 & A3). exists e1, e2. cbn. auto. }
        exists [mkSpwh e' []]. split; auto. apply in_single. destruct Ee as [->| ->]; auto. apply in_ring_rev; auto; [now apply in_ring_ne in I|].
        intros B. apply (OFF _ Hx). exists (rev e). split; [exists (mkSpwh (rev e) []); cbn; auto|]. now apply on_boundary_rev.
    - inversion G; subst; auto. }
  assert (FH : Forall2 (fun h m => is_geom2d m /\ (exists es, minkowski_ribbon_simple_convex h cpoly (- sign) = Ok es) /\ exists S, forall p, off_segs S p ->
       (sign = - (1) -> in_ring h p \/ ribbed cpoly 1 h p -> in_geom m p) /\
       (sign = 1 -> in_geom m p -> in_ring h p /\ ~ ribbed cpoly (- (1)) h p)) (flat_map holes g) hneg).
  { clear -EH L Sg IH. induction EH as [|h m hs ms H EH IHh]; constructor; auto. apply bind_ok in H as (x & E & H).
    pose proof (single_geom _ _ E) as G1. apply single_ok in E as (-> & RO).
    destruct (IH [mkSpwh h []] cpoly (- sign) m G1 L) as (G2 & RB & S & HS); [destruct Sg as [->| ->]; [right|left]; qlra|exact H|].
    split; auto. split; [apply (RB (mkSpwh h [])); cbn; auto|]. exists S. intros p O. destruct (HS p O) as (H1 & H2). split; intros E I.
    - apply H1; [rewrite E; qlra|eexists; split; [left; reflexivity|exact I]|]. intros s x [<-|[]] [].
    - destruct H2 as ((s & [<-|[]] & J) & K & _); [rewrite E; qlra|exact I|]. split; [exact J|]. apply (K _ (or_introl eq_refl)). }
  set (pos := if qltb 0 sign then flat_map (fun pe => fst pe :: snd pe) parts else map fst parts) in *.
  set (neg := (if qltb 0 sign then [] else flat_map snd parts) ++ hneg) in *.
  assert (GP : Forall is_geom2d pos).
  { assert (X : Forall (fun pe => is_geom2d (fst pe) /\ Forall is_geom2d (snd pe)) parts).
    { clear -FP. induction FP as [|s pe g parts (E1 & E2 & E3 & _) FP IHp]; constructor; auto. destruct pe as [q ext]. cbn [fst snd] in *. subst q. split; auto.
      constructor; [|constructor]. apply spwh_ok_iff. cbn. auto. }
    clear -X. unfold pos. destruct (qltb 0 sign); induction X as [|pe l (X1 & X2) X IHx]; cbn; try constructor; auto.
    apply Forall_app. auto. }
  assert (GN : Forall is_geom2d neg).
  { unfold neg. apply Forall_app. split.
    - clear -FP. destruct (qltb 0 sign); [constructor|]. induction FP as [|s pe g parts (E1 & E2 & E3 & _) FP IHp]; cbn; [constructor|]. apply Forall_app; auto.
    - clear -FH. induction FH as [|? ? ? ? (X & _)]; constructor; auto. }
  pose proof (union_tree_ok A _ _ SA GP EU1) as (G1 & B1 & M1).
  pose proof (union_tree_ok A _ _ SA GN EU2) as (G2 & B2 & M2).
  pose proof (g2_sub_ok A _ _ _ SA G1 G2 R) as (G3 & B3 & M3).
  split; auto. split.
  { intros s Hs. split.
    - clear -FP Hs. induction FP as [|s' pe g parts (_ & _ & _ & E & _) FP IHp]; [destruct Hs|]. destruct Hs as [->|Hs]; eauto.
    - intros h Hh. assert (Hh' : In h (flat_map holes g)) by (apply in_flat_map; eauto). clear -FH Hh'. induction FH as [|h' m hs ms (_ & E & _) FH IHp]; [destruct Hh'|]. destruct Hh' as [->|Hh']; auto. }
  assert (exists SH, forall p, off_segs SH p -> Forall2 (fun h m =>
       (sign = - (1) -> in_ring h p \/ ribbed cpoly 1 h p -> in_geom m p) /\
       (sign = 1 -> in_geom m p -> in_ring h p /\ ~ ribbed cpoly (- (1)) h p)) (flat_map holes g) hneg) as (SH & HSH).
  { clear -FH. induction FH as [|h m hs ms (_ & _ & S & HS) FH (S' & HS')]; [exists []; constructor|].
    exists (S ++ S'). intros p O. apply off_segs_app in O as (O1 & O2). constructor; auto. }
  exists (SH ++ flat_map all_segments (flat_map snd parts) ++ flat_map all_segments pos ++ flat_map all_segments neg). intros p O.
  apply off_segs_app in O as (O1 & O). apply off_segs_app in O as (O0 & O). apply off_segs_app in O as (O2 & O3).
  apply off_segs_all in O0. apply off_segs_all in O2. apply off_segs_all in O3. specialize (HSH p O1).
  assert (O4 : off_all [gpos; gneg] p).
  { intros x [<-|[<-|[]]] Bx; [exact (B1 p Bx O2)|exact (B2 p Bx O3)]. }
  assert (RX : forall s, In s g -> ribbed cpoly sign (outer s) p -> exists x, In x (flat_map snd parts) /\ in_geom x p).
  { clear -FP O0. intros s Hs RB. induction FP as [|s' pe g parts (_ & _ & _ & _ & E) FP IHp]; [destruct Hs|]. cbn [flat_map] in *. destruct Hs as [->|Hs].
    - destruct (E p) as (x & Hx & I); auto. { intros y Hy. apply O0, in_app_iff. auto. } exists x. split; auto. apply in_app_iff. auto.
    - destruct IHp as (x & Hx & I); auto. { intros y Hy. apply O0, in_app_iff. auto. } exists x. split; auto. apply in_app_iff. auto. }
  rewrite (M3 p O4), (M1 p O2), (M2 p O3). unfold some_in, neg, pos. split.
  - intros E. rewrite E in *. change (qltb 0 1) with true. cbn iota. intros (s & Hs & I) NH. split.
    + destruct I as [I|I].
      * clear -FP Hs I. induction FP as [|s' pe g parts (E1 & _) FP IHp]; [destruct Hs|]. destruct Hs as [->|Hs].
        -- exists (fst pe). split; [left; auto|]. rewrite E1. now apply in_single.
        -- destruct (IHp Hs) as (x & Hx & J). exists x. split; auto. cbn. right. apply in_app_iff. auto.
      * destruct (RX s Hs I) as (x & Hx & J). exists x. split; auto. apply in_flat_map in Hx as (pe & Hpe & Hx). apply in_flat_map. exists pe. cbn. auto.
    + intros (m & Hm & J). cbn [app] in Hm.
      assert (exists h, In h (flat_map holes g) /\ in_ring h p /\ ~ ribbed cpoly (- (1)) h p) as (h & Hh & K & K').
      { clear -HSH Hm J E. induction HSH as [|h m' hs ms (_ & H) HSH IHx]; [destruct Hm|]. destruct Hm as [->|Hm].
        - exists h. cbn. auto.
        - destruct (IHx Hm) as (x & Hx & K). exists x. cbn; auto. }
      apply in_flat_map in Hh as (s' & Hs' & Hh). apply K'. exact (NH s' h Hs' Hh K).
  - intros E. rewrite E in *. change (qltb 0 (- (1))) with false. cbn iota. intros ((x & Hx & I) & NH). split; [|split].
    + clear -FP Hx I. induction FP as [|s pe g parts (E1 & _) FP IHp]; [destruct Hx|]. destruct Hx as [<-|Hx].
      * exists s. split; [left; auto|]. destruct pe as [q ext]. cbn [fst] in E1. subst q. now apply in_single in I.
      * destruct (IHp Hx) as (s' & Hs' & J). exists s'. split; auto. right; auto.
    + intros s Hs RB. apply NH. destruct (RX s Hs RB) as (y & Hy & J). exists y. split; auto. apply in_app_iff. auto.
    + intros s h Hs Hh. assert (Hh' : In h (flat_map holes g)) by (apply in_flat_map; eauto).
      assert (K : in_ring h p \/ ribbed cpoly 1 h p -> exists m, In m hneg /\ in_geom m p).
      { clear -HSH Hh' E. intros K. induction HSH as [|h' m' hs ms (H & _) HSH IHx]; [destruct Hh'|]. destruct Hh' as [->|Hm].
        - exists m'. cbn. auto.
        - destruct (IHx Hm) as (x & Hx & J). exists x. cbn; auto. }
      split; intros Q; apply NH; destruct K as (m & Hm & J); auto; exists m; (split; [apply in_app_iff; auto|auto]).
Qed.

(** ** generic points close by *)
Lemma near_lines p (S1 S2 : list segment) : (forall s, In s S1 -> ~ on_seg s p) ->
  exists d, forall eps, 0 < eps -> exists t, 0 < t /\ t <= eps /\ (forall s x, In s S1 -> on_seg (p, step p d t) x -> ~ on_seg s x) /\ off_lines S2 (step p d t).
Proof.
  intros H. destruct (generic_dir S2) as (m & M). set (d := (1, m)) in *. exists d. intros eps0 E0.
  destruct (segs_away S1 p d H) as (eps1 & E1 & A). assert (exists eps, 0 < eps /\ eps <= eps0 /\ eps <= eps1) as (eps & E & L0 & L1).
  { exists (qmin eps0 eps1). unfold qmin. destruct (qleb_spec eps0 eps1); repeat split; qlra. }
  destruct (small_avoid (flat_map (fun s => [ - orient (fst s) (snd s) p / cross (vsub (snd s) (fst s)) d; fst (fst s) - fst p]) S2) eps E) as (t & T1 & T2 & T3).
  exists t. split; auto. split; [qlra|]. split.
  - intros s x Hs (u & U1 & U2 & ->).
    replace (at_t (p, step p d t) u) with (step p d (u * t)).
    + apply A; auto; [apply mnn; qlra|]. assert (0 <= (1 - u) * t) by (apply mnn; qlra). qlra.
    + unfold at_t, step, vadd, vscale, vsub. cbn [fst snd]. f_equal; ring.
  - assert (OR : forall s, In s S2 -> fst s <> snd s -> orient (fst s) (snd s) (step p d t) <> 0).
    { intros [a b] Hs D O. apply T3. apply in_flat_map. exists (a, b). split; auto. cbn [fst snd] in *. left.
      assert (C : cross (vsub b a) d <> 0).
      { intros C. apply (M _ Hs D). cbn [fst snd]. replace (cross d (vsub b a)) with (- cross (vsub b a) d).
        - rewrite C. ring.
        - unfold cross, d. cbn [fst snd]. ring. }
      assert (X : orient a b p + t * cross (vsub b a) d = 0).
      { rewrite <- O. unfold step, orient, cross, vsub, vadd, vscale. cbn [fst snd]. ring. }
      pose proof (qdiv_mul (- orient a b p) _ C) as Y. set (k := _ / _) in *. clearbody k.
      assert (Z : (k - t) * cross (vsub b a) d = 0) by qlra.
      apply Qcmult_integral in Z. destruct Z as [Z|Z]; [qlra|tauto]. }
    intros s Hs. split; [|auto]. intros O. destruct s as [a b]. destruct (pt_eqb_spec a b) as [->|D].
    + apply T3. apply in_flat_map. exists (b, b). split; auto. right. left. cbn [fst snd]. destruct O as (u & _ & _ & O).
      assert (X : fst (step p d t) = fst b). { rewrite O. unfold at_t, vadd, vscale, vsub. cbn [fst snd]. ring. }
      unfold step, vadd, vscale, d in X. cbn [fst snd] in X. rewrite <- X. ring.
    + apply (OR _ Hs D). apply on_seg_iff in O as (O & _). exact O.
Qed.
Lemma off_lines_segs S p : off_lines S p -> off_segs S p.
Proof. intros H s Hs. now apply H. Qed.
Lemma off_lines_app S1 S2 p : off_lines (S1 ++ S2) p -> off_lines S1 p /\ off_lines S2 p.
Proof. intros H. split; intros s Hs; apply H, in_app_iff; auto. Qed.
