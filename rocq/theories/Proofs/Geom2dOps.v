(** Geom2D operations over an arbitrary sound arrangement code. *)
From Verif.Proofs Require Export NearP SimplifyP.
From Verif.Props Require Import Primitive2dProps.
From Coq Require Import Permutation.

Lemma F2_length {X Y} (R : X -> Y -> Prop) l m : Forall2 R l m -> length l = length m.
Proof. induction 1; cbn; auto. Qed.
Lemma off_all_dec g p : is_geom2d g -> ~ on_bd g p -> in_geom g p \/ ~ in_geom g p.
Proof. intros G B. destruct (g2_locate_ok g p G B) as [(_ & H)|(_ & H)]; auto. Qed.
Lemma bits_exist gs p : Forall is_geom2d gs -> off_all gs p -> exists bs, bits gs p bs.
Proof.
  unfold bits, off_all. intros F. induction F as [|g gs G F IH]; intros O; [exists []; constructor|].
  destruct IH as (bs & B); [intros; apply O; right; auto|].
  destruct (off_all_dec g p G) as [H|H]; [apply O; left; auto| |]; [exists (true :: bs)|exists (false :: bs)]; constructor; auto; split; auto; discriminate.
Qed.
Lemma bits_unique gs p b1 b2 : bits gs p b1 -> bits gs p b2 -> b1 = b2.
Proof.
  intros H. revert b2. induction H as [|g b gs bs H F IH]; intros b2 H2; inversion H2; subst; [reflexivity|].
  f_equal; auto. destruct b, y; auto; intuition congruence.
Qed.
Lemma is_op_iff gs P Q r : (forall p, off_all gs p -> (P p <-> Q p)) -> is_op gs P r -> is_op gs Q r.
Proof. intros H (A & B & C). split; auto. split; auto. intros p O. rewrite C by auto. auto. Qed.

Lemma bits2 a b p : is_geom2d a -> is_geom2d b -> off_all [a; b] p ->
  exists x y, bits [a; b] p [x; y] /\ (x = true <-> in_geom a p) /\ (y = true <-> in_geom b p).
Proof.
  intros Ga Gb O. destruct (bits_exist [a; b] p) as (bs & B); auto.
  inversion B as [|? x ? ? H1 B1]; subst. inversion B1 as [|? y ? ? H2 B2]; subst. inversion B2; subst. eauto.
Qed.
Lemma bin_op A (f : list bool -> bool) (P : Prop -> Prop -> Prop) a b r : arr_sound A -> is_geom2d a -> is_geom2d b ->
  f [false; false] = false -> (forall x y, f [x; y] = true <-> P (x = true) (y = true)) ->
  (forall X X' Y Y' : Prop, (X <-> X') -> (Y <-> Y') -> (P X Y <-> P X' Y')) ->
  arrangement_op A [a; b] f = Ok r -> is_op [a; b] (fun p => P (in_geom a p) (in_geom b p)) r.
Proof.
  intros S Ga Gb F E X R. eapply is_op_iff; [|apply (S [a; b] f r); auto].
  intros p O. destruct (bits2 a b p Ga Gb O) as (x & y & B & Hx & Hy). rewrite <- (X _ _ _ _ Hx Hy), <- E. split.
  - intros (bs & B' & H). now rewrite (bits_unique _ _ _ _ B B').
  - intros H. eauto.
Qed.
Lemma is_op_self a gs P : is_geom2d a -> In a gs -> (forall p, off_all gs p -> (P p <-> in_geom a p)) -> is_op gs P a.
Proof.
  intros G I H. split; auto. split; [intros p B O; exact (O a I B)|]. intros p O. rewrite H by auto. tauto.
Qed.
Lemma not_in_empty p : ~ in_geom [] p.
Proof. intros (s & [] & _). Qed.

Lemma g2_or_ok A a b r : arr_sound A -> is_geom2d a -> is_geom2d b -> g2_or A a b = Ok r ->
  is_op [a; b] (fun p => in_geom a p \/ in_geom b p) r.
Proof.
  intros S Ga Gb R. unfold g2_or in R. destruct a as [|x a]; cbn [g2_is_empty] in R; [|destruct b as [|y b]; cbn [g2_is_empty] in R].
  - injection R as <-. apply is_op_self; cbn; auto. intros p _. pose proof (not_in_empty p). tauto.
  - injection R as <-. apply is_op_self; cbn; auto. intros p _. pose proof (not_in_empty p). tauto.
  - eapply (bin_op A or_op or); eauto; cbn.
    + intros u v. apply orb_true_iff.
    + tauto.
Qed.
Lemma g2_and_ok A a b r : arr_sound A -> is_geom2d a -> is_geom2d b -> g2_and A a b = Ok r ->
  is_op [a; b] (fun p => in_geom a p /\ in_geom b p) r.
Proof.
  intros S Ga Gb R. eapply (bin_op A and_op and); eauto; cbn.
  - intros u v. apply andb_true_iff.
  - tauto.
Qed.
Lemma g2_sub_ok A a b r : arr_sound A -> is_geom2d a -> is_geom2d b -> g2_sub A a b = Ok r ->
  is_op [a; b] (fun p => in_geom a p /\ ~ in_geom b p) r.
Proof.
  intros S Ga Gb R. unfold g2_sub in R. destruct b as [|y b]; cbn [g2_is_empty] in R.
  - injection R as <-. apply is_op_self; cbn; auto. intros p _. pose proof (not_in_empty p). tauto.
  - eapply (bin_op A sub_op (fun X Y => X /\ ~ Y)); eauto; cbn.
    + intros [] []; cbn; intuition congruence.
    + tauto.
Qed.

Definition some_in (gs : list geom2d) (p : point) : Prop := exists g, In g gs /\ in_geom g p.
Lemma any_ok A gs r : arr_sound A -> Forall is_geom2d gs -> arrangement_op A gs any_op = Ok r -> is_op gs (some_in gs) r.
Proof.
  intros S F R. eapply is_op_iff; [|apply (S gs any_op r); auto].
  - intros p O. destruct (bits_exist gs p F O) as (bs & B).
    assert (E : any_op bs = true <-> some_in gs p).
    { clear -B. unfold some_in. induction B as [|g b gs bs H B IH]; cbn.
      - split; [discriminate|intros (? & [] & _)].
      - rewrite orb_true_iff. fold (any_op bs). rewrite IH, H. split.
        + intros [I|(g' & I & J)]; eauto.
        + intros (g' & [<-|I] & J); eauto. }
    rewrite <- E. split.
    + intros (bs' & B' & H). now rewrite (bits_unique _ _ _ _ B B').
    + intros H; eauto.
  - clear. induction gs; cbn; auto.
Qed.
Lemma is_op_one g : is_geom2d g -> is_op [g] (some_in [g]) g.
Proof.
  intros G. apply is_op_self; cbn; auto. intros p _. unfold some_in. split.
  - intros (x & [<-|[]] & I). auto.
  - intros I. exists g. cbn. auto.
Qed.
Lemma is_op_none : is_op [] (some_in []) [].
Proof.
  split; [constructor|]. split.
  - intros p (r & (s & [] & _) & _).
  - intros p _. split; [intros H; destruct (not_in_empty p H)|intros (g & [] & _)].
Qed.
Lemma union_slice_ok A gs r : arr_sound A -> Forall is_geom2d gs -> gs <> [] -> union_slice A gs = Ok r -> is_op gs (some_in gs) r.
Proof.
  intros S F N R. destruct gs as [|g [|h gs]]; [congruence| |].
  - injection R as <-. inversion F; subst. now apply is_op_one.
  - now apply (any_ok A).
Qed.
Lemma chunks_spec {X} fuel : forall l : list X, (length l <= fuel)%nat ->
  concat (chunks fuel l) = l /\ Forall (fun c => c <> []) (chunks fuel l) /\ (length (chunks fuel l) <= length l)%nat.
Proof.
  induction fuel as [|f IH]; intros [|x l] L; cbn [chunks]; try (cbn; split; [auto|]; split; [constructor|lia]); [cbn in L; lia|].
  assert (E : length (skipn UNION_N (x :: l)) = (S (length l) - 64)%nat) by (rewrite skipn_length; reflexivity).
  destruct (IH (skipn UNION_N (x :: l))) as (A & B & C); [rewrite E; cbn in L; lia|].
  cbn [concat]. rewrite A. split; [apply firstn_skipn|]. split.
  - constructor; [discriminate|auto].
  - rewrite E in C. cbn [length]. lia.
Qed.
Lemma chunks_shrink {X} (l : list X) : (2 <= length l)%nat -> (length (chunks (length l) l) < length l)%nat.
Proof.
  destruct l as [|x l]; [cbn; lia|]. intros L. cbn [length chunks].
  assert (E : length (skipn UNION_N (x :: l)) = (S (length l) - 64)%nat) by (rewrite skipn_length; reflexivity).
  destruct (chunks_spec (length l) (skipn UNION_N (x :: l))) as (_ & _ & C); [rewrite E; lia|]. rewrite E in C. cbn in L. lia.
Qed.
Lemma union_step gss ms r : Forall2 (fun gs m => is_op gs (some_in gs) m) gss ms -> is_op ms (some_in ms) r ->
  is_op (concat gss) (some_in (concat gss)) r.
Proof.
  intros F (G & B & M).
  assert (Off : forall p, off_all (concat gss) p -> off_all ms p).
  { intros p O m Hm Bd. destruct (in_split _ _ Hm) as (m1 & m2 & ->).
    destruct (Forall2_app_inv_r _ _ F) as (g1 & g2 & _ & F2 & ->). inversion F2 as [|gs ? ? ? (_ & B1 & _)]; subst.
    apply (B1 p Bd). intros g Hg. apply O. rewrite concat_app, in_app_iff. cbn. rewrite in_app_iff. auto. }
  split; auto. split; [intros p Bd O; exact (B p Bd (Off p O))|]. intros p O. rewrite (M p (Off p O)).
  clear B M G Off. unfold some_in. induction F as [|gs m gss ms (G1 & B1 & M1) F IH]; [tauto|].
  assert (O1 : off_all gs p) by (intros g Hg; apply O; cbn; rewrite in_app_iff; auto).
  assert (O2 : off_all (concat gss) p) by (intros g Hg; apply O; cbn; rewrite in_app_iff; auto).
  specialize (IH O2). specialize (M1 p O1). unfold some_in in M1. cbn. split.
  - intros (x & [<-|Hx] & I).
    + apply M1 in I. destruct I as (g & Hg & I). exists g. rewrite in_app_iff. auto.
    + destruct (proj1 IH) as (g & Hg & J); eauto. exists g. rewrite in_app_iff. auto.
  - intros (g & Hg & I). rewrite in_app_iff in Hg. destruct Hg as [Hg|Hg].
    + exists m. split; auto. apply M1. exists g; auto.
    + destruct (proj2 IH) as (x & Hx & J); eauto.
Qed.
Lemma union_tree_loop_ok A fuel : arr_sound A -> forall gs r, Forall is_geom2d gs -> union_tree_loop A fuel gs = Ok r -> is_op gs (some_in gs) r.
Proof.
  intros S. induction fuel as [|f IH]; intros gs r F R.
  - destruct gs as [|g [|h gs]]; cbn in R; [injection R as <-; apply is_op_none| |discriminate].
    injection R as <-. inversion F; subst. now apply is_op_one.
  - destruct gs as [|g [|h gs]]; [injection R as <-; apply is_op_none| |].
    { injection R as <-. inversion F; subst. now apply is_op_one. }
    set (l := g :: h :: gs) in *. change (union_tree_loop A (Datatypes.S f) l) with
      (nxt <- mapM (union_slice A) (chunks (length l) l) ;; union_tree_loop A f nxt) in R.
    minv. destruct (chunks_spec (length l) l) as (C1 & C2 & C3); [lia|]. apply mapM_ok in E.
    rewrite <- C1. rewrite <- C1 in F.
    assert (F' : Forall2 (fun gs m => is_op gs (some_in gs) m) (chunks (length l) l) r0).
    { clear -S E C2 F. revert C2 F. generalize (chunks (length l) l) r0 E. clear -S.
      intros cs ms E. induction E as [|c m cs ms H E IH]; intros C F; constructor.
      - inversion C; subst. cbn in F. apply Forall_app in F as (F1 & F2). eapply union_slice_ok; eauto.
      - inversion C; subst. cbn in F. apply Forall_app in F as (F1 & F2). apply IH; auto. }
    eapply union_step; [exact F'|]. apply IH; auto.
    clear -F'. induction F' as [|? ? ? ? (G & _)]; constructor; auto.
Qed.
Lemma union_tree_ok A gs r : arr_sound A -> Forall is_geom2d gs -> union_tree A gs = Ok r -> is_op gs (some_in gs) r.
Proof. intros. eapply union_tree_loop_ok; eauto. Qed.
Lemma g2_union_ok A gs r : arr_sound A -> Forall is_geom2d gs -> g2_union A gs = Ok r -> is_op gs (some_in gs) r.
Proof.
  intros S F R. unfold g2_union in R. destruct (UNION_N <? length gs)%nat; [eapply union_tree_ok|eapply any_ok]; eauto.
Qed.
Lemma union_tree_fuel A gs : (forall l, arrangement_op A l any_op <> Err OutOfFuel) -> union_tree A gs <> Err OutOfFuel.
Proof.
  intros H. unfold union_tree. enough (G : forall f l, (length l <= f)%nat -> union_tree_loop A f l <> Err OutOfFuel) by (apply G; lia).
  induction f as [|f IH]; intros [|g [|h l]] L; try discriminate; [cbn in L; lia|].
  set (m := g :: h :: l) in *. change (union_tree_loop A (S f) m) with
      (nxt <- mapM (union_slice A) (chunks (length m) m) ;; union_tree_loop A f nxt).
  destruct (mapM (union_slice A) (chunks (length m) m)) as [nxt|e] eqn:E; cbn [bind].
  - apply IH. apply mapM_ok in E. apply F2_length in E. rewrite <- E.
    assert (2 <= length m)%nat by (cbn; lia). pose proof (chunks_shrink m). lia.
  - intros [= ->]. revert E. generalize (chunks (length m) m). intros cs. induction cs as [|c cs IHc]; cbn; [discriminate|].
    destruct (union_slice A c) eqn:U; cbn.
    + destruct (mapM (union_slice A) cs); cbn; [discriminate|]. auto.
    + intros [= ->]. destruct c as [|x [|y c]]; cbn [union_slice] in U; try discriminate; exact (H _ U).
Qed.

(** ** _minkowski_convex_op *)
Lemma area_pos_fpoly r : ring_ok r -> fpoly (fun l => l) r = Ok r.
Proof.
  intros (N & P & _). unfold fpoly. rewrite area_ok by auto. cbn. destruct (qltb_spec (area_of r) 0); [exfalso; qlra|reflexivity].
Qed.
Lemma shift0 l : map (fun p => padd p (0, 0)) l = l.
Proof. rewrite <- (map_id l) at 2. apply map_ext. intros [x y]. unfold padd. cbn [fst snd]. f_equal; ring. Qed.
Lemma fpoly_shift0 r : ring_ok r -> fpoly (map (fun p => padd p (0, 0))) r = Ok r.
Proof. intros H. unfold fpoly. rewrite shift0. now apply area_pos_fpoly. Qed.
Lemma transformed_shift0 s : spwh_ok s -> spwh_transformed_with (map (fun p => padd p (0, 0))) s = Ok s.
Proof.
  intros H. unfold spwh_transformed_with. pose proof H as K. apply spwh_ok_iff in K as (K1 & K2). rewrite fpoly_shift0 by auto. cbn [bind].
  replace (mapM (fpoly (map (fun p => padd p (0, 0)))) (holes s)) with (Ok (holes s)).
  - exact H.
  - symmetry. induction K2 as [|h hs Hh K2 IH]; [reflexivity|]. cbn [mapM]. rewrite fpoly_shift0 by auto. cbn. rewrite IH. reflexivity.
Qed.
Lemma single_ok o g : single o = Ok g -> g = [mkSpwh o []] /\ ring_ok o.
Proof. unfold single. intros H. minv. apply SPWH_ok in E as (E1 & _ & ->). auto. Qed.
Lemma single_geom o g : single o = Ok g -> is_geom2d g.
Proof.
  intros H. apply single_ok in H as (-> & R). constructor; [|constructor]. apply spwh_ok_iff. cbn. auto.
Qed.
Lemma in_single o p : in_geom [mkSpwh o []] p <-> in_ring o p.
Proof.
  unfold in_geom, in_poly. split.
  - intros (s & [<-|[]] & I & _). exact I.
  - intros I. eexists. split; [left; reflexivity|]. cbn. split; [auto|intros ? []].
Qed.
Definition off_segs (S : list segment) (p : point) : Prop := forall s, In s S -> ~ on_seg s p.
Lemma off_segs_all gs p : off_segs (flat_map all_segments gs) p -> off_all gs p.
Proof.
  intros H g Hg B. apply on_bd_segments in B as (s & Hs & O). apply (H s); auto. apply in_flat_map. eauto.
Qed.
Lemma off_segs_app S1 S2 p : off_segs (S1 ++ S2) p <-> off_segs S1 p /\ off_segs S2 p.
Proof.
  unfold off_segs. split.
  - intros H. split; intros s Hs; apply H, in_app_iff; auto.
  - intros (H1 & H2) s Hs. apply in_app_iff in Hs as [Hs|Hs]; auto.
Qed.
(** [s] some outer ring of g contains p and no hole of g does *)
Definition in_outer_no_hole (g : geom2d) (p : point) : Prop :=
  (exists s, In s g /\ in_ring (outer s) p) /\ (forall s h, In s g -> In h (holes s) -> ~ in_ring h p).
Lemma mink_ok A depth : arr_sound A -> forall g cpoly sign r, is_geom2d g ->
  locate_point_polygon_winding_number cpoly (0, 0) = Ok 1%Z -> sign = 1 \/ sign = - (1) ->
  minkowski_convex_op A depth g cpoly sign = Ok r ->
  is_geom2d r /\ exists S, forall p, off_segs S p ->
    (sign = 1 -> in_outer_no_hole g p -> in_geom r p) /\ (sign = - (1) -> in_geom r p -> in_outer_no_hole g p).
Proof.
  intros SA. induction depth as [|depth IH]; intros g cpoly sign r G L Sg R; [discriminate|].
  cbn [minkowski_convex_op] in R. rewrite L in R. cbn [bind] in R.
  change (negb (1 =? 1)%Z) with false in R. cbn iota in R.
  destruct (passert (negb (qeqb sign 0))) as [u|] eqn:P0; cbn [bind] in R; [|discriminate].
  destruct (mapM _ g) as [parts|] eqn:EP in R; cbn [bind] in R; [|discriminate].
  destruct (mapM _ (flat_map holes g)) as [hneg|] eqn:EH in R; cbn [bind] in R; [|discriminate].
  destruct (union_tree A _) as [gpos|] eqn:EU1 in R; cbn [bind] in R; [|discriminate].
  destruct (union_tree A _) as [gneg|] eqn:EU2 in R; cbn [bind] in R; [|discriminate].
  apply mapM_ok in EP. apply mapM_ok in EH.
  assert (FP : Forall2 (fun s pe => fst pe = [mkSpwh (outer s) []] /\ ring_ok (outer s) /\ Forall is_geom2d (snd pe)) g parts).
  { clear -EP G. revert G. induction EP as [|s pe g parts H EP IHp]; intros G; constructor.
    - inversion G; subst. minv. rewrite transformed_shift0 in E by auto. injection E as <-.
      apply single_ok in E0 as (-> & RO). cbn [fst snd]. split; [reflexivity|]. split; [exact RO|].
      apply mapM_ok in E2. clear -E2. induction E2 as [|e x l m H E2 IHe]; constructor; auto. minv. eapply single_geom; eauto.
    - inversion G; subst; auto. }
  assert (FH : Forall2 (fun hole m => is_geom2d m /\ exists S, forall p, off_segs S p ->
       (sign = - (1) -> in_ring hole p -> in_geom m p) /\ (sign = 1 -> in_geom m p -> in_ring hole p)) (flat_map holes g) hneg).
  { clear -EH L Sg IH. induction EH as [|h m hs ms H EH IHh]; constructor; auto. minv.
    pose proof (single_geom _ _ E) as G1. apply single_ok in E as (-> & RO).
    destruct (IH [mkSpwh h []] cpoly (- sign) m G1 L) as (G2 & S & HS); [destruct Sg as [->| ->]; [right|left]; qlra|exact H|].
    split; auto. exists S. intros p O. destruct (HS p O) as (H1 & H2). split; intros E I.
    - apply H1; [rewrite E; qlra|]. split; [eexists; split; [left; reflexivity|exact I]|]. intros s x [<-|[]] []. 
    - destruct H2 as ((s & [<-|[]] & J) & _); [rewrite E; qlra|exact I|exact J]. }
  set (pos := if qltb 0 sign then flat_map (fun pe => fst pe :: snd pe) parts else map fst parts) in *.
  set (neg := (if qltb 0 sign then [] else flat_map snd parts) ++ hneg) in *.
  assert (GP : Forall is_geom2d pos).
  { assert (X : Forall (fun pe => is_geom2d (fst pe) /\ Forall is_geom2d (snd pe)) parts).
    { clear -FP. induction FP as [|s pe g parts (E1 & E2 & E3) FP IHp]; constructor; auto. destruct pe as [q ext]. cbn [fst snd] in *. subst q. split; auto.
      constructor; [|constructor]. apply spwh_ok_iff. cbn. auto. }
    clear -X. unfold pos. destruct (qltb 0 sign); induction X as [|pe l (X1 & X2) X IHx]; cbn; try constructor; auto.
    apply Forall_app. auto. }
  assert (GN : Forall is_geom2d neg).
  { unfold neg. apply Forall_app. split.
    - clear -FP. destruct (qltb 0 sign); [constructor|]. induction FP as [|s pe g parts (E1 & E2 & E3) FP IHp]; cbn; [constructor|]. apply Forall_app; auto.
    - clear -FH. induction FH as [|? ? ? ? (X & _)]; constructor; auto. }
  pose proof (union_tree_ok A _ _ SA GP EU1) as (G1 & B1 & M1).
  pose proof (union_tree_ok A _ _ SA GN EU2) as (G2 & B2 & M2).
  pose proof (g2_sub_ok A _ _ _ SA G1 G2 R) as (G3 & B3 & M3).
  split; auto.
  assert (exists SH, forall p, off_segs SH p -> Forall2 (fun hole m =>
       (sign = - (1) -> in_ring hole p -> in_geom m p) /\ (sign = 1 -> in_geom m p -> in_ring hole p)) (flat_map holes g) hneg) as (SH & HSH).
  { clear -FH. induction FH as [|h m hs ms (_ & S & HS) FH (S' & HS')]; [exists []; constructor|].
    exists (S ++ S'). intros p O. apply off_segs_app in O as (O1 & O2). constructor; auto. }
  exists (SH ++ flat_map all_segments pos ++ flat_map all_segments neg). intros p O.
  apply off_segs_app in O as (O1 & O). apply off_segs_app in O as (O2 & O3).
  apply off_segs_all in O2. apply off_segs_all in O3. specialize (HSH p O1).
  assert (O4 : off_all [gpos; gneg] p).
  { intros x [<-|[<-|[]]] Bx; [exact (B1 p Bx O2)|exact (B2 p Bx O3)]. }
  rewrite (M3 p O4), (M1 p O2), (M2 p O3). unfold some_in, neg, pos. split.
  - intros E. rewrite E. change (qltb 0 1) with true. cbn iota. intros ((s & Hs & I) & NH). split.
    + clear -FP Hs I. induction FP as [|s' pe g parts (E1 & _) FP IHp]; [destruct Hs|]. destruct Hs as [->|Hs].
      * exists (fst pe). split; [left; auto|]. rewrite E1. now apply in_single.
      * destruct (IHp Hs) as (x & Hx & J). exists x. split; auto. cbn. right. apply in_app_iff. auto.
    + intros (m & Hm & J). cbn [app] in Hm.
      assert (exists h, In h (flat_map holes g) /\ in_ring h p) as (h & Hh & K).
      { clear -HSH Hm J E. induction HSH as [|h m' hs ms (_ & H) HSH IHx]; [destruct Hm|]. destruct Hm as [->|Hm].
        - exists h. cbn. auto.
        - destruct (IHx Hm) as (x & Hx & K). exists x. cbn; auto. }
      apply in_flat_map in Hh as (s' & Hs' & Hh). exact (NH s' h Hs' Hh K).
  - intros E. rewrite E. change (qltb 0 (- (1))) with false. cbn iota. intros ((x & Hx & I) & NH). split.
    + clear -FP Hx I. induction FP as [|s pe g parts (E1 & _) FP IHp]; [destruct Hx|]. destruct Hx as [<-|Hx].
      * exists s. split; [left; auto|]. destruct pe as [q ext]. cbn [fst] in E1. subst q. now apply in_single in I.
      * destruct (IHp Hx) as (s' & Hs' & J). exists s'. split; auto. right; auto.
    + intros s h Hs Hh K. apply NH.
      assert (Hh' : In h (flat_map holes g)) by (apply in_flat_map; eauto).
      assert (exists m, In m hneg /\ in_geom m p) as (m & Hm & J).
      { clear -HSH Hh' K E. induction HSH as [|h' m' hs ms (H & _) HSH IHx]; [destruct Hh'|]. destruct Hh' as [->|Hm].
        - exists m'. cbn. auto.
        - destruct (IHx Hm) as (x & Hx & J). exists x. cbn; auto. }
      exists m. split; auto. apply in_app_iff. auto.
Qed.
