(** * Area as a measure: C79-C81. *)
From Verif.Model Require Import Arrangement2d Geom2d.
From Verif.Spec Require Import Plane Region Area.
From Verif.Proofs Require Import PyP PolyP WindingP WindingQ WindingR NearP PlanarP AreaP LevelP FlatP ArrSoundP Geom2dP Geom2dOps BufferP.
From Verif.Props Require Import LocateProps Geom2dProps SetOpsProps.

(** ** sums of geometries *)
Definition scale (k : Z) (ch : list (Z * list point)) : list (Z * list point) := map (fun kr => (k * fst kr, snd kr)%Z) ch.
Lemma wch_scale k ch p : wch (scale k ch) p = (k * wch ch p)%Z.
Proof. unfold wch, scale. rewrite zsum_map. cbn [fst snd]. rewrite <- zsum_scale. apply zsum_ext. intros; lia. Qed.
Lemma ach_scale k ch : ach (scale k ch) = zq k * ach ch.
Proof. unfold ach, scale. rewrite qsum_map. cbn [fst snd]. rewrite <- qsum_scale. apply qsum_ext. intros x _. rewrite zq_mult. ring. Qed.
Definition sums (kgs : list (Z * geom2d)) : list (Z * list point) := flat_map (fun kg => scale (fst kg) (chain (snd kg))) kgs.
Lemma wch_sums kgs p : wch (sums kgs) p = zsum (fun kg => fst kg * wch (chain (snd kg)) p)%Z kgs.
Proof.
  unfold wch at 1, sums. rewrite zsum_flat. apply zsum_ext. intros kg _. apply (wch_scale (fst kg) (chain (snd kg)) p).
Qed.
Lemma ach_sums kgs : ach (sums kgs) = qsum (fun kg => zq (fst kg) * qsum poly_area (snd kg)) kgs.
Proof.
  unfold ach at 1, sums. rewrite qsum_flat. apply qsum_ext. intros kg _. rewrite <- chain_area. apply (ach_scale (fst kg) (chain (snd kg))).
Qed.
Lemma och_sums kgs p : och (sums kgs) p <-> off_all (map snd kgs) p.
Proof.
  split.
  - intros H g Hg. apply in_map_iff in Hg as (kg & <- & Hk). apply och_bd. intros kr K B. apply (H (fst kg * fst kr, snd kr)%Z); auto.
    apply in_flat_map. exists kg. split; auto. apply in_map_iff. eauto.
  - intros H kr K B. apply in_flat_map in K as (kg & Hk & K). apply in_map_iff in K as (kr' & <- & K). cbn [snd] in B.
    apply (H (snd kg)); [now apply in_map|]. exists (snd kr'). split; auto. now apply chain_in.
Qed.
Definition tally (l : list (Z * bool)) : Z := zsum (fun kb : Z * bool => fst kb * (if snd kb then 1 else 0))%Z l.
(** what is covered at least as often by the positive ones has at least the area *)
Lemma sums_pos kgs : Forall is_geom2d (map snd kgs) -> Forall flat (map snd kgs) ->
  (forall p bs, off_all (map snd kgs) p -> bits (map snd kgs) p bs -> (0 <= tally (combine (map fst kgs) bs))%Z) ->
  0 <= qsum (fun kg => zq (fst kg) * qsum poly_area (snd kg)) kgs /\
  ((exists p bs, off_all (map snd kgs) p /\ bits (map snd kgs) p bs /\ (0 < tally (combine (map fst kgs) bs))%Z) ->
   0 < qsum (fun kg => zq (fst kg) * qsum poly_area (snd kg)) kgs).
Proof.
  intros G F H.
  assert (W : forall p bs, off_all (map snd kgs) p -> bits (map snd kgs) p bs -> wch (sums kgs) p = (2 * tally (combine (map fst kgs) bs))%Z).
  { intros p bs O B. rewrite wch_sums. clear H. unfold bits in B. revert bs B. induction kgs as [|[k g] kgs IH]; intros bs B; cbn [map snd] in *; inversion B as [|? b ? bs' B1 B2]; subst; [reflexivity|].
    inversion G; subst. inversion F; subst. unfold tally in *. cbn [combine map fst zsum snd]. rewrite (IH H2 H4 (fun x X => O x (or_intror X)) bs' B2).
    destruct (proj1 (flat_wch g H1) H3 p) as [(I & E)|(I & E)]; [apply O; now left|..]; rewrite E; destruct b; try lia; exfalso; [discriminate (proj2 B1 I)|]; apply I, B1; reflexivity. }
  assert (BX : forall p, off_all (map snd kgs) p -> exists bs, bits (map snd kgs) p bs).
  { intros p O. clear H W F. revert O. induction G as [|g gs G GS IH]; intros O; [exists []; constructor|]. destruct IH as (bs & B); [intros x X; apply O; now right|].
    destruct (g2_locate_ok g p G) as [(_ & I)|(_ & I)]; [apply O; now left|exists (true :: bs)|exists (false :: bs)]; constructor; auto; split; auto; try discriminate; tauto. }
  destruct (area_pos (sums kgs)) as (A & B).
  - intros p O. apply och_sums in O. destruct (BX p O) as (bs & B). rewrite (W p bs O B). specialize (H p bs O B). lia.
  - rewrite ach_sums in *. split; auto. intros (p & bs & O & BB & P). apply B. exists p. split; [now apply och_sums|]. rewrite (W p bs O BB). lia.
Qed.
Lemma sums_eq kgs : Forall is_geom2d (map snd kgs) -> Forall flat (map snd kgs) ->
  (forall p bs, off_all (map snd kgs) p -> bits (map snd kgs) p bs -> tally (combine (map fst kgs) bs) = 0%Z) ->
  qsum (fun kg => zq (fst kg) * qsum poly_area (snd kg)) kgs = 0.
Proof.
  intros G F H. destruct (sums_pos kgs G F) as (A & _); [intros p bs O B; rewrite (H p bs O B); lia|].
  set (neg := map (fun kg : Z * geom2d => (- fst kg, snd kg)%Z) kgs).
  assert (M : map snd neg = map snd kgs) by (unfold neg; rewrite map_map; reflexivity).
  destruct (sums_pos neg) as (B & _); rewrite ?M; auto.
  - intros p bs O BB. specialize (H p bs O BB). assert (X : tally (combine (map fst neg) bs) = (- 1 * tally (combine (map fst kgs) bs))%Z); [|rewrite X, H; lia].
    unfold tally. rewrite <- zsum_scale. unfold neg. rewrite map_map. cbn [fst]. clear. revert bs. induction kgs as [|[k g] kgs IH]; intros [|b bs]; try reflexivity. cbn [map combine zsum fst snd]. rewrite IH. lia.
  - unfold neg in B. rewrite qsum_map in B. cbn [fst snd] in B.
    rewrite (qsum_ext (fun kg => zq (- fst kg) * qsum poly_area (snd kg)) (fun kg => - (1) * (zq (fst kg) * qsum poly_area (snd kg)))) in B by (intros kg _; rewrite zq_opp; ring). rewrite qsum_scale in B. apply Qcle_antisym; qlra.
Qed.
Lemma area_val g x : is_geom2d g -> g2_area g = Ok x -> x = qsum poly_area g.
Proof. intros G H. rewrite (g2_area_ok g G) in H. now injection H. Qed.
Lemma bits2 a b p bs : bits [a; b] p bs -> exists u v, bs = [u; v] /\ (u = true <-> in_geom a p) /\ (v = true <-> in_geom b p).
Proof. intros B. inversion B as [|? u ? l B1 B2]; subst. inversion B2 as [|? v ? l' B3 B4]; subst. inversion B4; subst. eauto. Qed.

(** ** C79 *)
Theorem area_monotone : forall a b x y, is_geom2d a -> is_geom2d b -> flat a -> flat b ->
  g2_area a = Ok x -> g2_area b = Ok y ->
  (forall p, off_all [a; b] p -> in_geom a p -> in_geom b p) ->
  x <= y /\ ((exists p, off_all [a; b] p /\ in_geom b p /\ ~ in_geom a p) -> x < y).
Proof.
  intros a b x y Ga Gb Fa Fb X Y S. apply area_val in X; auto. apply area_val in Y; auto.
  destruct (sums_pos [((-1)%Z, a); (1%Z, b)]) as (A & B).
  - now constructor; [|constructor].
  - now constructor; [|constructor].
  - intros p bs O BB. apply bits2 in BB as (u & v & -> & U & V). unfold tally. cbn [map fst combine zsum snd]. specialize (S p O).
    destruct u, v; cbn; try lia; exfalso; discriminate (proj2 V (S (proj1 U eq_refl))).
  - cbn [map fst snd qsum] in A, B. rewrite zq_1 in *. replace (zq (-1)) with (- (1)) in * by (apply Qc_is_canon; reflexivity). subst x y. split; [qlra|].
    intros (p & O & I & N). assert (Q : 0 < - (1) * qsum poly_area a + (1 * qsum poly_area b + 0)); [|qlra]. apply B. exists p, [false; true]. split; auto. split; [|cbn; lia].
    repeat constructor; auto; try discriminate; tauto.
Qed.
Print Assumptions area_monotone.

Theorem area_region : forall g x, is_geom2d g -> flat g -> g2_area g = Ok x ->
  0 <= x /\ ((exists p, ~ on_bd g p /\ in_geom g p) -> 0 < x) /\ ((forall p, ~ on_bd g p -> ~ in_geom g p) -> x = 0).
Proof.
  intros g x G F X. assert (E : is_geom2d [] /\ flat []).
  { split; [constructor|]. intros p n _ (ns & N & ->). inversion N; subst. right. split; [intros (? & [] & _)|reflexivity]. }
  destruct E as (E1 & E2). assert (E3 : forall p, ~ in_geom [] p) by (intros p (? & [] & _)).
  assert (E4 : forall p, ~ on_bd [] p) by (intros p (? & (? & [] & _) & _)).
  destruct (area_monotone [] g 0 x) as (A & B); auto.
  { intros p _ I. destruct (E3 p I). }
  split; auto. split.
  - intros (p & P1 & P2). apply B. exists p. split; auto. intros y [<-|[<-|[]]]; auto.
  - intros H. destruct (area_monotone g [] x 0) as (C & _); auto.
    + intros p O I. exfalso. apply (H p); auto. apply O. now left.
    + apply Qcle_antisym; auto.
Qed.
Print Assumptions area_region.

(** ** C80 *)
Lemma flat_nil : flat [].
Proof. intros p n _ (ns & N & ->). inversion N; subst. right. split; [intros (? & [] & _)|reflexivity]. Qed.
Lemma any_none (gs : list geom2d) : any_op (map (fun _ => false) gs) = false.
Proof. unfold any_op. induction gs; auto. Qed.
Lemma chunks_one {X} (l : list X) c : chunks (length l) l = [c] -> c = l.
Proof.
  intros E. destruct (chunks_spec (length l) l) as (C & _); [lia|]. rewrite E in C. cbn in C. now rewrite app_nil_r in C.
Qed.
Lemma slices_geom orc gs ms : Forall is_geom2d gs -> mapM (union_slice (segment_arrangement orc)) (chunks (length gs) gs) = Ok ms -> Forall is_geom2d ms.
Proof.
  intros F E. destruct (chunks_spec (length gs) gs) as (C1 & C2 & _); [lia|]. apply mapM_ok in E. rewrite <- C1 in F.
  revert C2 F. clear C1. induction E as [|c m cs ms H E IH]; intros C F; constructor; inversion C; subst; cbn in F; apply Forall_app in F as (F1 & F2); auto.
  apply (union_slice_ok (segment_arrangement orc) c m) in H as (H & _); auto. apply arrangement_sound.
Qed.
Lemma tree_flat orc gs f r : Forall is_geom2d gs -> (length gs <> 1%nat \/ Forall flat gs) -> union_tree_loop (segment_arrangement orc) f gs = Ok r -> flat r.
Proof.
  revert gs. induction f as [|f IH]; intros gs G L H; (destruct gs as [|g [|h gs]]; [cbn in H; injection H as <-; apply flat_nil|cbn in H; injection H as <-; destruct L as [L|L]; [now destruct L|now inversion L]|]).
  - discriminate.
  - set (l := g :: h :: gs) in *. change (union_tree_loop (segment_arrangement orc) (S f) l) with
      (nxt <- mapM (union_slice (segment_arrangement orc)) (chunks (length l) l) ;; union_tree_loop (segment_arrangement orc) f nxt) in H.
    apply bind_ok in H as (nxt & NX & H). apply (IH nxt) in H; auto.
    + now apply (slices_geom orc l).
    + destruct (Nat.eq_dec (length nxt) 1) as [L1|L1]; [right|now left].
      apply mapM_ok in NX. destruct nxt as [|m [|? ?]]; try discriminate L1. destruct (chunks (length l) l) as [|c [|? ?]] eqn:E; inversion NX as [|? ? ? ? H1 H2]; inversion H2; subst.
      apply chunks_one in E. subst c. constructor; [|constructor]. unfold l in H1. cbn [union_slice] in H1. eapply arrangement_flat; [exact G| |exact H1]. apply any_none.
Qed.
(** a ring that goes around every point at most once *)
Lemma ring_flat r : ring_ok r -> (forall p, ~ on_boundary r p -> wsum p r = 2%Z \/ wsum p r = 0%Z) -> is_geom2d [mkSpwh r []] /\ flat [mkSpwh r []].
Proof.
  intros R W. assert (G : is_geom2d [mkSpwh r []]) by (constructor; [apply spwh_ok_iff; cbn; auto|constructor]). split; auto.
  apply flat_wch; auto. intros p B.
  assert (B' : ~ on_boundary r p) by (intros X; apply B; exists r; split; auto; exists (mkSpwh r []); cbn; auto).
  assert (E : wch (chain [mkSpwh r []]) p = wsum p r) by (unfold wch, chain, chain_of; cbn [flat_map map app holes outer zsum fst snd]; lia).
  rewrite E. destruct (locate_winding r p (proj1 R) B') as (w & Wn & _). pose proof (proj1 (wind_wsum r p w (proj1 R) B') Wn) as Ew.
  destruct (W p B') as [Q|Q]; [left|right]; (split; [|exact Q]).
  - exists (mkSpwh r []). split; [now left|]. split; [exists w; cbn; split; auto; lia|intros ? []].
  - intros (s & [<-|[]] & (w' & Wn' & N) & _). apply N. cbn [outer] in Wn'. apply wind_wsum in Wn'; auto; [lia|apply R].
Qed.
Lemma wsum_rev p r : wsum p (rev r) = (- wsum p r)%Z.
Proof.
  unfold wsum. rewrite (zsum_perm _ _ _ (edges_iter_rev r)), zsum_map. replace (- zsum (delta p) (edges_iter r))%Z with ((-1) * zsum (delta p) (edges_iter r))%Z by lia.
  rewrite <- zsum_scale. apply zsum_ext. intros [a b] _. unfold sswap. cbn [fst snd]. rewrite delta_rev. lia.
Qed.
Lemma box_wsum x0 y0 x1 y1 p : ~ on_boundary (Geom2dProps.box x0 y0 x1 y1) p -> let w := wsum p (Geom2dProps.box x0 y0 x1 y1) in
  w = 0%Z \/ (w = 2%Z /\ 0 < (x1 - x0) * (y1 - y0)) \/ (w = (-2)%Z /\ (x1 - x0) * (y1 - y0) < 0).
Proof.
  intros B w. destruct p as [x y].
  assert (W : w = (delta (x, y) ((x0, y0), (x0, y1)) + delta (x, y) ((x1, y1), (x1, y0)))%Z).
  { unfold w, wsum, Geom2dProps.box. cbn [edges_iter]. unfold edges_iter. cbn [combine tl app zsum].
    assert (H : forall a b c, delta (x, y) ((a, c), (b, c)) = 0%Z) by (intros; unfold delta, above; cbn [fst snd]; now rewrite xorb_nilpotent).
    rewrite !H. lia. }
  rewrite W. clear W w. unfold delta, above. cbn [fst snd].
  assert (O0 : orient (x0, y0) (x0, y1) (x, y) = (y1 - y0) * (x0 - x)) by (unfold orient, cross, vsub; cbn [fst snd]; ring).
  assert (O1 : orient (x1, y1) (x1, y0) (x, y) = (y0 - y1) * (x1 - x)) by (unfold orient, cross, vsub; cbn [fst snd]; ring).
  rewrite O0, O1.
  assert (Q : (y0 <= y /\ y <= y1) \/ (y1 <= y /\ y <= y0) -> x <> x0 /\ x <> x1).
  { intros Q. split; intros ->; apply B; eexists; (split; [apply box_edges|]).
    - left; reflexivity.
    - apply on_seg_iff. cbn [fst snd]. split; [rewrite O0; ring|]. split; [left; split; qlra|destruct Q as [(? & ?)|(? & ?)]; first [left; split; qlra|right; split; qlra]].
    - right; right; left; reflexivity.
    - apply on_seg_iff. cbn [fst snd]. split; [rewrite O1; ring|]. split; [left; split; qlra|destruct Q as [(? & ?)|(? & ?)]; first [left; split; qlra|right; split; qlra]]. }
  destruct (qltb_spec y y0) as [A0|A0], (qltb_spec y y1) as [A1|A1]; cbn [xorb]; auto; (destruct Q as (Q0 & Q1); [first [left; split; qlra|right; split; qlra]|]);
    destruct (qc_not_eq _ _ Q0), (qc_not_eq _ _ Q1), (sgn_cases ((y1 - y0) * (x0 - x))) as [(S0 & ->)|[(S0 & ->)|(S0 & ->)]], (sgn_cases ((y0 - y1) * (x1 - x))) as [(S1 & ->)|[(S1 & ->)|(S1 & ->)]];
    try (exfalso; qnra); cbn; auto; right; first [left; split; [reflexivity|qnra]|right; split; [reflexivity|qnra]].
Qed.
Lemma rectangle_flat vx0 vy0 vx1 vy1 x0 y0 x1 y1 g : exact_coord vx0 x0 -> exact_coord vy0 y0 -> exact_coord vx1 x1 -> exact_coord vy1 y1 ->
  rectangle vx0 vy0 vx1 vy1 = Ok g -> flat g.
Proof.
  intros C1 C2 C3 C4 H.
  assert (R : rectangle vx0 vy0 vx1 vy1 = polygon (mpq_points (Geom2dProps.box x0 y0 x1 y1)) true).
  { unfold rectangle, polygon, Geom2dProps.box. cbn. unfold poly_point. cbn.
    rewrite !(exact_coord_ok _ _ C1), !(exact_coord_ok _ _ C2), !(exact_coord_ok _ _ C3), !(exact_coord_ok _ _ C4). reflexivity. }
  destruct (qeqb_spec x0 x1) as [E|NX]; [rewrite (proj1 (rectangle_box _ _ _ _ _ _ _ _ C1 C2 C3 C4)) in H by auto; discriminate|].
  destruct (qeqb_spec y0 y1) as [E|NY]; [rewrite (proj1 (rectangle_box _ _ _ _ _ _ _ _ C1 C2 C3 C4)) in H by auto; discriminate|].
  rewrite R in H. destruct (polygon_reorient (Geom2dProps.box x0 y0 x1 y1) ltac:(discriminate)) as (Hok & _).
  rewrite ring_area_of, Geom2dProps.box_area in *.
  assert (ND : forall s, is_edge (Geom2dProps.box x0 y0 x1 y1) s -> fst s <> snd s).
  { intros s Hs. apply box_edges in Hs. destruct Hs as [->|[->|[->| ->]]]; cbn [fst snd]; intros E; apply pair_inv in E as (E1 & E2); congruence. }
  assert (NZ : (x1 - x0) * (y1 - y0) <> 0) by (intros E; apply Qcmult_integral in E as [E|E]; [apply NX|apply NY]; qlra).
  destruct (Hok ND NZ) as (g' & r & Eg & -> & Er & G & _). rewrite H in Eg. injection Eg as ->.
  assert (RO : ring_ok r). { inversion G as [|? ? S _]; subst. apply spwh_ok_iff in S as (S & _). exact S. }
  apply ring_flat; auto. intros p B. subst r. destruct (qltb_spec ((x1 - x0) * (y1 - y0)) 0) as [L|L].
  - rewrite wsum_rev. destruct (box_wsum x0 y0 x1 y1 p) as [W|[(W & P)|(W & P)]]; [|rewrite W; auto|exfalso; qlra|rewrite W; auto].
    intros (s & Hs & O). apply B. exists (snd s, fst s). split; [apply is_edge_rev; destruct s; exact Hs|]. destruct s. now apply on_seg_sym.
  - destruct (box_wsum x0 y0 x1 y1 p) as [W|[(W & P)|(W & P)]]; auto. exfalso; qlra.
Qed.
Lemma sub_flat orc a b r : is_geom2d a -> is_geom2d b -> flat a -> g2_sub (segment_arrangement orc) a b = Ok r -> flat r.
Proof.
  intros A B F R. unfold g2_sub in R. destruct (g2_is_empty b); [now injection R as <-|].
  eapply arrangement_flat; [| |exact R]; [|reflexivity]. constructor; [|constructor]; auto.
Qed.
Lemma mink_flat orc depth g cpoly sign r : is_geom2d g -> Forall (fun s => flat [mkSpwh (outer s) []]) g ->
  locate_point_polygon_winding_number cpoly (0, 0) = Ok 1%Z ->
  minkowski_convex_op (segment_arrangement orc) depth g cpoly sign = Ok r -> flat r.
Proof.
  intros G FG L R. destruct depth as [|depth]; [discriminate|]. pose proof (arrangement_sound orc) as SA. set (A := segment_arrangement orc) in *.
  cbn [minkowski_convex_op] in R. rewrite L in R. cbn [bind] in R.
  change (negb (1 =? 1)%Z) with false in R. cbn iota in R.
  destruct (passert (negb (qeqb sign 0))) as [u|] eqn:P0; cbn [bind] in R; [|discriminate].
  destruct (mapM _ g) as [parts|] eqn:EP in R; cbn [bind] in R; [|discriminate].
  destruct (mapM _ (flat_map holes g)) as [hneg|] eqn:EH in R; cbn [bind] in R; [|discriminate].
  destruct (union_tree A _) as [gpos|] eqn:EU1 in R; cbn [bind] in R; [|discriminate].
  destruct (union_tree A _) as [gneg|] eqn:EU2 in R; cbn [bind] in R; [|discriminate].
  apply mapM_ok in EP. apply mapM_ok in EH.
  assert (FP : Forall (fun pe => is_geom2d (fst pe) /\ flat (fst pe) /\ Forall is_geom2d (snd pe)) parts).
  { clear -EP G FG. revert G FG. induction EP as [|s pe g parts H EP IHp]; intros G FG; constructor; inversion G; inversion FG; subst; auto.
    minv. rewrite transformed_shift0 in E by auto. injection E as <-. pose proof (single_geom _ _ E0) as GS.
    apply single_ok in E0 as (-> & RO). cbn [fst snd]. split; auto. split; auto.
    apply mapM_ok in E2. clear -E2. induction E2 as [|e x l m H E2 IHe]; constructor; auto. minv. eapply single_geom; eauto. }
  assert (GH : Forall is_geom2d hneg).
  { clear -EH SA. induction EH as [|h m hs ms H EH IHh]; constructor; auto. minv. eapply mink_geom; eauto. }
  set (pos := if qltb 0 sign then flat_map (fun pe => fst pe :: snd pe) parts else map fst parts) in *.
  set (neg := (if qltb 0 sign then [] else flat_map snd parts) ++ hneg) in *.
  assert (GP : Forall is_geom2d pos).
  { clear -FP. unfold pos. destruct (qltb 0 sign); induction FP as [|pe l (X1 & X2 & X3) X IHx]; cbn; try constructor; auto. apply Forall_app. auto. }
  assert (GN : Forall is_geom2d neg).
  { unfold neg. apply Forall_app. split; auto. clear -FP. destruct (qltb 0 sign); [constructor|]. induction FP as [|pe l (X1 & X2 & X3) X IHx]; cbn; [constructor|]. apply Forall_app; auto. }
  pose proof (union_tree_ok A _ _ SA GP EU1) as (G1 & _). pose proof (union_tree_ok A _ _ SA GN EU2) as (G2 & _).
  apply (sub_flat orc gpos gneg); auto. eapply (tree_flat orc pos); [exact GP| |exact EU1].
  unfold pos. destruct (qltb 0 sign).
  - destruct FP as [|pe parts (X1 & X2 & X3) FP]; [now left|]. cbn [flat_map app length]. destruct (snd pe ++ flat_map (fun pe => fst pe :: snd pe) parts) as [|q l]; [right; constructor; [|constructor]; auto|left; cbn; lia].
  - right. clear -FP. induction FP as [|pe l (X1 & X2 & X3) X IHx]; constructor; auto.
Qed.

Theorem results_flat : forall orc, let A := segment_arrangement orc in
  (forall a b r, is_geom2d a -> is_geom2d b -> g2_and A a b = Ok r -> flat r) /\
  (forall a b r, is_geom2d a -> is_geom2d b -> flat a -> flat b -> g2_or A a b = Ok r -> flat r) /\
  (forall a b r, is_geom2d a -> is_geom2d b -> g2_is_empty a = false -> g2_is_empty b = false -> g2_or A a b = Ok r \/ g2_sub A a b = Ok r -> flat r) /\
  (forall a b r, is_geom2d a -> is_geom2d b -> flat a -> g2_sub A a b = Ok r -> flat r) /\
  (forall gs r, Forall is_geom2d gs -> g2_union A gs = Ok r -> flat r) /\
  (forall gs r, Forall is_geom2d gs -> (length gs <> 1%nat \/ Forall flat gs) -> union_tree A gs = Ok r -> flat r) /\
  (forall vx0 vy0 vx1 vy1 x0 y0 x1 y1 g, exact_coord vx0 x0 -> exact_coord vy0 y0 -> exact_coord vx1 x1 -> exact_coord vy1 y1 ->
     rectangle vx0 vy0 vx1 vy1 = Ok g -> flat g) /\
  (forall fsqrt g amount q r, 0 < fsqrt 1 -> 0 < fsqrt (zq 2) -> is_geom2d g -> pval amount = Some (Fin q) -> q <> 0 ->
     Forall (fun s => flat [mkSpwh (outer s) []]) g -> g2_buffer A fsqrt g amount = Ok r -> flat r).
Proof.
  intros orc A.
  assert (AF : forall a b op r, is_geom2d a -> is_geom2d b -> op [false; false] = false -> arrangement_op A [a; b] op = Ok r -> flat r).
  { intros a b op r Ga Gb O R. eapply arrangement_flat; [| |exact R]; [|exact O]. constructor; [|constructor]; auto. }
  repeat match goal with |- _ /\ _ => split end.
  - intros a b r Ga Gb. now apply AF.
  - intros a b r Ga Gb Fa Fb R. unfold g2_or in R. destruct (g2_is_empty a); [now injection R as <-|]. destruct (g2_is_empty b); [now injection R as <-|]. eapply AF; [..|exact R]; auto.
  - intros a b r Ga Gb Ea Eb [R|R]; unfold g2_or, g2_sub in R; rewrite ?Ea, ?Eb in R; (eapply AF; [..|exact R]; auto).
  - intros a b r Ga Gb Fa. now apply sub_flat.
  - intros gs r G R. unfold g2_union in R. destruct (Nat.ltb_spec UNION_N (length gs)) as [L|L].
    + eapply tree_flat; [exact G| |exact R]. left. unfold UNION_N in L. lia.
    + eapply arrangement_flat; [exact G| |exact R]. apply any_none.
  - intros gs r G L R. eapply tree_flat; eauto.
  - intros. eapply (rectangle_flat vx0 vy0 vx1 vy1); eauto.
  - intros fsqrt g amount q r F1 F2 G EQ NQ FO R. unfold g2_buffer in R.
    rewrite EQ in R. destruct (qeqb_spec q 0) as [E|_]; [congruence|]. apply bind_ok in R as (q' & Ea & R).
    assert (q' = q) by (clear -Ea EQ; destruct amount; cbn in Ea, EQ; try discriminate; apply some_inv in EQ; injection EQ as V; injection Ea as Ea; congruence). subst q'.
    eapply mink_flat; [exact G|exact FO| |exact R]. apply buffer_origin; auto. unfold qabs. destruct (qleb_spec 0 q), (qc_not_eq _ _ NQ); qlra.
Qed.
Print Assumptions results_flat.

(** ** C81 *)
Lemma same_area a b x y : is_geom2d a -> is_geom2d b -> flat a -> flat b -> g2_area a = Ok x -> g2_area b = Ok y ->
  (forall p, off_all [a; b] p -> (in_geom a p <-> in_geom b p)) -> x = y.
Proof.
  intros Ga Gb Fa Fb X Y S. apply Qcle_antisym.
  - eapply (proj1 (area_monotone a b x y Ga Gb Fa Fb X Y _)). Unshelve. intros p O. now apply S.
  - eapply (proj1 (area_monotone b a y x Gb Ga Fb Fa Y X _)). Unshelve. intros p O. apply S. intros z [<-|[<-|[]]]; apply O; cbn; auto.
Qed.
Lemma bit_inj (s t : bool) (P : Prop) : (s = true <-> P) -> (t = true <-> P) -> s = t.
Proof. intros H K. destruct s, t; auto; [symmetry; apply K, H|apply H, K]; reflexivity. Qed.
Lemma four o n a b xo xn xa xb k : Forall is_geom2d [o; n; a; b] -> Forall flat [o; n; a; b] ->
  g2_area o = Ok xo -> g2_area n = Ok xn -> g2_area a = Ok xa -> g2_area b = Ok xb ->
  (forall p u v, off_all [o; n; a; b] p -> (u = true <-> in_geom a p) -> (v = true <-> in_geom b p) ->
     exists s t : bool, (s = true <-> in_geom o p) /\ (t = true <-> in_geom n p) /\
       ((if s then 1 else 0) + (if t then 1 else 0) = (if u then 1 else 0) + k * (if v then 1 else 0))%Z) ->
  xo + xn = xa + zq k * xb.
Proof.
  intros G F Xo Xn Xa Xb H. pose proof G as G'. inversion G' as [|? ? Go G1]; subst. inversion G1 as [|? ? Gn G2]; subst. inversion G2 as [|? ? Ga G3]; subst. inversion G3 as [|? ? Gb _]; subst.
  apply area_val in Xo; auto. apply area_val in Xn; auto. apply area_val in Xa; auto. apply area_val in Xb; auto. subst.
  assert (Q := sums_eq [(1%Z, o); (1%Z, n); ((-1)%Z, a); ((- k)%Z, b)]). cbn [map fst snd qsum] in Q.
  rewrite zq_1, zq_opp in Q. replace (zq (-1)) with (- (1)) in Q by (apply Qc_is_canon; reflexivity).
  rewrite <- (Qcplus_0_r (qsum poly_area a + _)). rewrite <- Q; [ring|exact G|exact F|].
  intros p bs O B. inversion B as [|? s ? l1 B1 C]; subst. inversion C as [|? t ? l2 B2 D]; subst. inversion D as [|? u ? l3 B3 E]; subst. inversion E as [|? v ? l4 B4 B5]; subst. inversion B5; subst.
  destruct (H p u v O B3 B4) as (s' & t' & S1 & T1 & X). rewrite (bit_inj s' s _ S1 B1), (bit_inj t' t _ T1 B2) in X. unfold tally. cbn [combine zsum fst snd]. lia.
Qed.
Lemma off_incl gs hs p : incl gs hs -> off_all hs p -> off_all gs p.
Proof. intros I O g Hg. apply O, I, Hg. Qed.
Theorem area_of_operators : forall orc1 orc2 orc3 a b o n d xa xb xo xn xd,
  is_geom2d a -> is_geom2d b -> flat a -> flat b ->
  g2_or (segment_arrangement orc1) a b = Ok o -> g2_and (segment_arrangement orc2) a b = Ok n -> g2_sub (segment_arrangement orc3) a b = Ok d ->
  g2_area a = Ok xa -> g2_area b = Ok xb -> g2_area o = Ok xo -> g2_area n = Ok xn -> g2_area d = Ok xd ->
  xo + xn = xa + xb /\ xd + xn = xa /\ 0 <= xn /\ 0 <= xd /\ xn <= xb.
Proof.
  intros orc1 orc2 orc3 a b o n d xa xb xo xn xd Ga Gb Fa Fb O N D Xa Xb Xo Xn Xd.
  assert (Fo : flat o) by (eapply (proj1 (proj2 (results_flat orc1)) a b); eauto).
  assert (Fn : flat n) by (eapply (proj1 (results_flat orc2) a b); eauto).
  assert (Fd : flat d) by (eapply (sub_flat orc3 a b); eauto).
  destruct (g2_or_ok _ _ _ _ (arrangement_sound orc1) Ga Gb O) as (Go & _ & Mo).
  destruct (g2_and_ok _ _ _ _ (arrangement_sound orc2) Ga Gb N) as (Gn & _ & Mn).
  destruct (g2_sub_ok _ _ _ _ (arrangement_sound orc3) Ga Gb D) as (Gd & _ & Md).
  assert (GG : forall x y, is_geom2d x -> is_geom2d y -> Forall is_geom2d [x; y; a; b]) by (intros; constructor; [auto|]; constructor; [auto|]; constructor; [auto|]; constructor; [auto|constructor]).
  assert (FF : forall x y, flat x -> flat y -> Forall flat [x; y; a; b]) by (intros; constructor; [auto|]; constructor; [auto|]; constructor; [auto|]; constructor; [auto|constructor]).
  split; [|split; [|split; [|split]]].
  - replace xb with (zq 1 * xb) by (rewrite zq_1; ring). apply (four o n a b xo xn xa xb 1 (GG o n Go Gn) (FF o n Fo Fn) Xo Xn Xa Xb).
    intros p u v Off U V. apply (off_incl [a; b]) in Off; [|intros z Z0; cbn in *; tauto]. exists (u || v)%bool, (u && v)%bool. rewrite orb_true_iff, andb_true_iff, (Mo p Off), (Mn p Off), U, V.
    split; [tauto|]. split; [tauto|]. destruct u, v; reflexivity.
  - replace xa with (xa + zq 0 * xb) by (replace (zq 0) with 0 by (apply Qc_is_canon; reflexivity); ring). apply (four d n a b xd xn xa xb 0 (GG d n Gd Gn) (FF d n Fd Fn) Xd Xn Xa Xb).
    intros p u v Off U V. apply (off_incl [a; b]) in Off; [|intros z Z0; cbn in *; tauto]. exists (u && negb v)%bool, (u && v)%bool. rewrite !andb_true_iff, negb_true_iff, (Md p Off), (Mn p Off), U, <- V.
    split; [destruct v; intuition congruence|]. split; [tauto|]. destruct u, v; reflexivity.
  - eapply (area_region n); eauto.
  - eapply (area_region d); eauto.
  - apply area_val in Xn; auto. apply area_val in Xb; auto. destruct (sums_pos [((-1)%Z, n); (1%Z, b); (0%Z, a)]) as (Q & _).
    + repeat (constructor; auto).
    + constructor; [auto|]. constructor; [auto|]. constructor; [auto|constructor].
    + intros p bs Off B. inversion B as [|? t ? l1 B1 C]; subst. inversion C as [|? v ? l2 B2 D0]; subst. inversion D0 as [|? u ? l3 B3 E]; subst. inversion E; subst.
      apply (off_incl [a; b]) in Off; [|intros z Z0; cbn in *; tauto]. unfold tally. cbn [map combine zsum fst snd]. rewrite (Mn p Off) in B1. destruct t, v, u; try lia; exfalso; destruct (proj1 B1 eq_refl); discriminate (proj2 B2 H0).
    + cbn [map fst snd qsum] in Q. rewrite zq_1 in Q. replace (zq (-1)) with (- (1)) in Q by (apply Qc_is_canon; reflexivity). replace (zq 0) with 0 in Q by (apply Qc_is_canon; reflexivity). subst. qlra.
Qed.
Print Assumptions area_of_operators.
Local Definition P (x y : Z) : point := (zq x, zq y).
Local Definition rect (x0 y0 x1 y1 : Z) : result geom2d := rectangle (NInt x0) (NInt y0) (NInt x1) (NInt y1).
Lemma exact_int z : exact_coord (NInt z) (zq z).
Proof. right. exists z. auto. Qed.
(** two overlapping squares: flat, and the areas of their union, meet and difference *)
Example area_of_operators_ex : exists a b o n d, let A := segment_arrangement (fun _ _ _ => O) in
  rect 0 0 4 4 = Ok a /\ rect 2 2 6 6 = Ok b /\ flat a /\ flat b /\ g2_or A a b = Ok o /\ g2_and A a b = Ok n /\ g2_sub A a b = Ok d /\
  map g2_area [a; b; o; n; d] = [Ok (zq 16); Ok (zq 16); Ok (zq 28); Ok (zq 4); Ok (zq 12)].
Proof.
  do 5 eexists. cbv zeta. split; [vm_compute; reflexivity|]. split; [vm_compute; reflexivity|].
  split; [eapply (rectangle_flat (NInt 0) (NInt 0) (NInt 4) (NInt 4)); [apply exact_int..|vm_compute; reflexivity]|].
  split; [eapply (rectangle_flat (NInt 2) (NInt 2) (NInt 6) (NInt 6)); [apply exact_int..|vm_compute; reflexivity]|].
  split; [vm_compute; reflexivity|]. split; [vm_compute; reflexivity|]. split; [vm_compute; reflexivity|]. vm_compute. reflexivity.
Qed.
(** the premises of C79 hold of a square inside another *)
Example area_monotone_ex : exists a b p, is_geom2d a /\ is_geom2d b /\ flat a /\ flat b /\
  (forall p, off_all [a; b] p -> in_geom a p -> in_geom b p) /\ (off_all [a; b] p /\ in_geom b p /\ ~ in_geom a p) /\
  g2_area a = Ok 1 /\ g2_area b = Ok (zq 16).
Proof.
  destruct (rectangle_box (NInt 1) (NInt 1) (NInt 2) (NInt 2) _ _ _ _ (exact_int 1) (exact_int 1) (exact_int 2) (exact_int 2)) as (_ & A).
  destruct (rectangle_box (NInt 0) (NInt 0) (NInt 4) (NInt 4) _ _ _ _ (exact_int 0) (exact_int 0) (exact_int 4) (exact_int 4)) as (_ & B).
  destruct A as (a & Ra & Ga & Aa & La); [discriminate..|]. destruct B as (b & Rb & Gb & Ab & Lb); [discriminate..|].
  exists a, b, (P 3 3).
  assert (OB : forall g p, is_geom2d g -> g2_locate g p <> Ok 0%Z -> (forall s h, In s g -> In h (holes s) -> False) -> length g = 1%nat -> ~ on_bd g p).
  { intros g p G L NH L1 (r & (s & S & R) & Bd). destruct g as [|s' [|]]; try discriminate L1. destruct S as [->|[]]. destruct R as [->|R]; [|exact (NH s r (or_introl eq_refl) R)].
    apply L. cbn [g2_locate mapM fold_left bind]. inversion G as [|? ? G1 _]; subst. apply spwh_ok_iff in G1 as ((N & _) & _).
    unfold spwh_locate. rewrite (proj2 (proj1 (locate_zero_iff_boundary (outer s) p N)) Bd). reflexivity. }
  assert (Sa : a = [mkSpwh (ring_sq 1 2) []]) by (vm_compute in Ra; injection Ra as <-; reflexivity).
  assert (Sb : b = [mkSpwh (ring_sq 0 4) []]) by (vm_compute in Rb; injection Rb as <-; reflexivity).
  assert (IN : forall g p, is_geom2d g -> ~ on_bd g p -> (in_geom g p <-> g2_locate g p = Ok 1%Z)).
  { intros g p G O. destruct (g2_locate_ok g p G O) as [(-> & I)|(-> & I)]; split; auto; try tauto; discriminate. }
  assert (O3 : ~ on_bd a (P 3 3) /\ ~ on_bd b (P 3 3)).
  { split; apply OB; auto; try (subst; vm_compute; congruence); subst; intros s h [<-|[]] []. }
  destruct O3 as (Oa & Ob). split; auto. split; auto.
  split; [eapply (rectangle_flat (NInt 1) (NInt 1) (NInt 2) (NInt 2)); try apply exact_int; exact Ra|].
  split; [eapply (rectangle_flat (NInt 0) (NInt 0) (NInt 4) (NInt 4)); try apply exact_int; exact Rb|].
  split; [|split; [|split; [rewrite Sa|rewrite Sb]; vm_compute; reflexivity]].
  - intros p O I. assert (O1 : ~ on_bd a p) by (apply O; cbn; auto). assert (O2 : ~ on_bd b p) by (apply O; cbn; auto). apply (IN a p Ga O1) in I. apply (IN b p Gb O2). apply Lb. apply La in I.
    assert (zq 0 < zq 1 /\ zq 1 < zq 2 /\ zq 2 < zq 4) as (Q0 & Q1 & Q2) by (repeat split; reflexivity). unfold strictly_between in *. destruct I as ([(? & ?)|(? & ?)] & [(? & ?)|(? & ?)]); split; left; split; qlra.
  - split; [intros g [<-|[<-|[]]]; auto|]. rewrite (IN a _ Ga Oa), (IN b _ Gb Ob), Sa, Sb. split; vm_compute; congruence.
Qed.
(** flatness fails for overlapping polygons in one geometry, and the area then counts the overlap twice *)
Example not_flat : exists g, is_geom2d g /\ ~ flat g /\ g2_area g = Ok (zq 32).
Proof.
  exists [mkSpwh (ring_sq 0 4) []; mkSpwh (ring_sq 0 4) []]. assert (G : is_geom2d [mkSpwh (ring_sq 0 4) []; mkSpwh (ring_sq 0 4) []]) by (repeat constructor).
  split; auto. split; [|vm_compute; reflexivity]. intros F0. pose proof (proj1 (flat_wch _ G) F0 (P 1 2)) as F. clear F0.
  assert (W : wch (chain [mkSpwh (ring_sq 0 4) []; mkSpwh (ring_sq 0 4) []]) (P 1 2) = 4%Z) by (vm_compute; reflexivity).
  rewrite W in F. destruct F as [(_ & F)|(_ & F)]; try discriminate.
  intros (r & (s & S & R) & B). assert (r = ring_sq 0 4) by (destruct S as [<-|[<-|[]]], R as [->|[]]; reflexivity). subst r.
  assert (L : locate_point_polygon_winding_number (ring_sq 0 4) (P 1 2) = Ok 1%Z) by (vm_compute; reflexivity).
  apply (proj1 (locate_zero_iff_boundary (ring_sq 0 4) (P 1 2) ltac:(discriminate))) in B. rewrite L in B. discriminate.
Qed.

Definition all_k (k : Z) (gs : list geom2d) : list (Z * geom2d) := map (fun g => (k, g)) gs.
Lemma all_k_snd k gs : map snd (all_k k gs) = gs.
Proof. unfold all_k. rewrite map_map. apply map_id. Qed.
Lemma tally_k k gs bs : tally (combine (map fst (all_k k gs)) bs) = (k * tally (combine (map fst (all_k 1 gs)) bs))%Z.
Proof.
  unfold tally, all_k. rewrite !map_map. cbn [fst]. revert bs. induction gs as [|g gs IH]; intros [|b bs]; cbn [map combine zsum]; try lia. rewrite IH. cbn [fst snd]. lia.
Qed.
Lemma area_k k gs : qsum (fun kg => zq (fst kg) * qsum poly_area (snd kg)) (all_k k gs) = zq k * qsum (fun g => qsum poly_area g) gs.
Proof. unfold all_k. rewrite qsum_map. cbn [fst snd]. apply qsum_scale. Qed.
Lemma count_bits gs p bs : bits gs p bs -> let n := tally (combine (map fst (all_k 1 gs)) bs) in
  (0 <= n)%Z /\ (some_in gs p -> 1 <= n)%Z /\ (~ some_in gs p -> n = 0%Z) /\
  ((forall i j g h, nth_error gs i = Some g -> nth_error gs j = Some h -> i <> j -> in_geom g p -> ~ in_geom h p) -> (n <= 1)%Z).
Proof.
  intros B. induction B as [|g b gs bs H B IH].
  - cbn. split; [lia|]. split; [intros (? & [] & _)|]. split; lia.
  - destruct IH as (H0 & H1 & H2 & H3). unfold tally in *. cbn [all_k map fst combine zsum snd]. set (n := zsum _ _) in *. change (map (fun g => (1%Z, g)) gs) with (all_k 1 gs). fold n.
    split; [destruct b; lia|]. split; [|split].
    + intros (x & [->|X] & I); [rewrite (proj2 H I); lia|]. assert (1 <= n)%Z by (apply H1; exists x; auto). destruct b; lia.
    + intros N. rewrite H2 by (intros (x & X & I); apply N; exists x; cbn; auto). destruct b; [|reflexivity]. exfalso. apply N. exists g. cbn. split; auto. now apply H.
    + intros D. destruct b; [|assert (n <= 1)%Z; [|lia]; apply H3; intros i j x y X Y N; exact (D (S i) (S j) x y X Y ltac:(lia))].
      rewrite H2; [lia|]. intros (x & X & I). apply In_nth_error in X as (j & X). exact (D O (S j) g x eq_refl X ltac:(lia) (proj1 H eq_refl) I).
Qed.
Lemma sum_areas gs xs : Forall is_geom2d gs -> Forall2 (fun g y => g2_area g = Ok y) gs xs -> qsum (fun y => y) xs = qsum (fun g => qsum poly_area g) gs.
Proof.
  intros G H. induction H as [|g y gs xs H F IH]; [reflexivity|]. inversion G; subst. cbn [qsum]. rewrite IH by auto. now rewrite (area_val g y).
Qed.
Theorem area_of_union : forall orc orc' gs gs' r r' x x' xs, Forall is_geom2d gs -> Forall flat gs -> (forall g, In g gs <-> In g gs') ->
  union_tree (segment_arrangement orc) gs = Ok r \/ g2_union (segment_arrangement orc) gs = Ok r ->
  union_tree (segment_arrangement orc') gs' = Ok r' \/ g2_union (segment_arrangement orc') gs' = Ok r' ->
  g2_area r = Ok x -> g2_area r' = Ok x' -> Forall2 (fun g y => g2_area g = Ok y) gs xs ->
  x = x' /\ Forall (fun y => y <= x) xs /\ x <= qsum (fun y => y) xs /\
  ((forall i j g h p, nth_error gs i = Some g -> nth_error gs j = Some h -> i <> j -> off_all gs p -> in_geom g p -> ~ in_geom h p) ->
   x = qsum (fun y => y) xs).
Proof.
  intros orc orc' gs gs' r r' x x' xs G F SE R R' X X' XS.
  assert (G' : Forall is_geom2d gs') by (rewrite Forall_forall in *; intros g Hg; apply G, SE, Hg).
  assert (F' : Forall flat gs') by (rewrite Forall_forall in *; intros g Hg; apply F, SE, Hg).
  assert (U : forall o l m, Forall is_geom2d l -> Forall flat l -> union_tree (segment_arrangement o) l = Ok m \/ g2_union (segment_arrangement o) l = Ok m -> flat m /\ is_op l (some_in l) m).
  { intros o l m Gl Fl [E|E].
    - split; [eapply (tree_flat o l); eauto|]. eapply union_tree_ok; eauto. apply arrangement_sound.
    - destruct (results_flat o) as (_ & _ & _ & _ & K & _). split; [eapply K; eauto|]. eapply g2_union_ok; eauto. apply arrangement_sound. }
  destruct (U _ _ _ G F R) as (Fr & Gr & Br & Mr). destruct (U _ _ _ G' F' R') as (Fr' & Gr' & Br' & Mr'). clear U R R'.
  assert (OO : forall p, off_all gs p -> off_all gs' p) by (intros p O g Hg; apply O, SE, Hg).
  assert (SS : forall p, some_in gs p <-> some_in gs' p) by (intros p; split; intros (g & Hg & I); exists g; (split; [apply SE, Hg|exact I])).
  rewrite (sum_areas gs xs G XS). pose proof (area_val _ _ Gr X) as Vx. pose proof (area_val _ _ Gr' X') as Vx'.
  assert (Z0 : zq 0 = 0) by (apply Qc_is_canon; reflexivity). assert (Z1 : zq (-1) = - (1)) by (apply Qc_is_canon; reflexivity).
  split; [|split; [|split]].
  - assert (Q := sums_eq ((1%Z, r) :: ((-1)%Z, r') :: all_k 0 gs)). cbn [map fst snd qsum] in Q. rewrite all_k_snd, area_k, zq_1, Z0, Z1, <- Vx, <- Vx' in Q.
    assert (E : 1 * x + (- (1) * x' + 0 * qsum (fun g => qsum poly_area g) gs) = 0); [|qlra]. apply Q.
    + constructor; [auto|]. constructor; auto.
    + constructor; [auto|]. constructor; auto.
    + intros p bs O B. inversion B as [|? s ? l1 B1 C]; subst. inversion C as [|? t ? l2 B2 D]; subst.
      unfold tally. cbn [combine zsum fst snd]. fold (tally (combine (map fst (all_k 0 gs)) l2)). rewrite tally_k.
      assert (Og : off_all gs p) by (apply (off_incl gs) in O; auto; intros z ?; cbn; auto). rewrite (Mr p Og), SS, <- (Mr' p (OO p Og)) in B1. rewrite (bit_inj _ _ _ B1 B2). lia.
  - rewrite Forall_forall. intros y Hy. destruct (in_split _ _ Hy) as (ys & zs & ->). destruct (Forall2_app_inv_r _ _ XS) as (hs & ks & _ & K & ->). inversion K as [|g ? ks' ? Xg _]; subst.
    assert (Ig : In g (hs ++ g :: ks')) by (rewrite in_app_iff; cbn; auto). set (gs := hs ++ g :: ks') in *. clearbody gs.
    assert (Gg : is_geom2d g) by (rewrite Forall_forall in G; auto). assert (Fg : flat g) by (rewrite Forall_forall in F; auto). pose proof (area_val _ _ Gg Xg) as Vy.
    destruct (sums_pos ((1%Z, r) :: ((-1)%Z, g) :: all_k 0 gs)) as (Q & _).
    + cbn [map snd]. rewrite all_k_snd. constructor; [auto|]. constructor; auto.
    + cbn [map snd]. rewrite all_k_snd. constructor; [auto|]. constructor; auto.
    + cbn [map snd fst]. rewrite all_k_snd. intros p bs O B. inversion B as [|? s ? l1 B1 C]; subst. inversion C as [|? t ? l2 B2 D]; subst.
      unfold tally. cbn [combine zsum fst snd]. fold (tally (combine (map fst (all_k 0 gs)) l2)). rewrite tally_k.
      assert (Og : off_all gs p) by (apply (off_incl gs) in O; auto; intros z ?; cbn; auto). rewrite (Mr p Og) in B1.
      destruct s, t; try lia. exfalso. assert (false = true); [|discriminate]. apply B1. exists g. split; auto. now apply B2.
    + cbn [map fst snd qsum] in Q. rewrite area_k, zq_1, Z0, Z1 in Q. subst y. qlra.
  - destruct (sums_pos (((-1)%Z, r) :: all_k 1 gs)) as (Q & _).
    + cbn [map snd]. rewrite all_k_snd. constructor; auto.
    + cbn [map snd]. rewrite all_k_snd. constructor; auto.
    + cbn [map snd fst]. rewrite all_k_snd. intros p bs O B. inversion B as [|? s ? l1 B1 C]; subst.
      unfold tally. cbn [combine zsum fst snd]. fold (tally (combine (map fst (all_k 1 gs)) l1)).
      assert (Og : off_all gs p) by (apply (off_incl gs) in O; auto; intros z ?; cbn; auto). rewrite (Mr p Og) in B1.
      destruct (count_bits gs p l1 C) as (C0 & C1 & _). destruct s; [|lia]. specialize (C1 (proj1 B1 eq_refl)). lia.
    + cbn [map fst snd qsum] in Q. rewrite area_k, zq_1, Z1 in Q. subst x. qlra.
  - intros DJ. assert (Q := sums_eq ((1%Z, r) :: all_k (-1) gs)). cbn [map fst snd qsum] in Q. rewrite all_k_snd, area_k, zq_1, Z1, <- Vx in Q.
    assert (E : 1 * x + - (1) * qsum (fun g => qsum poly_area g) gs = 0); [|qlra]. apply Q; [constructor; auto..|].
    intros p bs O B. inversion B as [|? s ? l1 B1 C]; subst.
    unfold tally. cbn [combine zsum fst snd]. fold (tally (combine (map fst (all_k (-1) gs)) l1)). rewrite tally_k.
    assert (Og : off_all gs p) by (apply (off_incl gs) in O; auto; intros z ?; cbn; auto). rewrite (Mr p Og) in B1.
    destruct (count_bits gs p l1 C) as (C0 & C1 & C2 & C3). assert (C4 : (tally (combine (map fst (all_k 1 gs)) l1) <= 1)%Z) by (apply C3; intros i j g h I J N; apply (DJ i j g h p I J N Og)).
    destruct s; [specialize (C1 (proj1 B1 eq_refl))|rewrite C2 by (intros S; discriminate (proj2 B1 S))]; lia.
Qed.
Print Assumptions area_of_union.
Example area_of_union_ex : exists a b c r r', let A := segment_arrangement (fun _ _ _ => O) in
  rect 0 0 1 1 = Ok a /\ rect 1 0 2 1 = Ok b /\ rect 1 0 3 1 = Ok c /\ union_tree A [a; b] = Ok r /\ g2_union A [c; a; b; a] = Ok r' /\
  map g2_area [a; b; c; r; r'] = [Ok 1; Ok 1; Ok (zq 2); Ok (zq 2); Ok (zq 3)].
Proof. do 5 eexists. cbv zeta. repeat (split; [vm_compute; reflexivity|]). vm_compute. reflexivity. Qed.
