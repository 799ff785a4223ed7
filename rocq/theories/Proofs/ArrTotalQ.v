(** The arrangement of clean geometries can always be built: cells, sample points and the nesting of cells. *)
From Verif.Model Require Import SegmentTree CellMerger Arrangement2d Aabb Geom2d.
From Verif.Spec Require Import Plane Subdivision Region Area Crisp.
From Verif.Proofs Require Import PyP PolyP WindingP WindingQ WindingR NearP DictP SweepOrd SweepL PlanarP SubdivP MergerQ ArrVertexP ArrGraphP
  ArrInitP ArrTraceP ArrSampleP Geom2dP Geom2dOps ArrSoundP AreaP LevelP PolyCellsP FlatP JumpP CoverP CrispP NestP ArrTotalP ArrRayP NestOrdP ArrFuelP.
From Verif.Props Require Import Primitive2dProps Frangle2dProps Scan2dProps LocateProps.

Local Notation side := NestP.side.

Lemma map_fst_combine {A B} (l : list A) (k : list B) : length l = length k -> map fst (combine l k) = l.
Proof. revert k. induction l as [|a l IH]; intros [|b k] E; cbn in *; try discriminate; auto. now rewrite IH by lia. Qed.
Lemma iter_starts r : map fst (edges_iter r) = r.
Proof. destruct r as [|a l]; [reflexivity|]. apply map_fst_combine. rewrite app_length. cbn. lia. Qed.
Lemma concat_same {A} (ps : list (list A)) p q e : NoDup (concat ps) -> In p ps -> In q ps -> In e p -> In e q -> p = q.
Proof.
  induction ps as [|x ps IH]; cbn; intros N P Q E F; [destruct P|]. destruct (nodup_split _ _ N) as (_ & N2).
  assert (K : forall y, In y ps -> In e x -> In e y -> False).
  { intros y Y X Z. revert N X. clear -Y Z. induction x as [|a x IH]; cbn; intros N X; [destruct X|]. inversion N as [|? ? N1 N2]; subst.
    destruct X as [->|X]; auto. apply N1, in_or_app. right. apply in_concat. eauto. }
  destruct P as [<-|P], Q as [<-|Q]; auto; exfalso; eauto.
Qed.
Lemma concat_nodup {A} (ps : list (list A)) : (forall p, In p ps -> p <> []) -> NoDup (concat ps) -> NoDup ps.
Proof.
  induction ps as [|x ps IH]; cbn; intros H N; [constructor|]. destruct (nodup_split _ _ N) as (_ & N2). constructor; [|apply IH; auto].
  intros I. destruct x as [|e x]; [now apply (H [] (or_introl eq_refl))|]. cbn in N. inversion N as [|? ? N1 _]; subst. apply N1, in_or_app. right. apply in_concat. exists (e :: x). split; auto. now left.
Qed.

(** ** he.cell *)
Lemma set_edges cell hes : forall l m, (forall e, In e l -> In e hes) -> NoDup l -> (forall e, In e l -> dget seg_eqb e m = None) ->
  exists m', foldM (set_he_cell cell hes) l m = Ok m' /\ (forall e, In e l -> dget seg_eqb e m' = Some cell) /\ (forall e, ~ In e l -> dget seg_eqb e m' = dget seg_eqb e m).
Proof.
  induction l as [|a l IH]; intros m IN N F; [exists m; split; [reflexivity|]; split; [intros e []|auto]|].
  inversion N as [|? ? N1 N2]; subst. cbn [foldM]. unfold set_he_cell at 1.
  assert (existsb (seg_eqb a) hes = true) as -> by (apply (existsb_eqb_in _ seg_eqb_dec); apply IN; now left). cbn [bind].
  rewrite (F a (or_introl eq_refl)). cbn [bind]. destruct (IH (dset seg_eqb a cell m)) as (m' & E & S & O).
  - intros e I. apply IN. now right.
  - auto.
  - intros e I. rewrite (dget_other _ seg_eqb_dec); [apply F; now right|]. intros ->. contradiction.
  - exists m'. split; auto. split.
    + intros e [<-|I]; auto. rewrite O by auto. apply (dget_same _ seg_eqb_dec).
    + intros e I. rewrite O by (intros J; apply I; now right). apply (dget_other _ seg_eqb_dec). intros ->. apply I. now left.
Qed.
Lemma set_cells hes : forall rs m, (forall r e, In r rs -> In e (edges_iter r) -> In e hes) -> NoDup (concat (map edges_iter rs)) ->
  (forall r e, In r rs -> In e (edges_iter r) -> dget seg_eqb e m = None) -> (forall r, In r rs -> r <> [] /\ area_of r <> 0) ->
  exists m', foldM (set_cell hes) rs m = Ok m' /\ (forall r e, In r rs -> In e (edges_iter r) -> dget seg_eqb e m' = Some r) /\
    (forall e, ~ In e (concat (map edges_iter rs)) -> dget seg_eqb e m' = dget seg_eqb e m).
Proof.
  induction rs as [|r rs IH]; intros m IN N F AR; [exists m; split; [reflexivity|]; split; [intros r e []|auto]|].
  cbn [map concat] in N. destruct (nodup_split _ _ N) as (N1 & N2). cbn [foldM]. unfold set_cell at 1. destruct (AR r (or_introl eq_refl)) as (RN & RA).
  rewrite (area_ok r RN). cbn [bind]. destruct (qeqb_spec (area_of r) 0) as [Z|_]; [contradiction|]. cbn [negb passert bind].
  destruct (set_edges r hes (edges_iter r) m) as (m1 & E1 & S1 & O1); auto.
  { intros e I. apply (IN r e); auto. now left. }
  { intros e I. apply (F r e); auto. now left. }
  rewrite E1. cbn [bind].
  assert (DJ : forall e, In e (edges_iter r) -> In e (concat (map edges_iter rs)) -> False).
  { intros e I J. revert N I. clear -J. generalize (edges_iter r). intros l. induction l as [|a l IH]; cbn; intros N I; [destruct I|]. inversion N as [|? ? N1 N2]; subst.
    destruct I as [->|I]; auto. apply N1, in_or_app. now right. }
  destruct (IH m1) as (m' & E & S & O).
  - intros r' e R I. apply (IN r' e); auto. now right.
  - auto.
  - intros r' e R I. rewrite O1; [apply (F r' e); auto; now right|]. intros J. apply (DJ e J). apply in_concat. exists (edges_iter r'). split; auto. now apply in_map.
  - intros r' R. apply AR. now right.
  - exists m'. split; auto. split.
    + intros r' e [<-|R] I; [|now apply S]. rewrite O; [auto|]. intros J. exact (DJ e I J).
    + intros e I. rewrite O, O1; auto; intros J; apply I; cbn [map concat]; apply in_or_app; auto.
Qed.

(** ** areas *)
Lemma vals_area E r n : (forall e, In e E -> In (rev_e e) E) -> (forall e, In e E -> fst e <> snd e) -> planar E -> r <> [] -> vals E r n -> (n = 2%Z -> 0 < area_of r) /\ (n = 0%Z -> area_of r < 0).
Proof.
  intros SY ND PL RN V.
  destruct (edges_iter r) as [|e0 l] eqn:EI; [destruct (vl_ne _ _ _ V); auto|]. assert (I0 : In e0 (edges_iter r)) by (rewrite EI; now left).
  pose proof (vl_in _ _ _ V e0 I0) as E0. split; intros ->.
  - destruct (area_pos [(1%Z, r)]) as (_ & A).
    + intros p O. specialize (O _ (or_introl eq_refl)). cbn [snd] in O. unfold wch. cbn [zsum fst snd]. destruct (vl_all _ _ _ V p O); lia.
    + unfold ach in A. cbn [qsum fst snd] in A. replace (area_of r) with (zq 1 * area_of r + 0) by (replace (zq 1) with 1 by reflexivity; ring). apply A.
      destruct (RT_two E ND PL _ _ e0 E0 (vl_right _ _ _ V e0 I0) (vl_right _ _ _ V e0 I0)) as (p & O & W & _). exists p. split.
      * intros kr [<-|[]]. cbn [snd]. apply (off_ring E); auto. apply (vl_in _ _ _ V).
      * unfold wch. cbn [zsum fst snd]. cbn beta in W. lia.
  - destruct (area_pos [((-1)%Z, r)]) as (_ & A).
    + intros p O. specialize (O _ (or_introl eq_refl)). cbn [snd] in O. unfold wch. cbn [zsum fst snd]. destruct (vl_all _ _ _ V p O); lia.
    + unfold ach in A. cbn [qsum fst snd] in A. assert (X : 0 < zq (-1) * area_of r + 0); [apply A|replace (zq (-1)) with (- (1)) in X by (apply Qc_is_canon; reflexivity); qlra].
      destruct (RT_two E ND PL _ _ (rev_e e0) (SY _ E0) (vl_left _ _ _ V e0 I0) (vl_left _ _ _ V e0 I0)) as (p & O & W & _). exists p. split.
      * intros kr [<-|[]]. cbn [snd]. apply (off_ring E); auto. apply (vl_in _ _ _ V).
      * unfold wch. cbn [zsum fst snd]. cbn beta in W. lia.
Qed.

(** ** toggling *)
Definition memb (x : list point) (l : list (list point)) : bool := existsb (cell_eqb x) l.
Lemma memb_in x l : memb x l = true <-> In x l.
Proof. apply (existsb_eqb_in _ cell_eqb_dec). Qed.
Lemma cell_ref x y : Bool.reflect (x = y) (cell_eqb x y).
Proof. apply iff_reflect. symmetry. apply cell_eqb_dec. Qed.
Lemma cell_eqb_sym x y : cell_eqb x y = cell_eqb y x.
Proof. destruct (cell_ref x y) as [F|N], (cell_ref y x) as [E|M]; auto; congruence. Qed.
Lemma toggle_memb c l x : memb x (toggle c l) = xorb (memb x l) (cell_eqb c x).
Proof.
  unfold toggle. fold (memb c l). destruct (memb c l) eqn:M.
  - destruct (cell_ref c x) as [->|N].
    + rewrite M. apply not_true_is_false. intros H. apply memb_in, filter_In in H as (_ & H). destruct (cell_ref x x); [discriminate|congruence].
    + rewrite xorb_false_r. apply eq_true_iff_eq. rewrite !memb_in, filter_In. split; [tauto|]. intros I. split; auto. destruct (cell_ref c x); [contradiction|auto].
  - unfold memb. rewrite existsb_app. cbn [existsb]. rewrite orb_false_r, (cell_eqb_sym x c). fold (memb x l). destruct (cell_ref c x) as [->|N].
    + now rewrite M.
    + now rewrite orb_false_r, xorb_false_r.
Qed.
Definition of_cell (m : cell_map) (x : list point) (h : Qc * segment) : bool :=
  qltb 0 (fst h) && match dget seg_eqb (snd h) m with Some r => cell_eqb r x | None => false end.
Lemma toggle_hits_ok m : forall hits acc, (forall t e, In (t, e) hits -> t <> 0 /\ exists r, dget seg_eqb e m = Some r) ->
  exists acc', toggle_hits m hits acc = Ok acc' /\ forall x, memb x acc' = xorb (memb x acc) (Nat.odd (length (filter (of_cell m x) hits))).
Proof.
  induction hits as [|[t e] hits IH]; intros acc H; cbn [toggle_hits].
  - exists acc. split; auto. intros x. now rewrite xorb_false_r.
  - assert (H' : forall t e, In (t, e) hits -> t <> 0 /\ exists r, dget seg_eqb e m = Some r) by (intros; apply H; now right).
    destruct (H t e (or_introl eq_refl)) as (TN & r & R). destruct (qltb_spec t 0) as [L|L].
    + destruct (IH acc H') as (acc' & E & M). exists acc'. split; auto. intros x. rewrite M. cbn [filter]. unfold of_cell at 2. cbn [fst snd].
      destruct (qltb_spec 0 t) as [L'|_]; [exfalso; qlra|]. reflexivity.
    + destruct (qeqb_spec t 0) as [Z|_]; [contradiction|]. cbn [negb passert bind]. unfold dgetr. rewrite R. cbn [bind].
      destruct (IH (toggle r acc) H') as (acc' & E & M). exists acc'. split; auto. intros x. rewrite M, toggle_memb. cbn [filter]. unfold of_cell at 2. cbn [fst snd]. rewrite R.
      destruct (qltb_spec 0 t) as [_|L']; [|exfalso; destruct (qc_not_eq _ _ TN); qlra]. cbn [andb]. destruct (cell_eqb r x); cbn [length]; [|now rewrite xorb_false_r].
      rewrite Nat.odd_succ, <- Nat.negb_odd. destruct (memb x acc), (Nat.odd _); reflexivity.
Qed.

(** ** where the line through a point meets the line of an edge *)
Definition tray (gv p : point) (e : segment) : Qc := cross (dir e) (vsub p (fst e)) / cross gv (dir e).
Lemma tray_ok gv p e : cross gv (dir e) <> 0 -> exists s, at_t e s = step p gv (tray gv p e).
Proof.
  intros N. exists (cross gv (vsub p (fst e)) / cross gv (dir e)). unfold tray. pose proof (qdiv_mul (cross (dir e) (vsub p (fst e))) _ N) as A. pose proof (qdiv_mul (cross gv (vsub p (fst e))) _ N) as B.
  set (t := cross (dir e) (vsub p (fst e)) / cross gv (dir e)) in *. set (s := cross gv (vsub p (fst e)) / cross gv (dir e)) in *. clearbody t s.
  assert (X : forall x, x * cross gv (dir e) = 0 -> x = 0) by (intros x Z; apply Qcmult_integral in Z as [Z|Z]; [auto|contradiction]).
  assert (F : forall f : point -> Qc, (forall a b, f (vadd a b) = f a + f b) -> (forall k a, f (vscale k a) = k * f a) ->
    (f (dir e) * cross gv (vsub p (fst e)) = (f (vsub p (fst e)) * cross gv (dir e) + f gv * cross (dir e) (vsub p (fst e)))) -> f (vadd (fst e) (vscale s (dir e))) = f (vadd p (vscale t gv))).
  { intros f FA FS FI. rewrite !FA, !FS. assert (Z : f (fst e) + s * f (dir e) - (f p + t * f gv) = 0); [|qlra]. apply X.
    assert (FV : f (vsub p (fst e)) = f p - f (fst e)). { replace (vsub p (fst e)) with (vadd p (vscale (- (1)) (fst e))) by (apply pteq; vec; ring). rewrite FA, FS. ring. }
    rewrite FV in FI. transitivity (f (dir e) * (s * cross gv (dir e)) - (f p - f (fst e)) * cross gv (dir e) - f gv * (t * cross gv (dir e))); [ring|]. rewrite A, B, FI. ring. }
  unfold step, at_t. fold (dir e). apply pteq.
  - apply (F fst); [reflexivity|reflexivity|]. vec. ring.
  - apply (F snd); [reflexivity|reflexivity|]. vec. ring.
Qed.
Lemma tray_fun gv p e s t : cross gv (dir e) <> 0 -> at_t e s = step p gv t -> t = tray gv p e.
Proof.
  intros N H. destruct (tray_ok gv p e N) as (s' & H'). set (t' := tray gv p e) in *. clearbody t'.
  assert (Z : (t - t') * cross gv (dir e) = 0).
  { assert (K : forall s t, at_t e s = step p gv t -> t * cross gv (dir e) = cross (dir e) (vsub p (fst e))).
    { intros s0 t0 H0. assert (P : vsub p (fst e) = vsub (vscale s0 (dir e)) (vscale t0 gv)).
      { pose proof (f_equal fst H0) as X. pose proof (f_equal snd H0) as Y. unfold at_t, step, dir, vadd, vscale, vsub in *. cbn [fst snd] in *. apply pteq; cbn [fst snd]; qlra. }
      rewrite P. vec. ring. }
    pose proof (K s t H). pose proof (K s' t' H'). qlra. }
  apply Qcmult_integral in Z as [Z|Z]; [qlra|contradiction].
Qed.

Section Cells.
Variables (hes : list segment) (gv : point).
Hypothesis SY : forall e, In e hes -> In (rev_e e) hes.
Hypothesis ND : forall e, In e hes -> fst e <> snd e.
Hypothesis PL : planar hes.
Hypothesis NDH : NoDup hes.
Hypothesis GV : gv <> (0, 0).
Hypothesis GN : forall e, In e hes -> cross gv (dir e) <> 0.
Variable rs : list (list point).
Hypothesis RE : Permutation hes (concat (map edges_iter rs)).
Hypothesis RC : forall r, In r rs -> cellr hes r.

Lemma ring_in r e : In r rs -> In e (edges_iter r) -> In e hes.
Proof. intros R I. apply (Permutation_in _ (Permutation_sym RE)). apply in_concat. exists (edges_iter r). split; auto. now apply in_map. Qed.
Lemma ring_same r s e : In r rs -> In s rs -> In e (edges_iter r) -> In e (edges_iter s) -> r = s.
Proof.
  intros R S I J. assert (E : edges_iter r = edges_iter s).
  { apply (concat_same (map edges_iter rs) _ _ e); auto; [apply (Permutation_NoDup RE NDH)|now apply in_map|now apply in_map]. }
  assert (K : forall r, map fst (edges_iter r) = r) by exact iter_starts. now rewrite <- (K r), E, K.
Qed.
Lemma rings_nodup : NoDup rs.
Proof.
  apply (NoDup_map_inv edges_iter). apply concat_nodup; [|exact (Permutation_NoDup RE NDH)].
  intros p P. apply in_map_iff in P as (r & <- & R). apply edges_ne. apply (cr_ne _ _ (RC r R)).
Qed.

Record good (c : fcell) : Prop := {
  gd_in : In (fc_vertices c) rs;
  gd_see : exists e, In e (edges_iter (fc_vertices c)) /\ sees hes e (fc_point c);
  gd_neg : forall n, vals hes (fc_vertices c) n -> fc_negative c = (n =? 0)%Z }.
Lemma good_off c : good c -> off hes (fc_point c).
Proof. intros G. destruct (gd_see c G) as (e & _ & v & t & _ & TP & -> & O). apply O; auto. apply Qcle_refl. Qed.
Lemma sees_movable T e p : movable hes T -> In e hes -> sees hes e p -> T p -> RT T e.
Proof.
  intros TM I (v & t & R & TP & -> & O) H.
  apply (RT_intro hes ND PL T TM e (midpoint e) v); auto.
  { exists (qq 1 2). split; [reflexivity|]. split; [reflexivity|]. reflexivity. }
  intros dl DL. exists (qmin dl t). destruct (qmin_spec dl t) as (A & B & C). specialize (C DL TP). split; auto. split; auto.
  apply (TM (step (midpoint e) v t)); auto. intros x (s & S0 & S1 & ->). rewrite (proj2 (step_step _ _ _ _)).
  apply O; set (u := qmin dl t) in *; clearbody u; qnra.
Qed.
(** the region at the right of a cell is that of its sample point *)
Lemma sample_side c r e : good c -> incl (edges_iter r) hes -> In e (edges_iter (fc_vertices c)) -> side r e (wsum (fc_point c) r).
Proof.
  intros G IN I. destruct (gd_see c G) as (e0 & I0 & S0). pose proof (RC _ (gd_in c G)) as C.
  assert (TM : movable hes (fun p => wsum p r = wsum (fc_point c) r)) by (now apply side_move).
  apply (cr_side _ _ C (fun p => wsum p r = wsum (fc_point c) r) e0 e TM I0 I). apply (sees_movable _ e0 (fc_point c)); auto. now apply (cr_in _ _ C).
Qed.
Lemma good_vals c : good c -> exists n, vals hes (fc_vertices c) n /\ wsum (fc_point c) (fc_vertices c) = n /\ fc_negative c = (n =? 0)%Z /\ (n = 0 \/ n = 2)%Z.
Proof.
  intros G. pose proof (RC _ (gd_in c G)) as C. destruct (cell_vals hes SY ND PL _ C) as (n & V). exists n. split; auto. split; [|split; [now apply gd_neg|exact (vl_n _ _ _ V)]].
  destruct (gd_see c G) as (e & I & _). apply (NestP.side_fun hes ND PL (fc_vertices c) e); [now apply (cr_in _ _ C)|apply (sample_side c (fc_vertices c) e G (cr_in _ _ C) I)|exact (vl_right _ _ _ V e I)].
Qed.

Variable cells : list fcell.
Hypothesis CV : map fc_vertices cells = rs.
Hypothesis CG : forall c, In c cells -> good c.
Definition posb (c : fcell) : bool := negb (fc_negative c).
Definition inb (d c : fcell) : bool := negb (wsum (fc_point c) (fc_vertices d) =? 0)%Z.
Lemma cells_nodup : NoDup cells.
Proof. apply (NoDup_map_inv fc_vertices). rewrite CV. apply rings_nodup. Qed.
Lemma cell_key c d : In c cells -> In d cells -> fc_vertices c = fc_vertices d -> c = d.
Proof.
  pose proof rings_nodup as N. rewrite <- CV in N. clear -N. intros C D E. induction cells as [|x l IH]; [destruct C|]. cbn in N. inversion N as [|? ? N1 N2]; subst.
  destruct C as [->|C], D as [->|D]; auto; exfalso; apply N1; [rewrite E|rewrite <- E]; now apply in_map.
Qed.
Lemma inb_vals d c : In d cells -> In c cells -> exists n, vals hes (fc_vertices d) n /\ posb d = negb (n =? 0)%Z /\ (n = 0 \/ n = 2)%Z /\
  (inb d c = true /\ wsum (fc_point c) (fc_vertices d) = v_in n \/ inb d c = false /\ wsum (fc_point c) (fc_vertices d) = 0%Z).
Proof.
  intros D C. destruct (good_vals d (CG d D)) as (n & V & _ & NG & NN). exists n. split; auto. unfold posb. rewrite NG. split; auto. split; auto.
  unfold inb. destruct (v_cases hes _ n _ V (good_off c (CG c C))) as [-> | ->]; [now right|left]. split; auto. unfold v_in. destruct NN as [-> | ->]; reflexivity.
Qed.
Lemma N1 c : In c cells -> inb c c = posb c.
Proof.
  intros C. destruct (good_vals c (CG c C)) as (n & V & W & NG & NN). unfold inb, posb. now rewrite W, NG.
Qed.
Lemma same_n c d n m : vals hes (fc_vertices c) n -> vals hes (fc_vertices d) m -> posb c = negb (n =? 0)%Z -> posb d = negb (m =? 0)%Z -> posb c = posb d -> n = m.
Proof.
  intros VC VD PC PD E. rewrite PC, PD in E. pose proof (vl_n _ _ _ VC). pose proof (vl_n _ _ _ VD). destruct (Z.eqb_spec n 0), (Z.eqb_spec m 0); cbn in E; try discriminate; lia.
Qed.
Lemma disj c d e : In c cells -> In d cells -> c <> d -> In e (edges_iter (fc_vertices c)) -> In e (edges_iter (fc_vertices d)) -> False.
Proof. intros C D N I J. apply N. apply cell_key; auto. apply (ring_same _ _ e); auto; now apply gd_in, CG. Qed.
Lemma N3 c d : In c cells -> In d cells -> posb c = posb d -> c <> d -> inb c d = true -> inb d c = true -> False.
Proof.
  intros C D PE N I J. destruct (inb_vals c d C D) as (n & VC & PC & _ & [(_ & WC)|(X & _)]); [|congruence]. destruct (inb_vals d c D C) as (m & VD & PD & _ & [(_ & WD)|(X & _)]); [|congruence].
  assert (n = m) by (eapply same_n; eauto). subst m.
  apply (not_both hes SY ND PL (fc_vertices c) (fc_vertices d) n (wsum (fc_point c) (fc_vertices d)) (wsum (fc_point d) (fc_vertices c))); auto.
  - intros e. now apply disj.
  - intros e E. apply sample_side; auto. apply (vl_in _ _ _ VD).
  - intros e E. apply sample_side; auto. apply (vl_in _ _ _ VC).
Qed.
Lemma N4 d x c : In d cells -> In x cells -> In c cells -> posb d = posb x -> d <> x -> inb x d = true -> inb d c = true -> inb x c = true.
Proof.
  intros D X C PE N I J. destruct (inb_vals d c D C) as (n & VD & PD & NN & [(_ & WD)|(Y & _)]); [|congruence]. destruct (inb_vals x d X D) as (m & VX & PX & _ & [(_ & WX)|(Y & _)]); [|congruence].
  assert (n = m) by (eapply same_n; eauto). subst m.
  unfold inb. destruct (Z.eqb_spec (wsum (fc_point c) (fc_vertices x)) 0) as [Z|Z]; auto. exfalso. revert Z.
  apply (nested hes SY ND PL (fc_vertices d) (fc_vertices x) n (wsum (fc_point d) (fc_vertices x)) (wsum (fc_point x) (fc_vertices d))); auto.
  - intros e. now apply disj.
  - intros e E. apply sample_side; auto. apply (vl_in _ _ _ VX).
  - intros e E. apply sample_side; auto. apply (vl_in _ _ _ VD).
  - now apply good_off, CG.
  - rewrite WD. unfold v_in. destruct NN as [-> | ->]; discriminate.
Qed.
Lemma N5 d x c : In d cells -> In x cells -> In c cells -> posb d = posb x -> d <> x -> inb d c = true -> inb x c = true -> inb x d = true \/ inb d x = true.
Proof.
  intros D X C PE N I J. destruct (inb_vals d x D X) as (n & VD & PD & NN & [(Y & _)|(_ & WD)]); [auto|]. destruct (inb_vals x d X D) as (m & VX & PX & _ & [(Y & _)|(_ & WX)]); [auto|].
  assert (n = m) by (eapply same_n; eauto). subst m. exfalso.
  destruct (apart hes SY ND PL (fc_vertices d) (fc_vertices x) n (wsum (fc_point d) (fc_vertices x)) (wsum (fc_point x) (fc_vertices d)) VD VX) with (p := fc_point c) as [Z|Z]; auto.
  - intros e. now apply disj.
  - intros e E. apply sample_side; auto. apply (vl_in _ _ _ VX).
  - intros e E. apply sample_side; auto. apply (vl_in _ _ _ VD).
  - now apply good_off, CG.
  - unfold inb in I. rewrite Z in I. discriminate.
  - unfold inb in J. rewrite Z in J. discriminate.
Qed.
Lemma N2 c : In c cells -> cnt cells (fun d => posb d && inb d c) = cnt cells (fun d => negb (posb d) && inb d c).
Proof.
  intros C. assert (Z : zsum (fun d => wsum (fc_point c) (fc_vertices d)) cells = 0%Z).
  { rewrite <- (all_cancel hes SY (fc_point c) NDH). rewrite (zsum_perm _ _ _ RE). rewrite <- CV. clear. induction cells as [|d l IH]; [reflexivity|].
    cbn [map concat]. rewrite zsum_app, <- IH. reflexivity. }
  assert (K : forall l, incl l cells -> zsum (fun d => wsum (fc_point c) (fc_vertices d)) l = (2 * (Z.of_nat (length (filter (fun d => posb d && inb d c) l)) - Z.of_nat (length (filter (fun d => negb (posb d) && inb d c) l))))%Z).
  { induction l as [|d l IH]; intros IN; [reflexivity|]. cbn [zsum filter]. rewrite IH by (intros x X; apply IN; now right).
    destruct (inb_vals d c (IN d (or_introl eq_refl)) C) as (n & _ & PD & NN & [(I & W)|(I & W)]); rewrite W, I.
    - rewrite !andb_true_r, PD. unfold v_in. destruct NN as [-> | ->]; cbn [Z.eqb negb length]; rewrite ?Nat2Z.inj_succ; lia.
    - rewrite !andb_false_r. lia. }
  specialize (K cells (incl_refl _)). rewrite Z in K. unfold cnt. lia.
Qed.

(** ** the containers *)
Let normal := general_normal gv.
Notation lev := (level cells posb inb).
Lemma rs_cell x : In x rs <-> exists d, In d cells /\ fc_vertices d = x.
Proof. rewrite <- CV, in_map_iff. split; intros (d & A & B); exists d; auto. Qed.
Lemma find_fcell_ok d : In d cells -> find_fcell cells (fc_vertices d) = Ok d.
Proof.
  intros D. unfold find_fcell. apply dgetr_ok. apply (dget_nodup _ cell_eqb_dec).
  - unfold keys. rewrite map_map. change (NoDup (map fc_vertices cells)). rewrite CV. apply rings_nodup.
  - apply in_map_iff. exists d. auto.
Qed.
Section Query.
Variables (tree : stree segment) (box : aabb) (m : cell_map).
Hypothesis TR : init_gstree normal hes = Ok tree.
Hypothesis BX : forall c, In c cells -> wide_box box (fc_point c).
Hypothesis MP : forall r e, In r rs -> In e (edges_iter r) -> dget seg_eqb e m = Some r.
Lemma around_ok c : In c cells -> exists inters around, ray_query box normal tree (fc_point c) gv false = Ok inters /\ toggle_hits m inters [] = Ok around /\ NoDup around /\
  forall x, In x around <-> exists d, In d cells /\ fc_vertices d = x /\ inb d c = true.
Proof.
  intros C. set (p := fc_point c). pose proof (good_off c (CG c C)) as OP. fold p in OP.
  destruct (ray_query_half hes gv SY ND GV GN tree box p TR (BX c C) NDH) as (inters & Q & NI & HI).
  assert (HM : forall e, In e hes -> exists r, In r rs /\ In e (edges_iter r)).
  { intros e I. rewrite RE in I. apply in_concat in I as (l & L & I). apply in_map_iff in L as (r & <- & R). eauto. }
  destruct (toggle_hits_ok m inters []) as (around & TH & MB).
  { intros t e I. apply HI in I as (I & K & s & AT). split.
    - intros ->. apply (OP e I). apply (kept_iff gv p e s 0 (GN e I) AT) in K. exists s. split; [destruct K as [(K1 & K2)|[(K1 & K2)|(K1 & K2)]]; qlra|].
      split; [destruct K as [(K1 & K2)|[(K1 & K2)|(K1 & K2)]]; qlra|]. rewrite AT. apply pteq; vec; ring.
    - destruct (HM e I) as (r & R & RI). exists r. now apply MP. }
  exists inters, around. split; auto. split; auto. split; [eapply toggle_hits_nodup; [|exact TH]; constructor|].
  assert (CNT : forall x, In x rs -> length (filter (of_cell m x) inters) = length (filter (fun e => kept gv p e && qltb 0 (tray gv p e)) (edges_iter x))).
  { intros x X. pose proof (RC x X) as XC. rewrite <- (map_length snd). apply Permutation_length. apply NoDup_Permutation.
    - clear -NI. induction inters as [|h l IH]; cbn; [constructor|]. cbn in NI. inversion NI as [|? ? A B]; subst. destruct (of_cell m x h); cbn; auto. constructor; auto.
      intros J. apply A. apply in_map_iff in J as (y & <- & J). apply filter_In in J as (J & _). now apply in_map.
    - apply NoDup_filter, (cr_nd _ _ XC).
    - intros e. rewrite in_map_iff, filter_In. split.
      + intros ([t e'] & E & J). cbn [snd] in E. subst e'. apply filter_In in J as (J & K). apply HI in J as (I & KP & s & AT). unfold of_cell in K. cbn [fst snd] in K.
        apply andb_true_iff in K as (K1 & K2). destruct (HM e I) as (r & R & RI). rewrite (MP r e R RI) in K2. destruct (cell_ref r x) as [RX|]; [subst r|discriminate].
        split; auto. rewrite KP, <- (tray_fun gv p e s t (GN e I) AT), K1. reflexivity.
      + intros (I & K). apply andb_true_iff in K as (K1 & K2). pose proof (ring_in x e X I) as IE. destruct (tray_ok gv p e (GN e IE)) as (s & AT).
        exists (tray gv p e, e). split; auto. apply filter_In. split; [apply HI; eauto|]. unfold of_cell. cbn [fst snd]. rewrite K2, (MP x e X I). destruct (cell_ref x x); auto. }
  assert (PAR : forall d, In d cells -> Nat.odd (length (filter (of_cell m (fc_vertices d)) inters)) = inb d c).
  { intros d D. pose proof (gd_in d (CG d D)) as DR. rewrite (CNT _ DR).
    destruct (ray_parity gv GV (fc_vertices d) p (tray gv p)) as (k & K).
    - apply (cr_ne _ _ (RC _ DR)).
    - apply (off_ring hes); auto. apply (cr_in _ _ (RC _ DR)).
    - intros e I. pose proof (ring_in _ e DR I) as IE. split; auto. now apply tray_ok, GN.
    - set (n := length _) in *. destruct (inb_vals d c D C) as (v & _ & _ & NN & [(I & W)|(I & W)]); rewrite I; fold p in W; rewrite W in K.
      + apply Nat.odd_spec. assert (Z.Odd (Z.of_nat n)) as O by (unfold v_in in K; destruct NN as [-> | ->]; [exists (-1 - k)%Z|exists (- k)%Z]; lia).
        destruct (Nat.Even_or_Odd n) as [(j & J)|]; auto. exfalso. destruct O as (i & O). lia.
      + apply not_true_is_false. intros O. apply Nat.odd_spec in O as (j & J). lia. }
  intros x. rewrite <- memb_in, MB. cbn [memb existsb xorb]. split.
  - intros O. assert (X : In x rs).
    { destruct (filter (of_cell m x) inters) as [|[t e] l] eqn:FL; [discriminate|]. assert (J : In (t, e) (filter (of_cell m x) inters)) by (rewrite FL; now left).
      apply filter_In in J as (J & K). apply HI in J as (I & _). unfold of_cell in K. cbn [fst snd] in K. apply andb_true_iff in K as (_ & K). destruct (HM e I) as (r & R & RI). rewrite (MP r e R RI) in K.
      destruct (cell_ref r x) as [RX|]; [now subst r|discriminate]. }
    apply rs_cell in X as (d & D & <-). exists d. split; auto. split; auto. rewrite <- (PAR d D). destruct (Nat.odd _); auto.
  - intros (d & D & <- & I). rewrite (PAR d D), I. reflexivity.
Qed.
Lemma containers_ok c : In c cells -> exists around, find_containers box normal tree gv m cells c = Ok (around, lev c) /\
  forall x, In x around <-> exists d, In d cells /\ fc_vertices d = x /\ d <> c /\ inb d c = true.
Proof.
  intros C. destruct (around_ok c C) as (inters & around & Q & TH & NA & MA). unfold find_containers. rewrite Q. cbn [bind]. rewrite TH. cbn [bind].
  assert (SELF : existsb (cell_eqb (fc_vertices c)) around = posb c).
  { change (memb (fc_vertices c) around = posb c). apply eq_true_iff_eq. rewrite memb_in, MA, <- (N1 c C). split.
    - intros (d & D & E & I). now rewrite (cell_key d c D C E) in I.
    - intros I. exists c. auto. }
  rewrite SELF. unfold posb at 1. rewrite eqb_reflx. cbn [passert bind]. set (ar := filter (fun x => negb (cell_eqb (fc_vertices c) x)) around).
  assert (AR : forall x, In x ar <-> exists d, In d cells /\ fc_vertices d = x /\ d <> c /\ inb d c = true).
  { intros x. unfold ar. rewrite filter_In, MA. split.
    - intros ((d & D & <- & I) & E). exists d. split; auto. split; auto. split; auto. intros ->. destruct (cell_ref (fc_vertices c) (fc_vertices c)); [discriminate|congruence].
    - intros (d & D & <- & N & I). split; [eauto|]. destruct (cell_ref (fc_vertices c) (fc_vertices d)) as [E|]; auto. destruct N. symmetry. now apply cell_key. }
  destruct (mapM_every (find_fcell cells) ar) as (fs & FS).
  { intros x X. apply AR in X as (d & D & <- & _). exists d. now apply find_fcell_ok. }
  rewrite FS. cbn [bind]. exists ar. split; auto. f_equal. f_equal.
  assert (FM : forall d, In d fs <-> In d cells /\ d <> c /\ inb d c = true).
  { intros d. apply mapM_ok in FS. split.
    - intros I. assert (X : exists x, In x ar /\ find_fcell cells x = Ok d).
      { clear -FS I. induction FS as [|x y l l' R F IH]; [destruct I|]. destruct I as [->|I]; [exists x; split; [now left|auto]|]. destruct (IH I) as (z & A & B). exists z. split; [now right|auto]. }
      destruct X as (x & X & F). apply AR in X as (d' & D & <- & N & I'). rewrite (find_fcell_ok d' D) in F. injection F as ->. auto.
    - intros (D & N & I). assert (X : In (fc_vertices d) ar) by (apply AR; eauto). clear AR. clearbody ar. induction FS as [|x y l l' R F IH]; [destruct X|].
      destruct X as [->|X]; [|right; auto]. left. rewrite (find_fcell_ok d D) in R. congruence. }
  assert (FN : NoDup fs).
  { apply (NoDup_map_inv fc_vertices). assert (NR : NoDup ar) by now apply NoDup_filter. assert (E : map fc_vertices fs = ar); [|now rewrite E].
    apply mapM_ok in FS. assert (AR' : forall x, In x ar -> exists d, In d cells /\ fc_vertices d = x) by (intros x X; apply AR in X as (d & D & E & _); eauto). clear AR FM NR. clearbody ar.
    induction FS as [|x y l l' R F IH]; [reflexivity|]. cbn [map]. rewrite IH by (intros z Z; apply AR'; now right). f_equal.
    destruct (AR' x (or_introl eq_refl)) as (d & D & <-). rewrite (find_fcell_ok d D) in R. now injection R as <-. }
  assert (CE : length (filter (fun f => negb (fc_negative f)) fs) = length (filter (fun d => posb d && inb d c && negb (cell_eqb (fc_vertices d) (fc_vertices c))) cells)).
  { apply Permutation_length, NoDup_Permutation; [now apply NoDup_filter|apply NoDup_filter, cells_nodup|]. intros d. rewrite !filter_In, FM. unfold posb. rewrite !andb_true_iff. split.
    - intros ((D & N & I) & P). split; auto. split; auto. destruct (cell_ref (fc_vertices d) (fc_vertices c)); auto. destruct N. now apply cell_key.
    - intros (D & (P & I) & E). split; auto. split; auto. split; auto. intros ->. destruct (cell_ref (fc_vertices c) (fc_vertices c)); [discriminate|congruence]. }
  rewrite CE. unfold level. unfold P, cnt.
  set (A := filter (fun d => posb d && inb d c) cells). set (B := filter (fun d => posb d && inb d c && negb (cell_eqb (fc_vertices d) (fc_vertices c))) cells).
  assert (NB : NoDup B) by (apply NoDup_filter, cells_nodup). assert (NAA : NoDup A) by (apply NoDup_filter, cells_nodup).
  pose proof (N1 c C) as N1c. change (posb c) with (negb (fc_negative c)). destruct (fc_negative c) eqn:NC; cbn [negb].
  - assert (E : length A = length B); [|lia]. apply Permutation_length, NoDup_Permutation; auto. intros d. unfold A, B. rewrite !filter_In. split.
    + intros (D & I). split; auto. rewrite I. cbn. destruct (cell_ref (fc_vertices d) (fc_vertices c)) as [E|]; auto. apply cell_key in E; auto. subst d.
      unfold posb in I. rewrite NC in I. discriminate.
    + intros (D & I). split; auto. now apply andb_true_iff in I as (I & _).
  - assert (E : length A = length (c :: B)); [|cbn [length] in E; lia]. apply Permutation_length, NoDup_Permutation; auto.
    + constructor; auto. intros J. apply filter_In in J as (_ & J). apply andb_true_iff in J as (_ & J). destruct (cell_ref (fc_vertices c) (fc_vertices c)); [discriminate|congruence].
    + intros d. unfold A, B. cbn [In]. rewrite !filter_In. split.
      * intros (D & I). destruct (cell_ref (fc_vertices d) (fc_vertices c)) as [E|N]; [left; symmetry; now apply cell_key|right]. rewrite I. auto.
      * intros [<-|(D & I)]; [|split; auto; now apply andb_true_iff in I as (I & _)]. split; auto. rewrite N1c. unfold posb. rewrite NC. reflexivity.
Qed.
Lemma argmax_ok {A} (key : A -> nat) l x : In (argmax key x l) (x :: l) /\ forall y, In y (x :: l) -> (key y <= key (argmax key x l))%nat.
Proof.
  revert x. induction l as [|a l IH]; intros x; cbn [argmax]; [split; [now left|]; intros y [<-|[]]; auto|].
  destruct (IH (if (key x <? key a)%nat then a else x)) as (I & M). split.
  - destruct (key x <? key a)%nat; destruct I as [I|I]; [right; now left|right; now right|now left|right; now right].
  - intros y Y. destruct (Nat.ltb_spec (key x) (key a)) as [L|L].
    + destruct Y as [<-|[<-|Y]]; [pose proof (M a (or_introl eq_refl)); lia|apply M; now left|apply M; now right].
    + destruct Y as [<-|[<-|Y]]; [apply M; now left|pose proof (M x (or_introl eq_refl)); lia|apply M; now right].
Qed.
Lemma container_ok degrees cont c : In c cells -> (forall d, In d cells -> dget cell_eqb (fc_vertices d) degrees = Some (lev d)) ->
  (forall x, In x cont <-> exists d, In d cells /\ fc_vertices d = x /\ d <> c /\ inb d c = true) -> exists r, find_container cells degrees cont c = Ok r.
Proof.
  intros C DG CT. unfold find_container. destruct cont as [|x l]; [eauto|].
  assert (DO : forall d, In d cells -> degree_of degrees (fc_vertices d) = lev d) by (intros d D; unfold degree_of; now rewrite (DG d D)).
  destruct (mapM_every (fun y => dgetr cell_eqb y degrees) (x :: l)) as (ds & DS).
  { intros y Y. apply CT in Y as (d & D & <- & _). exists (lev d). apply dgetr_ok. auto. }
  rewrite DS. cbn [bind]. destruct (argmax_ok (degree_of degrees) l x) as (AI & AM). set (a := argmax (degree_of degrees) x l) in *. clearbody a.
  apply CT in AI as (d & D & <- & N & I).
  destruct (closest cells posb inb cells_nodup N1 N2 N3 N4 N5) with (c := c) (x := d) as (E & PN); auto.
  { intros u v U V. destruct (cell_ref (fc_vertices u) (fc_vertices v)) as [E|NE]; [left; now apply cell_key|right; congruence]. }
  { intros y Y NY IY. rewrite <- !DO by auto. apply AM. apply CT. eauto. }
  rewrite !DO, E, Nat.eqb_refl by auto. cbn [passert bind]. rewrite (find_fcell_ok d D). cbn [bind].
  assert (X : Bool.eqb (fc_negative d) (fc_negative c) = false). { unfold posb in PN. destruct (fc_negative d), (fc_negative c); cbn; congruence. }
  rewrite X. cbn [negb passert bind]. eauto.
Qed.
End Query.
End Cells.

(** ** everything together *)
Lemma box_has l a b q : In a l -> In b l -> a <> b -> In q l -> wide_box (fold_left include_point l (AABB None None)) q.
Proof. intros A B N Q. apply (box_of_points l a b); auto; exists q, q; (split; [auto|split; [auto|split; apply Qcle_refl]]). Qed.
Lemma fold_points {A} (f : A -> point) l b : fold_left (fun b c => include_point b (f c)) l b = fold_left include_point (map f l) b.
Proof. revert b. induction l as [|a l IH]; intros b; cbn; auto. Qed.
Lemma F2_img {A B} (f : A -> result B) (Q : A -> B -> Prop) l l' : Forall2 (fun x y => f x = Ok y) l l' -> (forall x, In x l -> exists y, f x = Ok y /\ Q x y) -> Forall2 Q l l'.
Proof.
  induction 1 as [|x y l l' R F IH]; intros H; constructor.
  - destruct (H x (or_introl eq_refl)) as (z & E & K). rewrite R in E. injection E as <-. exact K.
  - apply IH. intros z Z. apply H. now right.
Qed.
Lemma F2_comb {A B} (Q : A -> B -> Prop) l l' a b : Forall2 Q l l' -> In (a, b) (combine l l') -> Q a b.
Proof. induction 1 as [|x y l l' R F IH]; intros I; [destruct I|]. cbn in I. destruct I as [I|I]; auto. now apply pair_inv in I as (<- & <-). Qed.
Lemma F2_vert (Q : fcell -> Prop) l l' : Forall2 (fun r c => fc_vertices c = r /\ Q c) l l' -> map fc_vertices l' = l.
Proof. induction 1 as [|r c l l' (R & _) F IH]; [reflexivity|]. cbn [map]. now rewrite R, IH. Qed.
Lemma F2_good (Q : fcell -> Prop) l l' : Forall2 (fun r c => fc_vertices c = r /\ Q c) l l' -> forall c, In c l' -> Q c.
Proof. induction 1 as [|r c l l' (_ & R) F IH]; [intros c []|]. intros x [<-|X]; auto. Qed.
Lemma F2_impl {A B} (Q R : A -> B -> Prop) l l' : (forall x y, Q x y -> R x y) -> Forall2 Q l l' -> Forall2 R l l'.
Proof. induction 2; constructor; auto. Qed.
Theorem cells_total orc sid hes vs vs0 gv : graph_ok sid hes vs -> keys vs = vs0 -> gv <> (0, 0) -> (forall e, In e hes -> cross gv (dir e) <> 0) ->
  (forall e, In e hes -> ~ (forall T, movable hes T -> RT T e -> RT T (rev_e e))) ->
  exists x, find_cells orc hes vs (fold_left include_point vs0 (AABB None None)) gv = Ok x.
Proof.
  intros G KV GV GN BR. set (box := fold_left include_point vs0 (AABB None None)). unfold find_cells.
  pose proof (fun e I => go_rev sid hes vs e G I) as SY. pose proof (fun e I => bt_ne sid hes vs G e I) as ND. pose proof (go_planar sid hes vs G) as PL. pose proof (go_nd sid hes vs G) as NDH.
  destruct (tree_ok hes gv SY ND GN) as (tree & TR & _). rewrite TR. cbn [bind].
  destruct (traced sid hes vs G BR (orc 2%nat)) as (paths & TC & PM & IC & ED). rewrite TC. cbn [bind]. set (rs := map (map fst) paths).
  assert (RM : map edges_iter rs = paths).
  { unfold rs. rewrite map_map. clear -ED. induction paths as [|p l IH]; [reflexivity|]. cbn [map]. rewrite (ED p (or_introl eq_refl)), IH; auto. intros q Q. apply ED. now right. }
  assert (RE : Permutation hes (concat (map edges_iter rs))) by now rewrite RM.
  assert (IP : forall p, In p paths -> incl p hes) by (intros p P e E; rewrite PM; apply in_concat; eauto).
  assert (NP : forall p, In p paths -> NoDup p).
  { intros p P. pose proof (Permutation_NoDup PM NDH) as N. clear -N P. induction paths as [|q l IH]; [destruct P|]. cbn in N. destruct (nodup_split _ _ N) as (A & B). destruct P as [->|P]; auto. }
  rewrite Forall_forall in IC.
  assert (RC : forall r, In r rs -> cellr hes r).
  { intros r R. apply in_map_iff in R as (p & <- & P). apply (cell_cellr sid hes vs G BR); auto. }
  assert (RV : forall r, In r rs -> exists n, vals hes r n) by (intros r R; now apply (cell_vals hes SY ND PL), RC).
  assert (RA : forall r, In r rs -> r <> [] /\ area_of r <> 0).
  { intros r R. pose proof (cr_ne _ _ (RC r R)) as RN. split; auto. destruct (RV r R) as (n & V). destruct (vals_area hes r n SY ND PL RN V) as (A & B).
    intros Z. destruct (vl_n _ _ _ V) as [->| ->]; [specialize (B eq_refl)|specialize (A eq_refl)]; qlra. }
  destruct (set_cells hes rs []) as (m & SM & MP & _); auto.
  { intros r e R I. now apply (cr_in _ _ (RC r R)). }
  { exact (Permutation_NoDup RE NDH). }
  rewrite SM. cbn [bind].
  assert (FP : forall r, In r rs -> exists c, find_cell_point gv box (general_normal gv) tree r = Ok c /\ fc_vertices c = r /\ good hes rs c).
  { intros r R. destruct (RA r R) as (RN & _). unfold find_cell_point. rewrite (area_ok r RN). cbn [bind]. pose proof R as R'. apply in_map_iff in R' as (p & <- & P).
    destruct (cell_two sid hes vs G p (IP p P) (IC p P)) as (e & f & l & -> & FE). assert (EI : In e hes) by (apply (IP _ P); now left). destruct (bt_vert _ _ _ G e EI) as (V1 & V2).
    cbn [map]. rewrite FE. destruct (sample_ok hes gv SY ND GV GN tree box (fst e) (snd e) (map fst l)) as (pt & E & S).
    - now destruct e.
    - exact TR.
    - unfold box. rewrite <- KV. apply mid_box; [exact (proj2 (go_all _ _ _ G _) V1)|exact (proj2 (go_all _ _ _ G _) V2)|exact (ND e EI)].
    - rewrite E. cbn [bind]. rewrite <- FE. change (fst e :: fst f :: map fst l) with (map fst (e :: f :: l)). set (r := map fst (e :: f :: l)) in *.
      assert (S' : sees hes e pt) by (destruct e; exact S).
      assert (I0 : In e (edges_iter r)) by (unfold r; rewrite (ED _ P); now left).
      destruct (RV r R) as (n & V). destruct (vals_area hes r n SY ND PL RN V) as (A & B).
      assert (W : wsum pt r = n).
      { apply (NestP.side_fun hes ND PL r e); auto; [|exact (vl_right _ _ _ V e I0)]. apply (sees_movable hes ND PL _ e pt); auto. apply side_move. apply (vl_in _ _ _ V). }
      assert (OP : off hes pt) by (destruct S' as (v & t & _ & TP & -> & O); apply O; auto; apply Qcle_refl).
      assert (NB : ~ on_boundary r pt) by (apply (off_ring hes); auto; apply (vl_in _ _ _ V)).
      destruct (locate_winding r pt RN NB) as (w & WN & _ & LO). rewrite LO. cbn [bind]. apply wind_wsum in WN; auto. rewrite WN in W.
      assert (NG : qltb (area_of r) 0 = (n =? 0)%Z).
      { destruct (vl_n _ _ _ V) as [Z|Z]; [specialize (B Z)|specialize (A Z)]; rewrite Z; destruct (qltb_spec (area_of r) 0); auto; exfalso; qlra. }
      rewrite NG. assert (PA : passert (if (n =? 0)%Z then ((if (w =? 0)%Z then -1 else 1) <? 0)%Z else (0 <? (if (w =? 0)%Z then -1 else 1))%Z) = Ok tt).
      { destruct (vl_n _ _ _ V) as [Z|Z]; rewrite Z in *; destruct (Z.eqb_spec w 0); cbn; auto; exfalso; lia. }
      rewrite PA. cbn [bind]. eexists. split; [reflexivity|]. split; [reflexivity|]. constructor; cbn [fc_vertices fc_point fc_negative]; auto.
      + eauto.
      + intros n' V'. f_equal. exact (NestP.side_fun hes ND PL r e n n' EI (vl_right _ _ _ V e I0) (vl_right _ _ _ V' e I0)). }
  destruct (mapM_every (find_cell_point gv box (general_normal gv) tree) rs) as (cells & CM).
  { intros r R. destruct (FP r R) as (c & E & _). eauto. }
  rewrite CM. cbn [bind].
  assert (CVG : map fc_vertices cells = rs /\ forall c, In c cells -> good hes rs c).
  { apply mapM_ok in CM. pose proof (F2_img _ (fun r c => fc_vertices c = r /\ good hes rs c) _ _ CM FP) as F. clear -F. split.
    - exact (F2_vert (good hes rs) _ _ F).
    - exact (F2_good _ _ _ F). }
  destruct CVG as (CV & CG). rewrite fold_points. set (box2 := fold_left include_point (map fc_point cells) box).
  assert (BX : forall c, In c cells -> wide_box box2 (fc_point c)).
  { intros c C. destruct (gd_see _ _ c (CG c C)) as (e & I & _). pose proof (cr_in _ _ (RC _ (gd_in _ _ c (CG c C))) e I) as EI. destruct (bt_vert _ _ _ G e EI) as (V1 & V2).
    unfold box2, box. rewrite <- fold_left_app. apply (box_has _ (fst e) (snd e)); auto; [apply in_or_app; left; rewrite <- KV; now apply (go_all _ _ _ G)|apply in_or_app; left; rewrite <- KV; now apply (go_all _ _ _ G)|].
    apply in_or_app. right. now apply in_map. }
  pose proof (containers_ok hes gv SY ND PL NDH GV GN rs RE RC cells CV CG tree box2 m TR BX MP) as FC.
  destruct (mapM_every (find_containers box2 (general_normal gv) tree gv m cells) cells) as (found & FM).
  { intros c C. destruct (FC c C) as (ar & E & _). eauto. }
  rewrite FM. cbn [bind]. set (degrees := combine (map fc_vertices cells) (map snd found)).
  assert (FF : Forall2 (fun c (x : list (list point) * nat) => snd x = level cells posb inb c /\ forall y, In y (fst x) <-> exists d, In d cells /\ fc_vertices d = y /\ d <> c /\ inb d c = true) cells found).
  { apply mapM_ok in FM. apply (F2_img _ _ _ _ FM). intros c C. destruct (FC c C) as (ar & E & M). exists (ar, level cells posb inb c). auto. }
  assert (DG : forall d, In d cells -> dget cell_eqb (fc_vertices d) degrees = Some (level cells posb inb d)).
  { intros d D. apply (dget_nodup _ cell_eqb_dec).
    - unfold keys, degrees. rewrite map_fst_combine; [rewrite CV; exact (rings_nodup hes NDH rs RE RC)|]. rewrite !map_length. exact (F2_length _ _ _ FF).
    - assert (GN' : forall l l', Forall2 (fun c (x : list (list point) * nat) => snd x = level cells posb inb c) l l' -> In d l -> In (fc_vertices d, level cells posb inb d) (combine (map fc_vertices l) (map snd l'))).
      { induction 1 as [|c x l l' R F IH]; intros DL; [destruct DL|]. cbn [map combine]. destruct DL as [->|DL]; [left; now rewrite R|right; auto]. }
      apply GN'; auto. apply (F2_impl _ _ _ _ (fun x y K => proj1 K) FF). }
  match goal with |- exists x, bind (mapM ?f ?l) _ = Ok x => destruct (mapM_every f l) as (conts & CN) end; [|rewrite CN; cbn [bind]; eauto].
  intros (i & c & x) I. cbn [fst snd]. apply in_combine_r in I. assert (CX : In c cells /\ forall y, In y (fst x) <-> exists d, In d cells /\ fc_vertices d = y /\ d <> c /\ inb d c = true).
  { split; [now apply in_combine_l in I|]. exact (proj2 (F2_comb _ _ _ _ _ FF I)). }
  destruct CX as (C & CT). apply (container_ok hes SY ND PL NDH rs RE RC cells CV CG degrees); auto. intros y. rewrite in_permuted. apply CT.
Qed.
