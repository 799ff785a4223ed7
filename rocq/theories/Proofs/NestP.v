(** The winding numbers of the cells of a planar subdivision, and how the cells nest. *)
From Verif.Model Require Import SegmentTree CellMerger Arrangement2d Aabb Geom2d.
From Verif.Spec Require Import Plane Subdivision Region Area Crisp.
From Verif.Proofs Require Import PyP PolyP WindingP WindingQ WindingR NearP DictP PlanarP SubdivP AreaP LevelP ArrSoundP FlatP JumpP CoverP CrispP.
From Verif.Props Require Import Primitive2dProps Scan2dProps LocateProps.

(** ** the outermost edge is next to the outside *)
Lemma outermost (E : list segment) (T : point -> Prop) :
  (forall e, In e E -> In (rev_e e) E) -> (forall e, In e E -> fst e <> snd e) -> planar E -> movable E T ->
  E <> [] -> (exists M, forall z, M < fst z -> off E z -> T z) -> exists e, In e E /\ RT T e.
Proof.
  intros SY ND PL TM NE (M & FAR). destruct E as [|e0 E0]; [congruence|]. set (E := e0 :: E0) in *. assert (I0 : In e0 E) by now left.
  set (p := at_t e0 (qq 1 2)). assert (IP : inner e0 p) by apply mid_inner.
  assert (NV : forall e, In e E -> fst e <> p).
  { intros e I X. assert (O : on_seg e p) by (rewrite <- X; exists 0; split; [qlra|]; split; [qlra|]; apply pteq; vec; ring).
    destruct (PL e0 e p I0 I IP O) as [-> | ->]; destruct (inner_end E ND e0 p I0 IP) as (A & B); [apply A; auto|apply B; auto]. }
  destruct (generic_dir (map (fun e => (p, fst e)) E)) as (m & G).
  assert (V : forall e, In e E -> cross (1, m) (vsub (fst e) p) <> 0).
  { intros e I. apply (G (p, fst e)); [apply in_map_iff; exists e; auto|]. cbn. intros Z. now apply (NV e I). }
  assert (V2 : forall e, In e E -> cross (1, m) (vsub (snd e) p) <> 0) by (intros e I; apply (V (rev_e e)); auto).
  set (d := (1, m) : point) in *.
  assert (F : forall l, incl l E -> (forall e t, In e l -> 0 <= t -> ~ on_seg e (step p d t)) \/
    exists e1 t1, In e1 l /\ 0 <= t1 /\ inner e1 (step p d t1) /\ cross (dir e1) d <> 0 /\ forall e t, In e l -> t1 < t -> ~ on_seg e (step p d t)).
  { induction l as [|e l IH]; intros L; [left; intros ? ? []|].
    assert (IE : In e E) by (apply L; left; auto). specialize (IH (fun x X => L x (or_intror X))).
    assert (C : (forall t, 0 <= t -> ~ on_seg e (step p d t)) \/
      exists t0, 0 <= t0 /\ inner e (step p d t0) /\ cross (dir e) d <> 0 /\ forall t, on_seg e (step p d t) -> t = t0).
    { destruct (hit_dec E p m e IE (V e IE) (V2 e IE)) as [H|(t0 & J0 & C0 & H)]; [left; auto|].
      destruct (qleb_spec 0 t0) as [P|P]; [right; eauto|]. left. intros t T0 X. apply H in X. qlra. }
    destruct IH as [IH|(e1 & t1 & A1 & A2 & A3 & A4 & A5)], C as [C|(t0 & B1 & B2 & B3 & B4)].
    - left. intros x t [<-|X] T0; auto.
    - right. exists e, t0. split; [left; auto|]. split; auto. split; auto. split; auto. intros x t [<-|X] T1.
      + intros Y. apply B4 in Y. qlra.
      + apply IH; auto. qlra.
    - right. exists e1, t1. split; [right; auto|]. split; auto. split; auto. split; auto. intros x t [<-|X] T1; auto. apply C. qlra.
    - right. destruct (qltb_spec t0 t1) as [LT|LT].
      + exists e1, t1. split; [right; auto|]. split; auto. split; auto. split; auto. intros x t [<-|X] T1; auto. intros Y. apply B4 in Y. qlra.
      + exists e, t0. split; [left; auto|]. split; auto. split; auto. split; auto. intros x t [<-|X] T1.
        * intros Y. apply B4 in Y. qlra.
        * apply A5; auto. qlra. }
  destruct (F E (incl_refl _)) as [H|(e1 & t1 & I1 & T1 & IN & CR & H)].
  { exfalso. apply (H e0 0 I0); [qlra|]. replace (step p d 0) with p by (apply pteq; vec; ring). now apply inner_on. }
  assert (X : exists e, In e E /\ inner e (step p d t1) /\ right_of e d).
  { unfold right_of. destruct (qc_not_eq _ _ CR) as [C|C]; [exists e1; auto|]. exists (rev_e e1). split; auto. split; [now apply inner_rev|].
    replace (cross (dir (rev_e e1)) d) with (- cross (dir e1) d) by (unfold rev_e; vec; ring). qlra. }
  destruct X as (e & IE & INE & RE). exists e. split; auto. apply (RT_intro E ND PL T TM e (step p d t1) d IE INE RE).
  intros dl DL. exists dl. split; auto. split; [qlra|].
  set (t2 := qmax dl (M - fst p - t1 + 1)). assert (B : dl <= t2 /\ M - fst p - t1 + 1 <= t2) by (unfold t2, qmax; destruct (qleb_spec dl (M - fst p - t1 + 1)); split; qlra).
  destruct B as (B1 & B2). clearbody t2. apply (TM (step (step p d t1) d t2)).
  - intros x (v & V0 & V1 & ->) f IF. replace (at_t _ v) with (step p d (t1 + (t2 + v * (dl - t2)))) by (vec; apply pteq; cbn; ring).
    apply H; auto. assert (0 <= (1 - v) * (t2 - dl)) by (apply mnn; qlra). qlra.
  - apply FAR; [unfold d, step, vadd, vscale; cbn [fst snd]; qlra|]. intros f IF. replace (step (step p d t1) d t2) with (step p d (t1 + t2)) by (vec; apply pteq; cbn; ring). apply H; auto. qlra.
Qed.

Definition has (e : segment) (r : list point) : Z := if in_dec seg_dec e (edges_iter r) then 1%Z else 0%Z.
Lemma has_in e r : In e (edges_iter r) -> has e r = 1%Z.
Proof. unfold has. destruct (in_dec _ _ _); tauto. Qed.
Lemma has_out e r : ~ In e (edges_iter r) -> has e r = 0%Z.
Proof. unfold has. destruct (in_dec _ _ _); tauto. Qed.

Section Nest.
Variable E : list segment.
Hypothesis SY : forall e, In e E -> In (rev_e e) E.
Hypothesis ND : forall e, In e E -> fst e <> snd e.
Hypothesis PL : planar E.

Record cellr (r : list point) : Prop := {
  cr_ne : r <> [];
  cr_in : incl (edges_iter r) E;
  cr_nd : NoDup (edges_iter r);
  cr_side : forall T e f, movable E T -> In e (edges_iter r) -> In f (edges_iter r) -> RT T e -> RT T f;
  cr_once : forall e, In e (edges_iter r) -> ~ In (rev_e e) (edges_iter r) }.

Lemma off_ring r p : incl (edges_iter r) E -> off E p -> ~ on_boundary r p.
Proof. intros I O B. apply on_boundary_iff in B as (s & S & X). exact (O s (I s S) X). Qed.
Lemma w_move r p q : incl (edges_iter r) E -> free E p q -> wsum p r = wsum q r.
Proof. intros I F. apply wsum_move. intros x X. apply off_ring; auto. Qed.
Definition side (r : list point) (e : segment) (n : Z) : Prop := RT (fun p => wsum p r = n) e.
Lemma side_move r n : incl (edges_iter r) E -> movable E (fun p => wsum p r = n).
Proof. intros I p q F <-. symmetry. now apply w_move. Qed.
(** every edge has a small strip at its right *)
Lemma strip e : In e E -> exists k, 0 < k /\ forall t, 0 < t -> t <= k -> off E (step (at_t e (qq 1 2)) (perp e) t).
Proof.
  intros I. pose proof (perp_right e (ND e I)) as R. unfold right_of in R.
  assert (Z1 : 0 < qq 1 4) by (vm_compute; reflexivity). assert (Z2 : qq 1 4 < qq 3 4) by (vm_compute; reflexivity). assert (Z3 : qq 3 4 < 1) by (vm_compute; reflexivity).
  assert (CN : cross (dir e) (perp e) <> 0) by (intros Z; rewrite Z in R; exact (Qclt_not_eq _ _ R eq_refl)).
  destruct (strip_free E ND PL e (perp e) (qq 1 4) (qq 3 4) I CN Z1 Z2 Z3) as (k & K & F).
  exists k. split; auto. intros t T0 T1. apply F; auto; vm_compute; discriminate.
Qed.
Lemma strip_RT (T : point -> Prop) e : In e E -> movable E T -> (exists k, 0 < k /\ T (step (at_t e (qq 1 2)) (perp e) k) /\ forall t, 0 < t -> t <= k -> off E (step (at_t e (qq 1 2)) (perp e) t)) -> RT T e.
Proof.
  intros I TM (k & K & H & O). apply (RT_intro E ND PL T TM e (at_t e (qq 1 2)) (perp e) I (mid_inner e) (perp_right e (ND e I))).
  intros dl DL. destruct (qmin_spec dl k) as (A1 & A2 & A3). specialize (A3 DL K). exists (qmin dl k). split; auto. split; auto.
  apply (TM (step (at_t e (qq 1 2)) (perp e) k)); auto. set (u := qmin dl k) in *. clearbody u. intros x (v & V0 & V1 & ->).
  replace (at_t _ v) with (step (at_t e (qq 1 2)) (perp e) (k + v * (u - k))) by (apply pteq; vec; ring).
  assert (0 <= v * (k - u)) by (apply mnn; qlra). assert (0 <= (1 - v) * (k - u)) by (apply mnn; qlra). apply O; qlra.
Qed.
Lemma side_ex r e : incl (edges_iter r) E -> In e E -> exists n, side r e n.
Proof.
  intros IN I. destruct (strip e I) as (k & K & O). exists (wsum (step (at_t e (qq 1 2)) (perp e) k) r).
  apply strip_RT; auto; [now apply side_move|]. exists k. auto.
Qed.
(** what holds at the right of an edge holds somewhere *)
Lemma RT_two (T U : point -> Prop) e : In e E -> RT T e -> RT U e -> exists p, off E p /\ T p /\ U p.
Proof.
  intros I R S. destruct (strip e I) as (k & K & O). destruct (R _ _ (mid_inner e) (perp_right e (ND e I))) as (k1 & K1 & R1).
  destruct (S _ _ (mid_inner e) (perp_right e (ND e I))) as (k2 & K2 & R2). destruct (qmin_spec k1 k2) as (A1 & A2 & A3), (qmin_spec k (qmin k1 k2)) as (B1 & B2 & B3).
  specialize (B3 K (A3 K1 K2)). exists (step (at_t e (qq 1 2)) (perp e) (qmin k (qmin k1 k2))). split; [apply O; auto|].
  split; [apply R1|apply R2]; auto; qlra.
Qed.
Lemma side_fun r e n m : In e E -> side r e n -> side r e m -> n = m.
Proof. intros I A B. destruct (RT_two _ _ e I A B) as (p & _ & X & Y). congruence. Qed.
Lemma RT_and (T U : point -> Prop) e : RT T e -> RT U e -> RT (fun p => T p /\ U p) e.
Proof.
  intros A B x d X D. destruct (A x d X D) as (k1 & K1 & A1), (B x d X D) as (k2 & K2 & B1). destruct (qmin_spec k1 k2) as (C1 & C2 & C3).
  exists (qmin k1 k2). split; auto. intros t T0 T1. split; [apply A1|apply B1]; auto; qlra.
Qed.
Lemma RT_imp (T U : point -> Prop) e : (forall p, T p -> U p) -> RT T e -> RT U e.
Proof. intros H A x d X D. destruct (A x d X D) as (k & K & A1). exists k. split; auto. Qed.

Lemma side_jump r e n : incl (edges_iter r) E -> NoDup (edges_iter r) -> In e E -> side r (rev_e e) n -> side r e (n + 2 * (has e r - has (rev_e e) r))%Z.
Proof.
  intros IN NDr I S. set (x := at_t e (qq 1 2)). assert (IX : inner e x) by apply mid_inner.
  assert (NV : forall f, In f E -> fst f <> x).
  { intros f J X. assert (O : on_seg f x) by (rewrite <- X; exists 0; split; [qlra|]; split; [qlra|]; apply pteq; vec; ring).
    destruct (PL e f x I J IX O) as [-> | ->]; destruct (inner_end E ND e x I IX) as (A & B); [apply A; auto|apply B; auto]. }
  pose proof (perp_right e (ND e I)) as PR. unfold right_of in PR.
  destruct (jump r x (perp e)) as (k & K & J).
  { intros v V. destruct (pedges_of r v V) as (w & Hw). apply is_edge_pedges, is_edge_iter in Hw. exact (NV _ (IN _ Hw)). }
  { intros s Hs O. destruct (PL e s x I (IN s Hs) IX O) as [-> | ->].
    - change (vsub (snd e) (fst e)) with (dir e). intros Z. qlra.
    - replace (cross (vsub (snd (rev_e e)) (fst (rev_e e))) (perp e)) with (- cross (dir e) (perp e)) by (unfold rev_e; vec; ring). intros Z. qlra. }
  assert (HS : zsum (hits x (perp e)) (edges_iter r) = (has (rev_e e) r - has e r)%Z).
  { rewrite (zsum_two _ _ e (rev_e e) NDr).
    - unfold has. assert (H1 : hits x (perp e) e = (-1)%Z).
      { unfold hits. rewrite (proj2 (hit_on x e (fun X => NV e I (eq_sym X))) (inner_on e x IX)). apply sgn_neg. exact PR. }
      assert (H2 : hits x (perp e) (rev_e e) = 1%Z).
      { unfold hits. rewrite (proj2 (hit_on x (rev_e e) (fun X => NV _ (SY e I) (eq_sym X))) (proj2 (on_rev e x) (inner_on e x IX))). apply sgn_pos.
        replace (cross (vsub (snd (rev_e e)) (fst (rev_e e))) (perp e)) with (- cross (dir e) (perp e)) by (unfold rev_e; vec; ring). qlra. }
      rewrite H1, H2. destruct (in_dec _ _ _), (in_dec _ _ _); lia.
    - intros X. apply (ND e I). unfold rev_e in X. rewrite (surjective_pairing e) in X at 1. now apply pair_inv in X as (X & _).
    - intros s Hs N1 N2. unfold hits. destruct (hit x s) eqn:H; auto. apply hit_sound in H. destruct (PL e s x I (IN s Hs) IX H); contradiction. }
  assert (ND' : right_of (rev_e e) (vscale (- (1)) (perp e))).
  { unfold right_of. replace (cross _ _) with (cross (dir e) (perp e)) by (unfold rev_e; vec; ring). exact PR. }
  destruct (S x _ (inner_rev e x IX) ND') as (k1 & K1 & S1). destruct (strip e I) as (k2 & K2 & O2).
  destruct (qmin_spec k k1) as (A1 & A2 & A3), (qmin_spec (qmin k k1) k2) as (B1 & B2 & B3). specialize (B3 (A3 K K1) K2).
  set (t := qmin (qmin k k1) k2) in *. assert (t <= k /\ t <= k1) as (C1 & C2) by (split; qlra). clearbody t. clear A1 A2 A3 B1.
  apply strip_RT; auto; [now apply side_move|]. exists t. split; auto. split; [|intros u U0 U1; apply O2; auto; qlra].
  destruct (J t B3 C1) as (_ & _ & JJ). specialize (S1 t B3 C2). cbv zeta in JJ. fold x. change (vadd x (vscale t (perp e))) with (step x (perp e) t) in JJ.
  replace (vadd x (vscale (- t) (perp e))) with (step x (vscale (- (1)) (perp e)) t) in JJ by (apply pteq; vec; ring). cbn beta in S1. rewrite S1, HS in JJ. lia.
Qed.
Lemma rev_rev e : rev_e (rev_e e) = e.
Proof. now destruct e. Qed.
Lemma side_rev r e n : incl (edges_iter r) E -> NoDup (edges_iter r) -> In e E -> side r e n -> side r (rev_e e) (n + 2 * (has (rev_e e) r - has e r))%Z.
Proof. intros A B C D. pose proof (side_jump r (rev_e e) n A B (SY e C)) as H. rewrite rev_rev in H. auto. Qed.

Lemma w_far r : exists M, forall p, M < fst p -> wsum p r = 0%Z.
Proof.
  destruct (ring_vertices_bound [r]) as (M & H). exists M. intros p P. apply (wsum_half_plane r p (- (1), 0)).
  intros v V. specialize (H r v (or_introl eq_refl) V). unfold dot, vsub. cbn [fst snd]. qlra.
Qed.

(** ** walking over the edges of some rings only *)
Definition sym (l : list segment) : list segment := l ++ map rev_e l.
Lemma sym_in l e : In e (sym l) <-> In e l \/ In (rev_e e) l.
Proof.
  unfold sym. rewrite in_app_iff, in_map_iff. split; intros [H|H]; auto.
  - destruct H as (x & <- & H). rewrite rev_rev. auto.
  - right. exists (rev_e e). now rewrite rev_rev.
Qed.
Lemma sym_E l e : incl l E -> In e (sym l) -> In e E.
Proof. intros L I. apply sym_in in I as [I|I]; [auto|]. apply L, SY in I. now rewrite rev_rev in I. Qed.
Lemma sym_sym l e : In e (sym l) -> In (rev_e e) (sym l).
Proof. rewrite !sym_in, rev_rev. tauto. Qed.
Lemma sym_planar l : incl l E -> planar (sym l).
Proof. intros L e f x I J. apply PL; eapply sym_E; eauto. Qed.
Lemma everywhere_off l Q p : incl l E -> movable (sym l) Q -> (forall e, In e l -> RT Q e /\ RT Q (rev_e e)) ->
  (exists M, forall z, M < fst z -> off (sym l) z -> Q z) -> off (sym l) p -> Q p.
Proof.
  intros L M R F O. apply (escape (sym l)) with (p := p); auto.
  - apply sym_sym.
  - intros e I. apply sym_in in I as [I|I]; [apply R; auto|]. rewrite <- (rev_rev e). now apply R.
Qed.
Lemma outer_edge l Q : incl l E -> movable (sym l) Q -> l <> [] -> (exists M, forall z, M < fst z -> off (sym l) z -> Q z) ->
  exists e, In e l /\ (RT Q e \/ RT Q (rev_e e)).
Proof.
  intros L M N F. destruct (outermost (sym l) Q) as (e & I & R); auto.
  - apply sym_sym.
  - intros e I. apply ND. eapply sym_E; eauto.
  - now apply sym_planar.
  - destruct l; [congruence|discriminate].
  - apply sym_in in I as [I|I]; [eauto|]. exists (rev_e e). rewrite rev_rev. auto.
Qed.
Lemma off_sym l r p : incl (edges_iter r) l -> off (sym l) p -> ~ on_boundary r p.
Proof. intros I O B. apply on_boundary_iff in B as (s & S & X). apply (O s); auto. apply sym_in. auto. Qed.
Lemma sym_move l r p q : incl (edges_iter r) l -> free (sym l) p q -> wsum p r = wsum q r.
Proof. intros I F. apply wsum_move. intros x X. eapply off_sym; eauto. Qed.

(** ** the winding numbers around a cell *)
Record vals (r : list point) (n : Z) : Prop := {
  vl_in : incl (edges_iter r) E;
  vl_nd : NoDup (edges_iter r);
  vl_ne : edges_iter r <> [];
  vl_right : forall e, In e (edges_iter r) -> side r e n;
  vl_left : forall e, In e (edges_iter r) -> side r (rev_e e) (n - 2);
  vl_all : forall p, ~ on_boundary r p -> wsum p r = n \/ wsum p r = (n - 2)%Z;
  vl_n : n = 0%Z \/ n = 2%Z }.
Lemma edges_ne r : r <> [] -> edges_iter r <> [].
Proof. destruct r as [|a r]; [congruence|]. intros _ H. pose proof (edges_iter_from a r) as X. rewrite H in X. destruct r; discriminate. Qed.
Lemma cell_vals r : cellr r -> exists n, vals r n.
Proof.
  intros C. pose proof (cr_in r C) as IN. pose proof (edges_ne r (cr_ne r C)) as NE. destruct (w_far r) as (M & FAR).
  assert (EX : exists e0, In e0 (edges_iter r)) by (destruct (edges_iter r) as [|e0 l]; [congruence|exists e0; now left]). destruct EX as (e0 & I0).
  destruct (side_ex r e0 IN (IN _ I0)) as (n & S0). exists n.
  assert (R : forall e, In e (edges_iter r) -> side r e n).
  { intros e I. apply (cr_side r C (fun p => wsum p r = n) e0 e); auto. now apply side_move. }
  assert (L : forall e, In e (edges_iter r) -> side r (rev_e e) (n - 2)).
  { intros e I. pose proof (side_rev r e n IN (cr_nd r C) (IN _ I) (R e I)) as S. rewrite (has_in e r I), (has_out (rev_e e) r (cr_once r C e I)) in S.
    replace (n - 2)%Z with (n + 2 * (0 - 1))%Z by lia. exact S. }
  assert (OS : forall p, ~ on_boundary r p -> off (sym (edges_iter r)) p).
  { intros p NB e I O. apply NB. apply on_boundary_iff. apply sym_in in I as [I|I]; [eauto|]. exists (rev_e e). split; auto. now apply on_rev. }
  assert (N : n = 0%Z \/ n = 2%Z).
  { destruct (outer_edge (edges_iter r) (fun p => wsum p r = 0%Z)) as (e & I & [X|X]); auto.
    - intros p q F <-. symmetry. apply (sym_move (edges_iter r)); auto. apply incl_refl.
    - exists M. auto.
    - left. exact (side_fun r e n 0 (IN _ I) (R e I) X).
    - right. pose proof (side_fun r (rev_e e) (n - 2) 0 (SY _ (IN _ I)) (L e I) X). lia. }
  constructor; auto; [exact (cr_nd r C)|]. intros p NB.
  apply (everywhere_off (edges_iter r) (fun p => wsum p r = n \/ wsum p r = (n - 2)%Z)); auto.
  - intros x y F H. rewrite <- (sym_move (edges_iter r) r x y (incl_refl _) F). auto.
  - intros e I. split; [eapply RT_imp; [|exact (R e I)]|eapply RT_imp; [|exact (L e I)]]; cbn beta; auto.
  - exists M. intros z Z _. rewrite FAR; auto. lia.
Qed.

(** ** two cells of the same kind *)
Definition v_in (n : Z) : Z := (2 * n - 2)%Z.
Lemma v_cases r n p : vals r n -> off E p -> wsum p r = 0%Z \/ wsum p r = v_in n.
Proof.
  intros V O. pose proof (vl_all r n V p (off_ring r p (vl_in _ _ V) O)). pose proof (vl_n r n V). unfold v_in. lia.
Qed.
Lemma side_val r n e a : vals r n -> In e E -> side r e a -> a = 0%Z \/ a = v_in n.
Proof. intros V I S. destruct (RT_two _ _ e I S S) as (p & O & <- & _). now apply v_cases. Qed.
Lemma left_val r e a : incl (edges_iter r) E -> NoDup (edges_iter r) -> In e E -> ~ In e (edges_iter r) -> side r e a -> side r (rev_e e) (a + 2 * has (rev_e e) r)%Z.
Proof.
  intros A B C D S. pose proof (side_rev r e a A B C S) as H. rewrite (has_out e r D) in H. now replace (a + 2 * has (rev_e e) r)%Z with (a + 2 * (has (rev_e e) r - 0))%Z by lia.
Qed.
Section Two.
Variables (r s : list point) (n a b : Z).
Hypothesis VR : vals r n.
Hypothesis VS : vals s n.
Hypothesis DJ : forall e, In e (edges_iter r) -> In e (edges_iter s) -> False.
Hypothesis RA : forall e, In e (edges_iter r) -> side s e a.
Hypothesis SB : forall e, In e (edges_iter s) -> side r e b.
Let l := edges_iter r ++ edges_iter s.
Lemma two_in : incl l E.
Proof. intros e I. apply in_app_or in I as [I|I]; [apply (vl_in _ _ VR)|apply (vl_in _ _ VS)]; auto. Qed.
Lemma two_move p q : free (sym l) p q -> wsum p r = wsum q r /\ wsum p s = wsum q s.
Proof. intros F. split; apply (sym_move l); auto; intros e I; apply in_or_app; auto. Qed.
Lemma two_far : exists M, forall p, M < fst p -> wsum p r = 0%Z /\ wsum p s = 0%Z.
Proof.
  destruct (w_far r) as (M & H), (w_far s) as (M' & H'). exists (qmax M M'). intros p P.
  assert (M < fst p /\ M' < fst p) as (P1 & P2) by (unfold qmax in P; destruct (qleb_spec M M'); split; qlra). auto.
Qed.
Lemma two_off p : off E p -> off (sym l) p.
Proof. intros O e I. apply O. eapply sym_E; eauto. apply two_in. Qed.
Lemma r_left e : In e (edges_iter r) -> side s (rev_e e) (a + 2 * has (rev_e e) s)%Z /\ ((a + 2 * has (rev_e e) s)%Z = 0%Z \/ (a + 2 * has (rev_e e) s)%Z = v_in n).
Proof.
  intros I. pose proof (vl_in _ _ VR e I) as IE. assert (X : side s (rev_e e) (a + 2 * has (rev_e e) s)%Z).
  { apply left_val; auto; [exact (vl_in _ _ VS)|exact (vl_nd _ _ VS)|]. intros J. exact (DJ e I J). }
  split; auto. exact (side_val s n _ _ VS (SY e IE) X).
Qed.
Lemma s_left e : In e (edges_iter s) -> side r (rev_e e) (b + 2 * has (rev_e e) r)%Z /\ ((b + 2 * has (rev_e e) r)%Z = 0%Z \/ (b + 2 * has (rev_e e) r)%Z = v_in n).
Proof.
  intros I. pose proof (vl_in _ _ VS e I) as IE. assert (X : side r (rev_e e) (b + 2 * has (rev_e e) r)%Z).
  { apply left_val; auto; [exact (vl_in _ _ VR)|exact (vl_nd _ _ VR)|]. intros J. exact (DJ e J I). }
  split; auto. exact (side_val r n _ _ VR (SY e IE) X).
Qed.
Lemma has_cases e x : has e x = 0%Z \/ has e x = 1%Z /\ In e (edges_iter x).
Proof. unfold has. destruct (in_dec _ _ _); auto. Qed.
Lemma not_both : a = v_in n -> b = v_in n -> False.
Proof.
  intros EA EB. destruct (outer_edge l (fun p => wsum p r = 0%Z /\ wsum p s = 0%Z)) as (e & I & X).
  - apply two_in.
  - intros p q F (H1 & H2). destruct (two_move p q F) as (<- & <-). auto.
  - unfold l. pose proof (vl_ne _ _ VR). destruct (edges_iter r); [congruence|discriminate].
  - destruct two_far as (M & H). exists M. auto.
  - assert (IE : In e E) by (apply two_in; auto). pose proof (SY e IE) as IE'.
    assert (C1 : forall x k, In x E -> RT (fun p => wsum p r = 0%Z /\ wsum p s = 0%Z) x -> side r x k -> k = 0%Z).
    { intros x k IX RX S. destruct (RT_two _ _ x IX RX S) as (p & _ & (Y & _) & Z). congruence. }
    assert (C2 : forall x k, In x E -> RT (fun p => wsum p r = 0%Z /\ wsum p s = 0%Z) x -> side s x k -> k = 0%Z).
    { intros x k IX RX S. destruct (RT_two _ _ x IX RX S) as (p & _ & (_ & Y) & Z). congruence. }
    unfold v_in in *. destruct (vl_n _ _ VR) as [Hn|Hn]; apply in_app_or in I as [I|I]; destruct X as [X|X].
    + pose proof (C2 e a IE X (RA e I)). lia.
    + pose proof (C1 _ _ IE' X (vl_left _ _ VR e I)). lia.
    + pose proof (C1 e b IE X (SB e I)). lia.
    + pose proof (C2 _ _ IE' X (vl_left _ _ VS e I)). lia.
    + pose proof (C1 e _ IE X (vl_right _ _ VR e I)). lia.
    + pose proof (C2 _ _ IE' X (proj1 (r_left e I))). pose proof (has_cases (rev_e e) s). lia.
    + pose proof (C2 e _ IE X (vl_right _ _ VS e I)). lia.
    + pose proof (C1 _ _ IE' X (proj1 (s_left e I))). pose proof (has_cases (rev_e e) r). lia.
Qed.
Lemma b_val : b = 0%Z \/ b = v_in n.
Proof.
  pose proof (vl_ne _ _ VS). assert (EX : exists e, In e (edges_iter s)) by (destruct (edges_iter s) as [|e0 l0]; [congruence|exists e0; now left]). destruct EX as (e & I).
  exact (side_val r n e b VR (vl_in _ _ VS e I) (SB e I)).
Qed.
Lemma a_val : a = 0%Z \/ a = v_in n.
Proof.
  pose proof (vl_ne _ _ VR). assert (EX : exists e, In e (edges_iter r)) by (destruct (edges_iter r) as [|e0 l0]; [congruence|exists e0; now left]). destruct EX as (e & I).
  exact (side_val s n e a VS (vl_in _ _ VR e I) (RA e I)).
Qed.
Lemma nested p : a = v_in n -> off E p -> wsum p r <> 0%Z -> wsum p s <> 0%Z.
Proof.
  intros EA O. assert (EB : b = 0%Z) by (destruct b_val as [|EB]; auto; destruct (not_both EA EB)).
  assert (Q : wsum p r = 0%Z \/ wsum p s = v_in n).
  { apply (everywhere_off l (fun p => wsum p r = 0%Z \/ wsum p s = v_in n)); [apply two_in|..|now apply two_off].
    - intros x y F H. destruct (two_move x y F) as (<- & <-). auto.
    - intros e I. apply in_app_or in I as [I|I].
      + split; [eapply RT_imp; [|exact (RA e I)]; cbn beta; intros; right; congruence|]. destruct (vl_n _ _ VR) as [Hn|Hn].
        * destruct (r_left e I) as (S & D). eapply RT_imp; [|exact S]. cbn beta. intros x X. right. rewrite X.
          destruct (has_cases (rev_e e) s) as [H|(H & J)]; [rewrite H; lia|]. exfalso. pose proof (SB _ J) as S'.
          pose proof (side_fun r (rev_e e) b (n - 2) (SY e (vl_in _ _ VR e I)) S' (vl_left _ _ VR e I)). lia.
        * eapply RT_imp; [|exact (vl_left _ _ VR e I)]. cbn beta. intros x X. left. rewrite X. lia.
      + split; [eapply RT_imp; [|exact (SB e I)]; cbn beta; intros; left; congruence|].
        destruct (s_left e I) as (S & D). eapply RT_imp; [|exact S]. cbn beta. intros x X. left. rewrite X.
        destruct (has_cases (rev_e e) r) as [H|(H & J)]; [rewrite H; lia|]. unfold v_in in *. destruct (vl_n _ _ VR) as [Hn|Hn]; [lia|]. exfalso.
        destruct (r_left _ J) as (S' & D'). rewrite rev_rev in D'. rewrite (has_in e s I) in D'. unfold v_in in D'. lia.
    - destruct two_far as (M & H). exists M. intros z Z _. left. now apply H. }
  intros NZ. destruct Q as [Q|Q]; [contradiction|]. rewrite Q. unfold v_in. destruct (vl_n _ _ VR); lia.
Qed.
Lemma apart p : a = 0%Z -> b = 0%Z -> off E p -> wsum p r = 0%Z \/ wsum p s = 0%Z.
Proof.
  intros EA EB O. apply (everywhere_off l (fun p => wsum p r = 0%Z \/ wsum p s = 0%Z)); [apply two_in|..|now apply two_off].
  - intros x y F H. destruct (two_move x y F) as (<- & <-). auto.
  - destruct (vl_n _ _ VR) as [Hn|Hn]; intros e I; apply in_app_or in I as [I|I]; split.
    + eapply RT_imp; [|exact (vl_right _ _ VR e I)]. cbn beta. intros x X. left. congruence.
    + destruct (r_left e I) as (S & D). eapply RT_imp; [|exact S]. cbn beta. intros x X. right. rewrite X. unfold v_in in D. destruct (has_cases (rev_e e) s) as [H|(H & _)]; lia.
    + eapply RT_imp; [|exact (vl_right _ _ VS e I)]. cbn beta. intros x X. right. congruence.
    + destruct (s_left e I) as (S & D). eapply RT_imp; [|exact S]. cbn beta. intros x X. left. rewrite X. unfold v_in in D. destruct (has_cases (rev_e e) r) as [H|(H & _)]; lia.
    + eapply RT_imp; [|exact (RA e I)]. cbn beta. intros x X. right. congruence.
    + eapply RT_imp; [|exact (vl_left _ _ VR e I)]. cbn beta. intros x X. left. rewrite X. lia.
    + eapply RT_imp; [|exact (SB e I)]. cbn beta. intros x X. left. congruence.
    + eapply RT_imp; [|exact (vl_left _ _ VS e I)]. cbn beta. intros x X. right. rewrite X. lia.
  - destruct two_far as (M & H). exists M. intros z Z _. left. now apply H.
Qed.
End Two.

(** ** the windings of all cells cancel *)
Lemma all_cancel p : NoDup E -> zsum (delta p) E = 0%Z.
Proof.
  intros N. assert (P : Permutation E (map rev_e E)).
  { apply NoDup_Permutation; auto.
    - apply FinFun.Injective_map_NoDup; auto. intros x y H. rewrite <- (rev_rev x), H. apply rev_rev.
    - intros e. rewrite in_map_iff. split; [intros I; exists (rev_e e); split; [apply rev_rev|auto]|intros (x & <- & I); auto]. }
  pose proof (zsum_perm (delta p) _ _ P) as H. rewrite zsum_map in H.
  assert (X : zsum (fun e => delta p (rev_e e)) E = (- zsum (delta p) E)%Z).
  { clear. induction E as [|[x y] l IH]; [reflexivity|]. cbn [zsum]. rewrite IH. unfold rev_e. cbn [fst snd]. pose proof (delta_rev p x y). lia. }
  lia.
Qed.
End Nest.
