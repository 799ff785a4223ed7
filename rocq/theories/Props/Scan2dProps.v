(** * C29-C32: the line sweep finds exactly the intersections of the input segments. *)
From Coq Require Import Sorting.Sorted.
From Verif.Model Require Import Scan2d.
From Verif.Spec Require Import Plane.
From Verif.Proofs Require Import PyP DictP SweepOrd SweepP SweepL SweepInv SweepMain.

(** ** vocabulary *)
Definition nondeg (s : segment) : Prop := fst s <> snd s.
Definition direction (s : segment) : point := vsub (snd s) (fst s).
Definition endpoint (s : segment) (p : point) : Prop := p = fst s \/ p = snd s.
(** two different segments meet in [p], not merely inside a common overlap *)
Definition crossing (segs : list segment) (p : point) : Prop :=
  exists a b, In a segs /\ In b segs /\ a <> b /\ on_seg a p /\ on_seg b p /\
    (cross (direction a) (direction b) <> 0 \/ endpoint a p \/ endpoint b p).

(** ** C29 *)
Lemma shear_loop_spec l : forall had mr had' mr', shear_loop l had mr = (had', mr') ->
  (match mr with Some m => 0 < m | None => True end) ->
  (had' = false -> had = false /\ forall s, In s l -> fst (snd s) - fst (fst s) = 0 \/ snd (snd s) - snd (fst s) <> 0) /\
  (match mr' with
   | None => mr = None /\ forall s, In s l -> fst (snd s) - fst (fst s) = 0 \/ snd (snd s) - snd (fst s) = 0
   | Some m => 0 < m /\ (match mr with Some m0 => m <= m0 | None => True end) /\
       forall s, In s l -> fst (snd s) - fst (fst s) <> 0 -> snd (snd s) - snd (fst s) <> 0 ->
         m <= qabs ((snd (snd s) - snd (fst s)) / (fst (snd s) - fst (fst s)))
   end).
Proof.
  induction l as [|s l IH]; intros had mr had' mr' E P; cbn in E.
  - apply pair_inv in E as (<- & <-). split; [intros; split; [auto|intros s []]|]. destruct mr; auto.
    + split; auto. split; [qlra|intros s []].
    + split; auto. intros s [].
  - set (dx := fst (snd s) - fst (fst s)) in *. set (dy := snd (snd s) - snd (fst s)) in *.
    destruct (qeqb_spec dx 0) as [X|X].
    { apply IH in E as (A & B); auto. split.
      - intros H. destruct (A H) as (A1 & A2). split; auto. intros t [<-|T]; auto.
      - destruct mr' as [m|]; destruct B as (B1 & B2).
        + split; auto. destruct B2 as (B2 & B3). split; auto. intros t [<-|T]; auto. contradiction.
        + split; auto. intros t [<-|T]; auto. }
    destruct (qeqb_spec dy 0) as [Y|Y].
    { apply IH in E as (A & B); auto. split.
      - intros H. destruct (A H) as (A1 & A2). discriminate.
      - destruct mr' as [m|]; destruct B as (B1 & B2).
        + split; auto. destruct B2 as (B2 & B3). split; auto. intros t [<-|T]; auto. contradiction.
        + split; auto. intros t [<-|T]; auto. }
    set (r := qabs (dy / dx)) in *.
    assert (R : 0 < r).
    { assert (M := qdiv_mul dy dx X). unfold r. destruct (qabs_cases (dy / dx)) as [(H & ->)|(H & ->)]; [|qlra].
      destruct (qeqb_spec (dy / dx) 0) as [Z|Z]; [|destruct (qc_not_eq _ _ Z); qlra]. exfalso. apply Y. rewrite <- M, Z. ring. }
    assert (P' : match (match mr with None => Some r | Some m => if qltb r m then Some r else Some m end) with Some m => 0 < m | None => True end).
    { destruct mr as [m|]; auto. destruct (qltb r m); auto. }
    apply IH in E as (A & B); auto. split.
    + intros H. destruct (A H) as (A1 & A2). split; auto. intros t [<-|T]; auto.
    + destruct mr' as [m'|]; destruct B as (B1 & B2).
      * split; auto. destruct B2 as (B2 & B3). split.
        -- destruct mr as [m|]; auto. destruct (qltb_spec r m); qlra.
        -- intros t [<-|T]; auto. intros _ _. fold dx dy r. destruct mr as [m|]; auto. destruct (qltb_spec r m); qlra.
      * exfalso. destruct mr as [m|]; [|discriminate]. destruct (qltb r m); discriminate.
Qed.
Theorem shear_no_horizontal segments s : In s segments -> nondeg s ->
  let a := find_general_y_shear segments in snd (shear a (fst s)) <> snd (shear a (snd s)).
Proof.
  intros I ND. cbn zeta. unfold find_general_y_shear. destruct (shear_loop segments false None) as (had, mr) eqn:E.
  apply shear_loop_spec in E as (A & B); [|exact Logic.I].
  set (dx := fst (snd s) - fst (fst s)). set (dy := snd (snd s) - snd (fst s)).
  assert (N : dx <> 0 \/ dy <> 0).
  { destruct (qeqb_spec dx 0) as [X|X]; auto. right. intros Y. apply ND. unfold dx, dy in *. apply pt_eq; qlra. }
  assert (G : forall al, dy + al * dx <> 0 -> snd (shear al (fst s)) <> snd (shear al (snd s))).
  { intros al H E. apply H. unfold shear in E. cbn [snd] in E. unfold dx, dy.
    transitivity ((snd (snd s) + al * fst (snd s)) - (snd (fst s) + al * fst (fst s))); [ring|]. rewrite E. ring. }
  destruct had; cbn [negb].
  - destruct mr as [m|].
    + destruct B as (M & _ & B). apply G. rewrite qdiv_half. intros Z.
      destruct (qeqb_spec dx 0) as [X|X]; [destruct N as [N|N]; [auto|]; apply N; rewrite X in Z; qlra|].
      destruct (qeqb_spec dy 0) as [Y|Y].
      { rewrite Y in Z. assert (Z' : qq 1 2 * m * dx = 0) by (qlra). apply Qcmult_integral in Z' as [Z'|Z']; [qlra|auto]. }
      specialize (B s I X Y). fold dx dy in B.
      assert (Q := qdiv_mul dy dx X). set (r := dy / dx) in *.
      assert (E : r = - (qq 1 2 * m)).
      { assert (Z' : (r + qq 1 2 * m) * dx = 0) by (rewrite <- Q in Z; rewrite <- Z; ring).
        apply Qcmult_integral in Z' as [Z'|Z']; [qlra|contradiction]. }
      destruct (qabs_cases r) as [(H & H')|(H & H')]; rewrite H' in B; qlra.
    + destruct B as (_ & B). apply G. specialize (B s I). fold dx dy in B. intros Z. destruct B as [B|B]; destruct N as [N|N]; auto; rewrite B in Z; try apply N; qlra.
  - destruct (A eq_refl) as (_ & A'). specialize (A' s I). fold dx dy in A'. apply G. intros Z.
    destruct A' as [X|Y]; [destruct N as [N|N]; auto|]; [apply N|apply Y]; qlra.
Qed.
Theorem unshear a p : (fst (shear a p), snd (shear a p) - a * fst (shear a p)) = p.
Proof. unfold shear. cbn [fst snd]. apply pt_eq; cbn; ring. Qed.
Example shear_ex : find_general_y_shear [((0, 0), (zq 4, 0)); ((0, 0), (zq 4, zq 2)); ((1, 0), (0, zq 3))] = qq 1 4.
Proof. apply Qc_is_canon. vm_compute. reflexivity. Qed.

(** ** C30 *)
Lemma on_seg_param s p : on_seg s p <-> exists t, 0 <= t /\ t <= 1 /\
  p = (fst (fst s) + t * (fst (snd s) - fst (fst s)), snd (fst s) + t * (snd (snd s) - snd (fst s))).
Proof. reflexivity. Qed.
Theorem nonparallel_intersection_exact a b p :
  nonparallel_intersection_point a b = Some p <->
  cross (direction a) (direction b) <> 0 /\ on_seg a p /\ on_seg b p.
Proof.
  change (cross (direction a) (direction b)) with (det (pt_sub (snd a) (fst a)) (pt_sub (snd b) (fst b))). split.
  - intros H. apply nip_some in H as (N & t & u & T0 & T1 & U0 & U1 & E1 & E2). split; auto. split; apply on_seg_param; eauto.
  - intros (N & (t & T0 & T1 & E1)%on_seg_param & (u & U0 & U1 & E2)%on_seg_param). rewrite E1.
    apply (nip_complete a b t u); auto. transitivity p; [symmetry; exact E1|exact E2].
Qed.
Theorem nonparallel_intersection_none a b :
  nonparallel_intersection_point a b = None <->
  cross (direction a) (direction b) = 0 \/ ~ exists p, on_seg a p /\ on_seg b p.
Proof.
  destruct (nonparallel_intersection_point a b) as [p|] eqn:E.
  - apply nonparallel_intersection_exact in E as (N & A & B). split; [discriminate|]. intros [H|H]; [contradiction|]. elim H. eauto.
  - split; auto. intros _. destruct (qeqb_spec (cross (direction a) (direction b)) 0) as [|N]; auto. right. intros (p & A & B).
    rewrite (proj2 (nonparallel_intersection_exact a b p)) in E by auto. discriminate.
Qed.
Lemma nonparallel_unique a b p q : cross (direction a) (direction b) <> 0 ->
  on_seg a p -> on_seg b p -> on_seg a q -> on_seg b q -> p = q.
Proof.
  intros N A B C D. assert (X := proj2 (nonparallel_intersection_exact a b p) (conj N (conj A B))).
  rewrite (proj2 (nonparallel_intersection_exact a b q) (conj N (conj C D))) in X. now apply some_inv in X.
Qed.
Lemma opt_ext {A} (x y : option A) : (forall a, x = Some a <-> y = Some a) -> x = y.
Proof.
  intros H. destruct x as [a|].
  - symmetry. now apply H.
  - destruct y as [b|]; auto. now apply H.
Qed.
Lemma on_seg_swap s p : on_seg (snd s, fst s) p <-> on_seg s p.
Proof.
  assert (G : forall s p, on_seg s p -> on_seg (snd s, fst s) p).
  { clear. intros s p (t & A & B & ->). exists (1 - t). split; [qlra|]. split; [qlra|].
    unfold at_t, vadd, vscale, vsub. cbn [fst snd]. apply pt_eq; cbn [fst snd]; ring. }
  split; intros H; [|now apply G]. apply G in H. destruct s. exact H.
Qed.
Theorem nonparallel_intersection_symmetric a b :
  nonparallel_intersection_point a b = nonparallel_intersection_point b a /\
  nonparallel_intersection_point a b = nonparallel_intersection_point (snd a, fst a) b /\
  nonparallel_intersection_point a b = nonparallel_intersection_point a (snd b, fst b).
Proof.
  assert (NZ : forall x y, x = - y -> x <> 0 <-> y <> 0) by (intros x y E; split; intros H K; apply H; rewrite ?E, ?K; qlra).
  split; [|split]; apply opt_ext; intros p; rewrite !nonparallel_intersection_exact.
  - rewrite (NZ (cross (direction b) (direction a)) (cross (direction a) (direction b))); [tauto|]. unfold cross. ring.
  - rewrite on_seg_swap, (NZ (cross (direction (snd a, fst a)) (direction b)) (cross (direction a) (direction b))); [tauto|].
    unfold cross, direction, vsub. cbn [fst snd]. ring.
  - rewrite on_seg_swap, (NZ (cross (direction a) (direction (snd b, fst b))) (cross (direction a) (direction b))); [tauto|].
    unfold cross, direction, vsub. cbn [fst snd]. ring.
Qed.
Example nip_ex : nonparallel_intersection_point ((0, 0), (zq 4, zq 4)) ((0, zq 2), (zq 2, 0)) = Some (1, 1) /\
  nonparallel_intersection_point ((0, 0), (zq 4, zq 4)) ((1, 0), (zq 5, zq 4)) = None.
Proof. split; vm_compute; reflexivity. Qed.

(** ** the shear preserves everything the sweep looks at *)
Lemma shear_inj a p q : shear a p = shear a q -> p = q.
Proof. intros E. rewrite <- (unshear a p), <- (unshear a q). now rewrite E. Qed.
Lemma shear_seg_inj a s t : shear_seg a s = shear_seg a t -> s = t.
Proof. intros E. apply pair_inv in E as (E1 & E2). apply shear_inj in E1, E2. destruct s, t. cbn in *. congruence. Qed.
Lemma ons_shear a s p : good (shear_seg a s) -> ons (shear_seg a s) (shear a p) <-> on_seg s p.
Proof.
  intros G. rewrite ons_param by auto. rewrite on_seg_param. split; intros (t & A & B & E); exists t; (split; [auto|split; [auto|]]).
  - apply (shear_inj a). rewrite E. unfold shear_seg, shear. cbn [fst snd]. apply pt_eq; cbn [fst snd]; ring.
  - rewrite E. unfold shear_seg, shear. cbn [fst snd]. apply pt_eq; cbn [fst snd]; ring.
Qed.
Lemma sl_shear a s t : good (shear_seg a s) -> good (shear_seg a t) ->
  sl (shear_seg a s) = sl (shear_seg a t) <-> cross (direction s) (direction t) = 0.
Proof.
  intros Gs Gt. rewrite sl_det by auto.
  replace (det (pt_sub (snd (shear_seg a s)) (fst (shear_seg a s))) (pt_sub (snd (shear_seg a t)) (fst (shear_seg a t))))
    with (cross (direction s) (direction t)); [reflexivity|].
  unfold cross, direction, vsub, det, pt_sub, shear_seg, shear. cbn [fst snd]. ring.
Qed.
Lemma ends_shear a s p : endpoint s p <-> shear a p = lower (shear_seg a s) \/ shear a p = upper (shear_seg a s).
Proof.
  unfold endpoint, lower, upper. destruct (ev_ltb _ _); unfold shear_seg; cbn [fst snd];
    (split; [intros [->| ->]; auto|intros [E|E]; apply shear_inj in E; auto]).
Qed.

Lemma seg_eqb_dec : eq_dec_b seg_eqb.
Proof. intros x y. destruct (seg_eqb_ok x y); split; congruence. Qed.
Lemma origs_ok a segs s : In s segs ->
  dgetr seg_eqb (shear_seg a s)
    (fold_left (fun m e => dset seg_eqb (fst e) (snd e) m) (combine (map (shear_seg a) segs) segs) []) = Ok s.
Proof.
  intros I. apply dgetr_ok.
  assert (G : forall l m, (forall t v, dget seg_eqb (shear_seg a t) m = Some v -> v = t) ->
    let m' := fold_left (fun m e => dset seg_eqb (fst e) (snd e) m) (combine (map (shear_seg a) l) l) m in
    (forall t v, dget seg_eqb (shear_seg a t) m' = Some v -> v = t) /\
    (forall t, In t l \/ dget seg_eqb (shear_seg a t) m <> None -> dget seg_eqb (shear_seg a t) m' <> None)).
  { clear. induction l as [|x l IH]; intros m H; cbn.
    - split; auto. intros t [[]|K]; auto.
    - destruct (IH (dset seg_eqb (shear_seg a x) x m)) as (A & B).
      + intros t v. rewrite (dget_dset _ seg_eqb_dec). destruct (seg_eqb_ok (shear_seg a t) (shear_seg a x)) as [E|N]; auto.
        intros K. apply some_inv in K as <-. now apply shear_seg_inj in E.
      + split; auto. intros t T. apply B. rewrite (dget_dset _ seg_eqb_dec).
        destruct (seg_eqb_ok (shear_seg a t) (shear_seg a x)) as [E|N]; [right; discriminate|].
        destruct T as [[->|T]|T]; auto; now elim N. }
  destruct (G segs []) as (A & B); [discriminate|]. specialize (B s (or_introl I)).
  destruct (dget seg_eqb (shear_seg a s) _) as [v|] eqn:E in B |- *; [|congruence]. apply A in E. now subst.
Qed.

(** ** C31, C32 *)
Lemma sheared_ok segs : NoDup segs -> Forall nondeg segs ->
  let a := find_general_y_shear segs in NoDup (map (shear_seg a) segs) /\ Forall good (map (shear_seg a) segs).
Proof.
  intros N F. cbn zeta. split.
  - apply FinFun.Injective_map_NoDup; auto. intros x y. apply shear_seg_inj.
  - apply Forall_forall. intros t T. apply in_map_iff in T as (s & <- & I). rewrite Forall_forall in F.
    unfold good, shear_seg. cbn [fst snd]. apply (shear_no_horizontal segs s); auto.
Qed.
(** the order in which points are passed by the sweep line *)
Definition swept_before (a : Qc) (p q : point) : Prop := evlt (shear a p) (shear a q).
Definition sweep_result (segs : list segment) (out : list (point * list segment)) : Prop :=
  StronglySorted (swept_before (find_general_y_shear segs)) (map fst out) /\
  (forall p ss, In (p, ss) out -> NoDup ss /\ (2 <= length ss)%nat /\ (forall s, In s ss <-> In s segs /\ on_seg s p)) /\
  (forall p, In p (map fst out) <-> crossing segs p).
Lemma sweep_result_ok segs : NoDup segs -> Forall nondeg segs ->
  exists out, all_segment_intersections segs = Ok out /\ sweep_result segs out.
Proof.
  intros N F. destruct (sheared_ok segs N F) as (N' & G). unfold all_segment_intersections. unfold sweep_result.
  set (a := find_general_y_shear segs) in *.
  destruct (sweep_no_horizontal _ N' G) as (out & -> & S & R & C). cbn [bind].
  assert (GD : forall s, In s segs -> good (shear_seg a s)).
  { intros s I. rewrite Forall_forall in G. apply G. now apply in_map. }
  set (un := fun p : point => (fst p, snd p - a * fst p)).
  assert (UN : forall p, shear a (un p) = p) by (intros p; unfold un, shear; cbn; apply pt_eq; cbn [fst snd]; ring).
  set (uns := fun s : segment => (un (fst s), un (snd s))).
  assert (UNS : forall s, shear_seg a (uns s) = s) by (intros s; unfold uns, shear_seg; cbn; rewrite !UN; destruct s; reflexivity).
  assert (E : mapM (fun e => segs0 <- mapM (fun s => dgetr seg_eqb s (fold_left (fun m e => dset seg_eqb (fst e) (snd e) m) (combine (map (shear_seg a) segs) segs) [])) (snd e) ;;
                Ok ((fst (fst e), snd (fst e) - a * fst (fst e)), segs0)) out = Ok (map (fun e => (un (fst e), map uns (snd e))) out)).
  { apply mapM_total. intros (p & ss) I. cbn [fst snd]. destruct (R p ss I) as (_ & _ & _ & MEM).
    rewrite (mapM_total _ uns); [reflexivity|]. intros s Is. apply MEM in Is as (Is & _). apply in_map_iff in Is as (t & <- & T).
    rewrite origs_ok by auto. f_equal. apply (shear_seg_inj a). now rewrite UNS. }
  rewrite E. eexists. split; [reflexivity|]. rewrite map_map. cbn [fst].
  assert (MF : map (fun x => un (fst x)) out = map un (map fst out)) by now rewrite map_map.
  rewrite MF. split; [|split].
  - apply ss_map. eapply ss_impl; [|exact S]. intros x y _ _ H. unfold swept_before. now rewrite !UN.
  - intros p ss I. apply in_map_iff in I as ((q & sq) & E' & I). apply pair_inv in E' as (<- & <-). cbn [fst snd].
    destruct (R q sq I) as (_ & ND & LEN & MEM). split; [|split].
    + apply FinFun.Injective_map_NoDup; auto. intros x y XY. rewrite <- (UNS x), <- (UNS y). now rewrite XY.
    + now rewrite map_length.
    + intros s. rewrite in_map_iff. split.
      * intros (t & <- & T). apply MEM in T as (T & O). apply in_map_iff in T as (s & <- & Is).
        assert (X : uns (shear_seg a s) = s) by (apply (shear_seg_inj a); apply UNS). rewrite X. split; auto.
        apply (ons_shear a); auto. now rewrite UN.
      * intros (Is & O). exists (shear_seg a s). split; [apply (shear_seg_inj a); apply UNS|]. apply MEM. split; [now apply in_map|].
        apply (ons_shear a s (un q)) in O; auto. now rewrite UN in O.
  - intros p. split.
    + intros I. apply in_map_iff in I as (q & <- & I). apply in_map_iff in I as ((q' & sq) & E' & I). cbn in E'. subst q'.
      destruct (R q sq I) as (W & ND & LEN & MEM).
      destruct W as [(s & Is & H)|(x & y & Ix & Iy & NE & Ox & Oy)].
      * apply in_map_iff in Is as (t & <- & T).
        assert (OT : ons (shear_seg a t) q). { destruct H as [->| ->]; [apply ons_lower|apply ons_upper]; auto. }
        assert (EX : exists u, In u segs /\ u <> t /\ ons (shear_seg a u) q).
        { assert (EX : exists v, In v sq /\ v <> shear_seg a t).
          { destruct sq as [|v1 [|v2 sq]]; cbn in LEN; try lia. destruct (seg_eqb_ok v1 (shear_seg a t)) as [->|X].
            - exists v2. split; [cbn; auto|]. intros ->. inversion ND as [|? ? A B]; subst. apply A. now left.
            - exists v1. split; [now left|auto]. }
          destruct EX as (v & V & NV). apply MEM in V as (V & OV). apply in_map_iff in V as (u & <- & U). exists u. split; auto. split; auto. congruence. }
        destruct EX as (u & U & NU & OU). exists t, u. split; auto. split; auto. split; auto.
        split; [apply (ons_shear a); auto; now rewrite UN|]. split; [apply (ons_shear a); auto; now rewrite UN|].
        right; left. apply (ends_shear a). now rewrite UN.
      * apply in_map_iff in Ix as (s & <- & Is). apply in_map_iff in Iy as (t & <- & It). exists s, t. split; auto. split; auto.
        split; [intros ->; congruence|]. split; [apply (ons_shear a); auto; now rewrite UN|]. split; [apply (ons_shear a); auto; now rewrite UN|].
        left. intros Z. apply NE. apply sl_shear; auto.
    + intros (s & t & Is & It & NE & Os & Ot & H). apply in_map_iff. exists (shear a p). split; [unfold un; apply unshear|].
      apply (ons_shear a s p) in Os; auto. apply (ons_shear a t p) in Ot; auto. apply C.
      * destruct H as [H|[H|H]].
        -- right. exists (shear_seg a s), (shear_seg a t). split; [now apply in_map|]. split; [now apply in_map|].
           split; auto. intros Z. apply H. apply (sl_shear a); auto.
        -- left. exists (shear_seg a s). split; [now apply in_map|]. now apply ends_shear.
        -- left. exists (shear_seg a t). split; [now apply in_map|]. now apply ends_shear.
      * exists (shear_seg a s), (shear_seg a t). split; [intros Z; apply NE; now apply shear_seg_inj in Z|].
        split; [now apply in_map|]. split; [now apply in_map|]. auto.
Qed.
(** anything else is rejected *)
Theorem sweep_rejects segs : ~ (NoDup segs /\ Forall nondeg segs) -> all_segment_intersections segs = Err AssertionError.
Proof.
  intros H. unfold all_segment_intersections, all_segment_intersections_no_horizontal. set (a := find_general_y_shear segs).
  destruct (no_dups (map (shear_seg a) segs)) eqn:E; [|reflexivity]. apply no_dups_spec in E. cbn [passert bind].
  destruct (forallb _ _) eqn:E2; [|reflexivity]. exfalso. apply H. split.
  - clearbody a. clear -E. induction segs as [|s l IH]; [constructor|]. cbn in E. inversion E as [|? ? E1 E3]; subst. constructor; auto. intros I. apply E1. now apply in_map.
  - apply Forall_forall. intros s I. rewrite forallb_forall in E2. specialize (E2 (shear_seg a s) (in_map _ _ _ I)).
    intros X. destruct (pt_eqb_ok (fst (shear_seg a s)) (snd (shear_seg a s))) as [|Y]; [discriminate|]. apply Y. unfold shear_seg. cbn. now rewrite X.
Qed.

(** C31: whatever is yielded is a real common point of at least two input segments, with all of them
    listed, each once; points come in sweep order, so none twice. *)
Theorem sweep_reports_real segs out : all_segment_intersections segs = Ok out ->
  StronglySorted (swept_before (find_general_y_shear segs)) (map fst out) /\ NoDup (map fst out) /\
  forall p ss, In (p, ss) out -> NoDup ss /\ (2 <= length ss)%nat /\ forall s, In s ss <-> In s segs /\ on_seg s p.
Proof.
  intros E. assert (D : NoDup segs /\ Forall nondeg segs).
  { destruct (no_dups segs) eqn:N.
    - apply no_dups_spec in N. split; auto. apply Forall_forall. intros s I X.
      rewrite sweep_rejects in E; [discriminate|]. intros (_ & F). rewrite Forall_forall in F. now apply (F s I).
    - rewrite sweep_rejects in E; [discriminate|]. intros (X & _). apply no_dups_spec in X. congruence. }
  destruct D as (N & F). destruct (sweep_result_ok segs N F) as (out' & E' & S & R & _).
  rewrite E in E'. injection E' as <-. split; auto. split; auto.
  eapply ss_nodup; [|exact S]. intros x. apply evlt_irrefl.
Qed.
(** C32: the sweep ends without raising, and stops at a point exactly when two segments cross there
    or one ends on another; then both are listed. *)
Theorem sweep_finds_all segs : NoDup segs -> Forall nondeg segs ->
  exists out, all_segment_intersections segs = Ok out /\
    (forall p, crossing segs p <-> exists ss, In (p, ss) out) /\
    (forall p a b, In a segs -> In b segs -> a <> b -> on_seg a p -> on_seg b p ->
       cross (direction a) (direction b) <> 0 \/ endpoint a p \/ endpoint b p ->
       exists ss, In (p, ss) out /\ In a ss /\ In b ss).
Proof.
  intros N F. destruct (sweep_result_ok segs N F) as (out & E & S & R & C). exists out. split; auto.
  assert (IFF : forall p, crossing segs p <-> exists ss, In (p, ss) out).
  { intros p. rewrite <- C, in_map_iff. split; [intros ((q & ss) & <- & I); eauto|intros (ss & I); exists (p, ss); auto]. }
  split; auto. intros p a b Ia Ib NE Oa Ob H.
  destruct (proj1 (IFF p)) as (ss & I); [exists a, b; auto 7|]. exists ss. split; auto.
  destruct (R p ss I) as (_ & _ & M). split; apply M; auto.
Qed.

(** Six segments with horizontals, overlaps, end-point touches and a five-fold crossing *)
Example sweep_ex :
  let P := fun x y => (zq x, zq y) in
  (out <- all_segment_intersections
    [(P 0 0, P 4 4); (P 0 4, P 4 0); (P 0 2, P 4 2); (P 2 0, P 2 4); (P 1 1, P 3 3); (P 0 0, P 4 0)]%Z ;;
   Ok (map (fun e => (this (fst (fst e)), this (snd (fst e)), length (snd e))) out)) =
  Ok [(0, 0, 2%nat); (2, 0, 2%nat); (1, 1, 2%nat); (4, 0, 2%nat); (2, 2, 5%nat); (3, 3, 2%nat)]%Q.
Proof. vm_compute. reflexivity. Qed.

(** ** the active list is always fully ordered by the sweep keys (the check behind _extra_checks), so
    SortedList's binary searches and the linear scans of the model agree *)
Inductive sweep_state (segs : list segment) : equeue -> list skey -> Prop :=
| ss_init q : foldM add_segment_events segs [] = Ok q -> sweep_state segs q []
| ss_step pt st q L out q' L' : sweep_state segs ((pt, st) :: q) L -> process_event pt st q L = Ok (out, q', L') -> sweep_state segs q' L'.
Lemma sweep_state_inv segs q L : NoDup segs -> Forall good segs -> sweep_state segs q L -> exists pos, INV segs pos q L.
Proof.
  intros ND G H. induction H as [q E|pt st q L out q' L' H (pos & IH) E].
  - destruct (queue_ok segs [] [] G) as (q2 & E2 & [A B C]).
    { constructor; [constructor| |intros p l []]. intros p. split; [intros []|]. intros (s & [] & _). }
    rewrite E in E2. injection E2 as <-. cbn [app] in *. destruct (below_all segs) as (y0 & BA). exists (0, y0).
    constructor; auto.
    + intros s. split; [intros []|]. intros (Is & L & _). exfalso. destruct (BA s Is) as (X & _).
      destruct L as [L|(L & _)]; cbn in L; qlra.
    + intros k [].
    + constructor.
    + intros p H. apply B in H as (s & Is & H). split; [|left; exists s; auto]. left. cbn. destruct (BA s Is). destruct H as [->| ->]; auto.
    + intros s Is. split; intros _; apply B; exists s; auto.
    + intros a b AD. exfalso. destruct (adj_in _ _ _ AD) as ([] & _).
  - destruct (step segs G ND pos pt st q L IH) as (out2 & q2 & L2 & E2 & V & _). rewrite E in E2. injection E2 as <- <- <-. eauto.
Qed.
Theorem active_fully_sorted segs q L : NoDup segs -> Forall good segs -> sweep_state segs q L ->
  StronglySorted (fun a b => skey_ltb a b = true /\ skey_ltb b a = false) L /\
  (forall pt st r x y l1 l2, q = (pt, st) :: r -> L = l1 ++ x :: l2 -> In y l2 ->
     let fake := ((fst pt, snd pt), (fst pt, snd pt + 1), pt) in
     skey_ltb fake x = true -> skey_ltb fake y = true).
Proof.
  intros ND G H. destruct (sweep_state_inv segs q L ND G H) as (pos & V). split.
  - assert (S := i_sort _ _ _ _ V). apply (ss_map _ k_seg) in S. eapply ss_impl; [|exact S]. intros a b A B K. cbn in K.
    assert (KA := key_good segs G _ _ _ _ V A). assert (KB := key_good segs G _ _ _ _ V B).
    assert (KL := ord_klt segs G pos q L a b V A B K). split; [destruct (skey_ltb_spec a b); auto|].
    destruct (skey_ltb_spec b a) as [K2|]; auto. exfalso.
    unfold klt in KL, K2. assert (EM : qmax (snd (k_pt b)) (snd (k_pt a)) = qmax (snd (k_pt a)) (snd (k_pt b))).
    { unfold qmax. destruct (qleb_spec (snd (k_pt b)) (snd (k_pt a))), (qleb_spec (snd (k_pt a)) (snd (k_pt b))); auto; qlra. }
    rewrite EM in K2. assert (EQ : qeqb (snd (k_pt a)) (snd (k_pt b)) = qeqb (snd (k_pt b)) (snd (k_pt a))).
    { destruct (qeqb_spec (snd (k_pt a)) (snd (k_pt b))), (qeqb_spec (snd (k_pt b)) (snd (k_pt a))); auto; congruence. }
    rewrite EQ in K2. exact (sord_irrefl _ _ _ (sord_trans _ _ _ _ _ KL K2)).
  - intros pt st r x y l1 l2 -> EL Y fake X.
    assert (QS := i_qs _ _ _ _ V). cbn in QS. inversion QS as [|? ? QS1 QS2]; subst. rewrite Forall_forall in QS2.
    destruct (i_qgt _ _ _ _ V pt (or_introl eq_refl)) as (PP & WP).
    assert (SB := advance segs G _ _ _ pt V PP). assert (NQ : forall q, In q (qkeys ((pt, st) :: r)) -> evle pt q).
    { intros q [<-|H']; [apply evle_refl|]. now apply evlt_le, QS2. }
    specialize (SB NQ). apply (ss_map _ k_seg) in SB. apply ss_app in SB as (_ & SB & _). inversion SB as [|? ? _ F]; subst.
    rewrite Forall_forall in F. specialize (F y Y). cbn in F.
    set (L := l1 ++ x :: l2) in *. assert (XL : In x L) by (apply in_or_app; right; now left). assert (YL : In y L) by (apply in_or_app; right; now right).
    assert (Gf : good (fst fake)). { unfold good, fake. cbn [fst snd]. intros E. qlra. }
    assert (Af : at_y (fst fake) (snd pt) = fst pt) by apply (at_y_fst ((fst pt, snd pt), (fst pt, snd pt + 1))).
    assert (Kf : kgood fake) by (split; [exact Gf|exact Af]).
    assert (FO : forall k, In k L -> skey_ltb fake k = true <-> ordB pt (fst fake) (k_seg k)).
    { intros k K. assert (KG := key_good segs G _ _ _ _ V K).
      destruct (i_key _ _ _ _ V k K) as (O & P & _). assert (LT := evle_lt_trans _ _ _ P PP).
      assert (R := skey_ltb_spec fake k Kf KG). unfold klt in R. cbn [k_pt k_seg fake fst snd] in R. rewrite qmax_l in R by (destruct LT as [Z|(Z & _)]; qlra).
      assert (EQ : sord (fun _ => qeqb (snd (k_pt k)) (snd pt)) (snd pt) (fst fake) (k_seg k) <-> ordB pt (fst fake) (k_seg k)).
      { assert (PE : at_y (fst fake) (snd pt) = at_y (k_seg k) (snd pt) -> qeqb (snd (k_pt k)) (snd pt) = passB pt (at_y (fst fake) (snd pt))).
        { intros E. rewrite Af. unfold passB. destruct (qltb_spec (fst pt) (fst pt)) as [Z|_]; [qlra|].
          destruct (qeqb_spec (snd (k_pt k)) (snd pt)) as [Z|]; auto. exfalso. destruct O as (O & _). rewrite Z, <- E, Af in O.
          destruct LT as [LT|(_ & LT)]; qlra. }
        split; apply sord_ext; auto. intros E. symmetry. auto. }
      change (fst pt, snd pt, (fst pt, snd pt + 1)) with (fst fake) in R. split; intros Z; destruct R as [R|R]; try tauto; discriminate. }
    apply FO; auto. apply FO in X; auto. eapply sord_trans; eauto.
Qed.

Print Assumptions shear_no_horizontal.
Print Assumptions nonparallel_intersection_exact.
Print Assumptions nonparallel_intersection_symmetric.
Print Assumptions sweep_reports_real.
Print Assumptions sweep_finds_all.
Print Assumptions sweep_rejects.
Print Assumptions active_fully_sorted.
