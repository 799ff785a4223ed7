(** * C141: the operations on maps of geoms. *)
From Verif.Spec Require Import PointSet1 Plane Region.
From Verif.Model Require Import Arrangement2d Geom2d Sheetbuild.
From Verif.Proofs Require Import PyP ExtOrd DictP Geom1dP Geom1dM SheetplexP FingerP SheetbuildP ClusterP HeuristicsP Geom2dP Geom2dOps ArrSoundP.
From Verif.Props Require Import Geom2dProps.
From Coq Require Import String.
Open Scope Qc_scope.

(** a map: at most one value per key, every value a legal geom *)
Definition gmap {K} (m : dict K geom1d) : Prop := NoDup (keys m) /\ forall k g, In (k, g) m -> normal g.
(** the points at a key; none at a missing key *)
Definition at_key {K} (m : dict K geom1d) (k : K) (x : Qc) : Prop := exists g, In (k, g) m /\ pts g x.

Section Maps.
Context {K : Type} (eqb : K -> K -> bool) (EQ : eq_dec_b eqb).
Notation dget := (dget eqb). Notation dset := (dset eqb).

Lemma gmap_get m k g : gmap m -> (dget k m = Some g <-> In (k, g) m).
Proof. intros (N & _). now apply (dget_nodup _ EQ). Qed.
Lemma at_key_get m k g x : gmap m -> dget k m = Some g -> (at_key m k x <-> pts g x).
Proof.
  intros M D. split; [|intros P; exists g; split; auto; now apply gmap_get]. intros (h & I & P).
  apply gmap_get in I; auto. rewrite D in I. apply some_inv in I as <-. exact P.
Qed.
Lemma at_key_none m k x : dget k m = None -> ~ at_key m k x.
Proof. intros D (g & I & _). apply (proj1 (dget_none _ EQ k m) D). apply in_map_iff. exists (k, g). auto. Qed.
Lemma gmap_dset m k g : gmap m -> normal g -> gmap (dset k g m).
Proof.
  intros (N & H) G. split; [now apply (nodup_dset _ EQ)|]. intros j v I.
  destruct (in_dset _ EQ k g _ m I) as [E|(E & _)]; [apply pair_inv in E as (_ & ->); auto|eauto].
Qed.
Lemma at_key_dset m k g j x : gmap m -> normal g -> (at_key (dset k g m) j x <-> (j = k /\ pts g x) \/ (j <> k /\ at_key m j x)).
Proof.
  intros M G. pose proof (gmap_dset m k g M G) as M'. destruct (eqb_case _ EQ j k) as [(_ & ->)|(_ & NE)].
  - rewrite (at_key_get _ k g); auto; [|apply (dget_same _ EQ)]. tauto.
  - assert (E : dget j (dset k g m) = dget j m) by now apply (dget_other _ EQ). destruct (dget j m) as [h|] eqn:D.
    + rewrite (at_key_get _ j h x M' E), (at_key_get _ j h x M D). tauto.
    + pose proof (at_key_none _ j x E). pose proof (at_key_none _ j x D). tauto.
Qed.

(** map[key] |= geom *)
Theorem map_or_geom_spec : forall m k g, gmap m -> normal g -> exists m', map_or_geom eqb g_or [] m k g = Ok m' /\ gmap m' /\
  (forall j, In j (keys m') <-> j = k \/ In j (keys m)) /\
  forall j x, at_key m' j x <-> at_key m j x \/ (j = k /\ pts g x).
Proof.
  intros m k g M G. unfold map_or_geom. set (v := match dget k m with Some x => x | None => [] end).
  assert (NV : normal v). { unfold v. destruct (dget k m) as [h|] eqn:D; [|exact I]. apply gmap_get in D; auto. eapply M; eauto. }
  assert (PV : forall x, pts v x <-> at_key m k x).
  { intros x. unfold v. destruct (dget k m) as [h|] eqn:D; [symmetry; now apply at_key_get|]. pose proof (at_key_none m k x D). split; [intros (? & [] & _)|tauto]. }
  rewrite g_or_ok by auto. cbn [bind]. pose proof (or_normal v g NV G) as NO. eexists. split; [reflexivity|]. split; [now apply gmap_dset|].
  split; [intros j; apply (in_keys_dset _ EQ)|]. intros j x. rewrite at_key_dset by auto. rewrite (or_pts v g _ x NV G (g_or_ok v g NV G)), PV.
  destruct (eqb_case _ EQ j k) as [(_ & ->)|(_ & NE)]; tauto.
Qed.

(** map[key] &= geom and map[key] -= geom: a TypeError at a missing key *)
Theorem map_and_geom_spec : forall m k g, gmap m -> normal g ->
  (~ In k (keys m) -> map_op_geom eqb g_and m k g = Err TypeError) /\
  (In k (keys m) -> exists m', map_op_geom eqb g_and m k g = Ok m' /\ gmap m' /\ keys m' = keys m /\
    forall j x, at_key m' j x <-> at_key m j x /\ (j = k -> pts g x)).
Proof.
  intros m k g M G. unfold map_op_geom. split.
  - intros H. apply (dget_none _ EQ) in H. now rewrite H.
  - intros H. destruct (proj1 (dget_some _ EQ k m) H) as (v & D). rewrite D. pose proof (proj2 M k v (proj1 (gmap_get m k v M) D)) as NV.
    rewrite g_and_ok by auto. cbn [bind]. pose proof (and_normal v g NV G) as NO. eexists. split; [reflexivity|]. split; [now apply gmap_dset|].
    split; [now apply (keys_dset_old _ EQ)|]. intros j x. rewrite at_key_dset by auto. rewrite (and_pts v g _ x NV G (g_and_ok v g NV G)).
    pose proof (at_key_get m k v x M D). destruct (eqb_case _ EQ j k) as [(_ & ->)|(_ & NE)]; tauto.
Qed.
Theorem map_sub_geom_spec : forall m k g, gmap m -> normal g ->
  (~ In k (keys m) -> map_op_geom eqb g_sub m k g = Err TypeError) /\
  (In k (keys m) -> exists m', map_op_geom eqb g_sub m k g = Ok m' /\ gmap m' /\ keys m' = keys m /\
    forall j x, at_key m' j x <-> at_key m j x /\ ~ (j = k /\ pts g x)).
Proof.
  intros m k g M G. unfold map_op_geom. split.
  - intros H. apply (dget_none _ EQ) in H. now rewrite H.
  - intros H. destruct (proj1 (dget_some _ EQ k m) H) as (v & D). rewrite D. pose proof (proj2 M k v (proj1 (gmap_get m k v M) D)) as NV.
    rewrite g_sub_ok by auto. cbn [bind]. pose proof (sub_normal v g NV G) as NO. eexists. split; [reflexivity|]. split; [now apply gmap_dset|].
    split; [now apply (keys_dset_old _ EQ)|]. intros j x. rewrite at_key_dset by auto. rewrite (sub_pts v g _ x NV G (g_sub_ok v g NV G)).
    pose proof (at_key_get m k v x M D). destruct (eqb_case _ EQ j k) as [(_ & ->)|(_ & NE)]; tauto.
Qed.

(** map_and: the intersection, with no key whose value is empty *)
Lemma at_key_cons (k : K) v m (j : K) x : at_key ((k, v) :: m) j x <-> (j = k /\ pts v x) \/ at_key m j x.
Proof.
  split.
  - intros (g & [E|E] & P); [apply pair_inv in E as (-> & ->); auto|right; exists g; auto].
  - intros [(-> & P)|(g & E & P)]; [exists v|exists g]; cbn; auto.
Qed.
Lemma at_key_in (m : dict K geom1d) k x : at_key m k x -> In k (keys m).
Proof. intros (g & I & _). apply in_map_iff. exists (k, g). auto. Qed.
Theorem map_and_spec : forall m1 m2, gmap m1 -> gmap m2 -> exists m, map_and eqb g_and is_empty m1 m2 = Ok m /\ gmap m /\
  (forall j, In j (keys m) <-> exists x, at_key m1 j x /\ at_key m2 j x) /\
  forall j x, at_key m j x <-> at_key m1 j x /\ at_key m2 j x.
Proof.
  induction m1 as [|(k, v1) m1 IH]; intros m2 M1 M2; cbn [map_and].
  - assert (NO : forall j x, ~ at_key (@nil (K * geom1d)) j x) by (intros j x (? & [] & _)). exists []. split; [reflexivity|]. split; [split; [constructor|intros ? ? []]|]. split.
    + intros j. split; [intros []|]. intros (x & H & _). now apply NO in H.
    + intros j x. split; [intros H; now apply NO in H|]. intros (H & _). now apply NO in H.
  - assert (NK : ~ In k (keys m1)) by (destruct M1 as (N & _); now inversion N).
    assert (M1' : gmap m1). { destruct M1 as (N & H). split; [now inversion N|]. intros j g I. apply (H j g). now right. }
    pose proof (proj2 M1 k v1 (or_introl eq_refl)) as N1. destruct (IH m2 M1' M2) as (r & E & R & KS & PS).
    assert (K1 : forall x, ~ at_key m1 k x) by (intros x H; now apply at_key_in in H).
    destruct (dget k m2) as [v2|] eqn:D.
    + pose proof (proj2 M2 k v2 (proj1 (gmap_get m2 k v2 M2) D)) as N2. pose proof (and_normal v1 v2 N1 N2) as NA.
      rewrite g_and_ok by auto. cbn [bind]. rewrite E. cbn [bind].
      assert (PA : forall x, pts (and_pure v1 v2) x <-> pts v1 x /\ at_key m2 k x).
      { intros x. rewrite (and_pts v1 v2 _ x N1 N2 (g_and_ok v1 v2 N1 N2)), (at_key_get m2 k v2 x M2 D). tauto. }
      destruct (is_empty (and_pure v1 v2)) eqn:EM.
      * assert (Z : forall x, ~ (pts v1 x /\ at_key m2 k x)). { intros x H. apply PA in H. destruct (and_pure v1 v2); [destruct H as (? & [] & _)|discriminate]. }
        exists r. split; [reflexivity|]. split; [exact R|]. split.
        -- intros j. rewrite KS. split; intros (x & A & B); exists x; rewrite at_key_cons in *; [tauto|]. destruct A as [(-> & A)|A]; [exfalso; apply (Z x); auto|auto].
        -- intros j x. rewrite PS, at_key_cons. split; [tauto|]. intros ([(-> & A)|A] & B); [exfalso; apply (Z x); auto|auto].
      * assert (W : exists x, pts (and_pure v1 v2) x).
        { destruct (and_pure v1 v2) as [|i l] eqn:Q; [discriminate|]. now apply normal_point. }
        assert (KR : ~ In k (keys r)). { rewrite KS. intros (x & H & _). now apply K1 in H. }
        exists ((k, and_pure v1 v2) :: r). split; [reflexivity|]. split; [|split].
        -- split; [constructor; [exact KR|apply R]|]. intros j g [H|H]; [apply pair_inv in H as (_ & <-); auto|eapply R; eauto].
        -- intros j. change (keys ((k, and_pure v1 v2) :: r)) with (k :: keys r). cbn [In]. rewrite KS. split.
           ++ intros [<-|(x & A & B)]; [|exists x; rewrite at_key_cons; auto]. destruct W as (x & P). apply PA in P. exists x. rewrite at_key_cons. tauto.
           ++ intros (x & A & B). rewrite at_key_cons in A. destruct A as [(-> & A)|A]; [now left|right; eauto].
        -- intros j x. rewrite !at_key_cons, PA, PS. split; [intros [(-> & A & B)|A]; tauto|]. intros ([(-> & A)|A] & B); tauto.
    + pose proof (fun x => at_key_none m2 k x D) as Z. exists r. split; [exact E|]. split; [exact R|]. split.
      * intros j. rewrite KS. split; intros (x & A & B); exists x; rewrite at_key_cons in *; [tauto|]. destruct A as [(-> & A)|A]; [now apply Z in B|auto].
      * intros j x. rewrite PS, at_key_cons. split; [tauto|]. intros ([(-> & A)|A] & B); [now apply Z in B|auto].
Qed.

(** map_or: the union *)
Theorem map_or_spec : forall m2 m1, gmap m1 -> gmap m2 -> exists m, map_or eqb g_or [] m1 m2 = Ok m /\ gmap m /\
  (forall j, In j (keys m) <-> In j (keys m1) \/ In j (keys m2)) /\
  forall j x, at_key m j x <-> at_key m1 j x \/ at_key m2 j x.
Proof.
  induction m2 as [|(k, v) m2 IH]; intros m1 M1 M2; unfold map_or in *; cbn [foldM].
  - exists m1. split; [reflexivity|]. split; [exact M1|]. split; [cbn; tauto|]. intros j x. split; [auto|]. intros [H|(? & [] & _)]; auto.
  - assert (M2' : gmap m2). { destruct M2 as (N & H). split; [now inversion N|]. intros j g I. apply (H j g). now right. }
    pose proof (proj2 M2 k v (or_introl eq_refl)) as NV. cbn [fst snd]. destruct (map_or_geom_spec m1 k v M1 NV) as (m' & E & G & KS & PS).
    rewrite E. cbn [bind]. destruct (IH m' G M2') as (m & E2 & G2 & KS2 & PS2). exists m. split; [exact E2|]. split; [exact G2|]. split.
    + intros j. rewrite KS2, KS. change (keys ((k, v) :: m2)) with (k :: keys m2). cbn [In]. split; intros H; intuition auto.
    + intros j x. rewrite PS2, PS, at_key_cons. tauto.
Qed.
End Maps.

Print Assumptions map_or_geom_spec.
Print Assumptions map_and_geom_spec.
Print Assumptions map_sub_geom_spec.
Print Assumptions map_and_spec.
Print Assumptions map_or_spec.

(** two maps: a common key, a key of the first only and one whose values do not meet *)
Definition mp_iv (a b : Z) : geom1d := [(Fin (zq a), Fin (zq b))].
Definition mp_m1 : dict string geom1d := [("a", mp_iv 0 4); ("b", mp_iv 0 1); ("c", mp_iv 0 1)]%string.
Definition mp_m2 : dict string geom1d := [("c", mp_iv 2 3); ("a", mp_iv 2 6)]%string.
Lemma mp_maps : gmap mp_m1 /\ gmap mp_m2.
Proof.
  assert (N : forall a b, (a < b)%Z -> normal (mp_iv a b)) by (intros a b H; split; [exact (zq_lt a b H)|split; exact I]).
  split; split.
  - repeat constructor; cbn; intuition discriminate.
  - intros k g H. cbn in H. repeat (destruct H as [H|H]; [apply pair_inv in H as (_ & <-); apply N; reflexivity|]). destruct H.
  - repeat constructor; cbn; intuition discriminate.
  - intros k g H. cbn in H. repeat (destruct H as [H|H]; [apply pair_inv in H as (_ & <-); apply N; reflexivity|]). destruct H.
Qed.
Example mp_ex :
  (exists m, map_and String.eqb g_and is_empty mp_m1 mp_m2 = Ok m /\ keys m = ["a"]%string) /\
  (exists m, map_or String.eqb g_or [] mp_m1 mp_m2 = Ok m /\ keys m = ["a"; "b"; "c"]%string) /\
  (exists m, map_or_geom String.eqb g_or [] mp_m2 "b"%string (mp_iv 0 1) = Ok m /\ keys m = ["c"; "a"; "b"]%string) /\
  map_op_geom String.eqb g_and mp_m2 "b"%string (mp_iv 0 1) = Err TypeError /\
  map_op_geom String.eqb g_sub mp_m2 "b"%string (mp_iv 0 1) = Err TypeError /\
  exists m, map_op_geom String.eqb g_sub mp_m2 "a"%string (mp_iv 2 6) = Ok m /\ keys m = ["c"; "a"]%string /\ dget String.eqb "a"%string m = Some [].
Proof. split; [|split; [|split; [|split; [|split]]]]; try (eexists; split); try split; vm_compute; reflexivity. Qed.

(** ** two-dimensional geoms, off the outlines of the two values *)
Section Maps2.
Context {K : Type} (eqb : K -> K -> bool) (EQ : eq_dec_b eqb).
Variable orc : list segment -> nat -> nat -> nat.
Let A := segment_arrangement orc.
Definition gmap2 (m : dict K geom2d) : Prop := NoDup (keys m) /\ forall k g, In (k, g) m -> is_geom2d g.
Definition old2 (m : dict K geom2d) (k : K) : geom2d := match dget eqb k m with Some g => g | None => [] end.
(** [m'] is [m] with [r] at [k] *)
Definition replaced (m m' : dict K geom2d) (k : K) (r : geom2d) : Prop := gmap2 m' /\ dget eqb k m' = Some r /\ forall j, j <> k -> dget eqb j m' = dget eqb j m.
Lemma gmap2_dset m k r : gmap2 m -> is_geom2d r -> replaced m (dset eqb k r m) k r.
Proof.
  intros (N & H) G. split; [|split; [apply (dget_same _ EQ)|intros j NE; now apply (dget_other _ EQ)]]. split; [now apply (nodup_dset _ EQ)|]. intros j v I.
  destruct (in_dset _ EQ k r _ m I) as [E|(E & _)]; [apply pair_inv in E as (_ & ->); auto|eauto].
Qed.
Lemma old2_geom m k : gmap2 m -> is_geom2d (old2 m k).
Proof. intros (_ & H). unfold old2. destruct (dget eqb k m) as [g|] eqn:D; [exact (H k g (dget_in _ EQ _ _ _ D))|constructor]. Qed.
Theorem map_or_geom_2d : forall m k g m', gmap2 m -> is_geom2d g -> map_or_geom eqb (g2_or A) [] m k g = Ok m' ->
  exists r, replaced m m' k r /\ is_op [old2 m k; g] (fun p => in_geom (old2 m k) p \/ in_geom g p) r.
Proof.
  intros m k g m' M G H. unfold map_or_geom in H. apply bind_ok in H as (r & R & H). apply Ok_inv in H as <-.
  pose proof (g2_or_ok A _ g r (arrangement_sound orc) (old2_geom m k M) G R) as OP. exists r. split; [apply gmap2_dset; [auto|apply OP]|exact OP].
Qed.
Theorem map_and_geom_2d : forall m k g m', gmap2 m -> is_geom2d g -> map_op_geom eqb (g2_and A) m k g = Ok m' ->
  exists v r, In (k, v) m /\ replaced m m' k r /\ is_op [v; g] (fun p => in_geom v p /\ in_geom g p) r.
Proof.
  intros m k g m' M G H. unfold map_op_geom in H. destruct (dget eqb k m) as [v|] eqn:D; [|discriminate H]. apply (dget_in _ EQ) in D. apply bind_ok in H as (r & R & H). apply Ok_inv in H as <-.
  pose proof (g2_and_ok A v g r (arrangement_sound orc) (proj2 M k v D) G R) as OP. exists v, r. split; [exact D|]. split; [apply gmap2_dset; [auto|apply OP]|exact OP].
Qed.
Theorem map_sub_geom_2d : forall m k g m', gmap2 m -> is_geom2d g -> map_op_geom eqb (g2_sub A) m k g = Ok m' ->
  exists v r, In (k, v) m /\ replaced m m' k r /\ is_op [v; g] (fun p => in_geom v p /\ ~ in_geom g p) r.
Proof.
  intros m k g m' M G H. unfold map_op_geom in H. destruct (dget eqb k m) as [v|] eqn:D; [|discriminate H]. apply (dget_in _ EQ) in D. apply bind_ok in H as (r & R & H). apply Ok_inv in H as <-.
  pose proof (g2_sub_ok A v g r (arrangement_sound orc) (proj2 M k v D) G R) as OP. exists v, r. split; [exact D|]. split; [apply gmap2_dset; [auto|apply OP]|exact OP].
Qed.
End Maps2.
Print Assumptions map_or_geom_2d.
Print Assumptions map_and_geom_2d.
Print Assumptions map_sub_geom_2d.

(** a square of side 2 less its left half *)
Definition mp_sq (x : Z) : geom2d := [mkSpwh [(0, 0); (0, zq 2); (zq x, zq 2); (zq x, 0)] []].
Example mp2_ex :
  match map_op_geom String.eqb (g2_sub (segment_arrangement (fun _ _ _ => O))) [("a", mp_sq 2)]%string "a"%string (mp_sq 1) with
  | Ok [(_, r)] => g2_locate r (qq 3 2, 1) = Ok 1%Z /\ g2_locate r (qq 1 2, 1) = Ok (-1)%Z
  | _ => False
  end.
Proof. vm_compute. auto. Qed.
