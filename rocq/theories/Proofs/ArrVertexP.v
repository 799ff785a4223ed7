(** The edges around a vertex of the arrangement, sorted by frangle. *)
From Verif.Model Require Import Arrangement2d.
From Verif.Spec Require Import Plane.
From Verif.Proofs Require Import PyP PolyP DictP SweepOrd PlanarP.
From Verif.Props Require Import Frangle2dProps Scan2dProps.

Lemma fr_cross u v f g : vector_frangle u = Ok f -> vector_frangle v = Ok g ->
  (cross u v < 0 <-> (f < g /\ g < f + zq 4) \/ g < f - zq 4) /\ 0 <= f /\ f < zq 8 /\ 0 <= g /\ g < zq 8.
Proof.
  intros Hu Hv. apply frangle_frk in Hu as (k & K & s & -> & S), Hv as (m & M & t & -> & T).
  rewrite <- (side_cross f g s t S T), cross_scale. pose proof (side_range _ _ S) as []. pose proof (side_range _ _ T) as [].
  split; auto. assert (0 < k * m) by qnra. set (r := k * m) in *. set (c := cross s t). clearbody r c.
  split; intros; qnra.
Qed.
Lemma fr_parallel u v f g : vector_frangle u = Ok f -> vector_frangle v = Ok g -> cross u v = 0 ->
  (f = g /\ 0 < dot u v) \/ ((g = f + zq 4 \/ g = f - zq 4) /\ dot u v < 0).
Proof.
  intros Hu Hv Z. pose proof Hu as Hu'. pose proof Hv as Hv'.
  apply frangle_frk in Hu as (k & K & s & -> & S), Hv as (m & M & t & -> & T).
  rewrite cross_scale in Z. assert (KM : 0 < k * m) by qnra.
  assert (C : cross s t = 0) by (apply Qcmult_integral in Z as [Z|Z]; [exfalso; qlra|auto]).
  assert (D : forall k m s t, dot (vscale k s) (vscale m t) = k * m * dot s t) by (intros; unfold dot, vscale; cbn; ring).
  assert (P : 0 < dot s s).
  { assert (N := side_nonzero _ _ S). pose proof (sq_nonneg (fst s)). pose proof (sq_nonneg (snd s)). unfold dot.
    destruct (qeqb_spec (fst s) 0) as [A|A]; [|apply sq_pos in A; qlra].
    destruct (qeqb_spec (snd s) 0) as [B|B]; [|apply sq_pos in B; qlra].
    exfalso. apply N. destruct s; cbn in *; congruence. }
  rewrite D. pose proof (side_range _ _ S) as [R1 R2]. pose proof (side_range _ _ T) as [R3 R4].
  destruct (side_parallel _ _ _ _ S T C) as [->|H].
  - left. split; auto. rewrite (side_fun _ _ _ T S). qnra.
  - right. split; auto. assert (t = vscale (-(1)) s) as ->.
    { eapply side_fun; [exact T|]. pose proof (side_neg _ _ S) as Q.
      destruct H as [-> | ->]; destruct (qltb_spec f (zq 4)); auto; exfalso; qlra. }
    replace (dot s (vscale (-(1)) s)) with (- dot s s) by (unfold dot, vscale; cbn; ring). qnra.
Qed.
(** turning counter-clockwise from u to w passes the frangles downwards from that of u to that of w *)
Lemma insect_frangle u w m fu fw fm : vector_frangle u = Ok fu -> vector_frangle w = Ok fw -> vector_frangle m = Ok fm ->
  insect u w m -> (fw < fm /\ fm < fu) \/ (fu < fw /\ (fm < fu \/ fw < fm)).
Proof.
  intros U W M I.
  destruct (fr_cross u w _ _ U W) as (A1 & B1 & B2 & B3 & B4). destruct (fr_cross w u _ _ W U) as (A2 & _).
  destruct (fr_cross m u _ _ M U) as (A3 & B5 & B6 & _). destruct (fr_cross w m _ _ W M) as (A4 & _).
  assert (S : forall a b, cross a b < 0 <-> 0 < cross b a) by (intros [a1 a2] [b1 b2]; unfold cross; cbn; split; intros; qlra).
  destruct I as [(I1 & I2 & I3)|[(I1 & I2 & I3)|(I1 & I2)]].
  - apply S in I1, I2, I3. apply A2 in I1. apply A3 in I2. apply A4 in I3.
    destruct I1 as [[? ?]|?], I2 as [[? ?]|?], I3 as [[? ?]|?]; try (exfalso; qlra);
      first [left; split; qlra|right; split; [qlra|]; first [left; qlra|right; qlra]].
  - apply S in I3. apply A3 in I3. destruct (fr_parallel u w _ _ U W I1) as [(_ & X)|(X & _)]; [exfalso; qlra|].
    destruct X as [X|X], I3 as [[? ?]|?]; try (exfalso; qlra);
      first [left; split; qlra|right; split; [qlra|]; first [left; qlra|right; qlra]].
  - apply A1 in I1. destruct I2 as [I2|I2]; apply S in I2; [apply A3 in I2|apply A4 in I2];
    destruct I1 as [[? ?]|?], I2 as [[? ?]|?]; try (exfalso; qlra);
      first [left; split; qlra|right; split; [qlra|]; first [left; qlra|right; qlra]].
Qed.

Lemma exists_last' {A} (l : list A) : l = [] \/ exists l' a, l = l' ++ [a].
Proof. induction l using rev_ind; eauto. Qed.
(** the sorted list of a vertex lists exactly the half-edges that leave it *)
Definition vgood (hes : list segment) (c : point) (v : vertex) : Prop :=
  StronglySorted (fun a b => fst a < fst b) v /\
  forall k e, In (k, e) v <-> In e hes /\ fst e = c /\ he_key e = Ok k.

Lemma filter_all {A} (f : A -> bool) l : (forall x, In x l -> f x = true) -> filter f l = l.
Proof. induction l as [|a l IH]; cbn; intros H; auto. rewrite H, IH; auto. Qed.
Lemma filter_none {A} (f : A -> bool) l : (forall x, In x l -> f x = false) -> filter f l = [].
Proof. induction l as [|a l IH]; cbn; intros H; auto. rewrite H, IH; auto. Qed.
Lemma ss_split (l r : vertex) k e : StronglySorted (fun a b => fst a < fst b) (l ++ (k, e) :: r) ->
  (forall x, In x l -> fst x < k) /\ (forall x, In x r -> k < fst x) /\
  filter (fun x => qltb (fst x) k) (l ++ (k, e) :: r) = l /\ filter (fun x => qltb k (fst x)) (l ++ (k, e) :: r) = r.
Proof.
  intros S. apply ss_app in S as (_ & S & L). inversion S as [|? ? _ F]; subst. rewrite Forall_forall in F. cbn in F.
  assert (A : forall x, In x l -> fst x < k) by (intros x X; specialize (L x _ X (or_introl eq_refl)); auto).
  split; auto. split; auto. rewrite !filter_app. cbn. assert (qltb k k = false) as -> by (destruct (qltb_spec k k); auto; exfalso; qlra).
  split.
  - rewrite filter_all, (filter_none _ r); [apply app_nil_r|..]; intros x X.
    + specialize (F x X). destruct (qltb_spec (fst x) k); auto. exfalso. qlra.
    + specialize (A x X). destruct (qltb_spec (fst x) k); auto.
  - rewrite filter_none, (filter_all _ r); auto; intros x X.
    + specialize (F x X). destruct (qltb_spec k (fst x)); auto.
    + specialize (A x X). destruct (qltb_spec k (fst x)); auto. exfalso. qlra.
Qed.
Lemma pt_eqb_refl' c : pt_eqb c c = true.
Proof. destruct (pt_eqb_ok c c); auto. Qed.
Lemma seg_eqb_refl' c : seg_eqb c c = true.
Proof. destruct (seg_eqb_ok c c); auto. Qed.
Lemma cw_split l r k e : StronglySorted (fun a b => fst a < fst b) (l ++ (k, e) :: r) -> he_key e = Ok k ->
  get_next_cw (fst e) (l ++ (k, e) :: r) e = Ok (snd (hd (k, e) (r ++ l))).
Proof.
  intros S K. destruct (ss_split _ _ _ _ S) as (_ & _ & _ & R). unfold get_next_cw. rewrite pt_eqb_refl', K. cbn [bind passert]. rewrite R.
  destruct r as [|x r]; cbn; auto. destruct l; cbn; auto.
Qed.
(** the successor is the cyclic predecessor in the sorted list *)
Lemma ccw_split l r k e : StronglySorted (fun a b => fst a < fst b) (l ++ (k, e) :: r) -> he_key e = Ok k ->
  (forall k' e', In (k', e') (l ++ (k, e) :: r) -> fst e' = fst e /\ he_key e' = Ok k') ->
  get_next_ccw (fst e) (l ++ (k, e) :: r) e = Ok (snd (last (r ++ l) (k, e))).
Proof.
  intros S K G. destruct (ss_split _ _ _ _ S) as (_ & _ & L & _). unfold get_next_ccw. rewrite pt_eqb_refl', K. cbn [bind passert]. rewrite L.
  destruct (exists_last' l) as [->|(l' & [k' e'] & ->)].
  - cbn [rev app]. rewrite app_nil_r. destruct (exists_last' r) as [->|(r' & [k' e'] & ->)].
    + cbn [app rev snd last bind]. pose proof (cw_split [] [] k e S K) as W. cbn [app hd snd] in W. rewrite W. cbn. now rewrite seg_eqb_refl'.
    + rewrite rev_app_distr. cbn [rev app snd bind]. rewrite last_last. cbn [snd].
      destruct (G k' e') as [F H]. { apply in_or_app. right. right. apply in_or_app. right. now left. }
      rewrite <- F. pose proof (cw_split ((k, e) :: r') [] k' e') as W. cbn [app hd snd] in W, S |- *. rewrite W by auto.
      cbn. now rewrite seg_eqb_refl'.
  - rewrite rev_app_distr. cbn [rev app snd bind]. rewrite app_assoc, last_last. cbn [snd].
    destruct (G k' e') as [F H]. { rewrite <- app_assoc. apply in_or_app. right. now left. }
    rewrite <- F. pose proof (cw_split l' ((k, e) :: r) k' e') as W. rewrite <- app_assoc in *. cbn [app hd snd] in *. rewrite W by auto.
    cbn. now rewrite seg_eqb_refl'.
Qed.

(** the next half-edge counter-clockwise: nothing lies in the sector that the turn sweeps *)
Definition turns_to (hes : list segment) (e n : segment) : Prop :=
  In n hes /\ fst n = fst e /\
  (forall m, In m hes -> fst m = fst e -> ~ insect (psub (snd e) (fst e)) (psub (snd n) (fst n)) (psub (snd m) (fst m))) /\
  (n <> e -> ~ (cross (psub (snd e) (fst e)) (psub (snd n) (fst n)) = 0 /\ 0 < dot (psub (snd e) (fst e)) (psub (snd n) (fst n)))).
Lemma ccw_turns hes v e : vgood hes (fst e) v -> In e hes -> (forall f, In f hes -> fst f <> snd f) ->
  exists n, get_next_ccw (fst e) v e = Ok n /\ get_next_cw (fst e) v n = Ok e /\ turns_to hes e n.
Proof.
  intros (S & G) I ND.
  assert (KEY : forall f, In f hes -> exists k, he_key f = Ok k).
  { intros f F. unfold he_key. destruct (vector_frangle _) as [k|x] eqn:Q; eauto. exfalso.
    assert (Z : psub (snd f) (fst f) <> (0, 0)).
    { intros Z. apply (ND f F). pose proof (f_equal fst Z) as Z1. pose proof (f_equal snd Z) as Z2. destruct f as [[a b] [c d]]. cbn in Z1, Z2 |- *.
      apply pteq; cbn; qlra. }
    destruct (frangle_ok _ Z) as (k & k2 & Hk & _). rewrite Hk in Q. discriminate. }
  destruct (KEY e I) as (k & K).
  assert (J : In (k, e) v) by (apply G; auto).
  apply in_split in J as (l & r & ->).
  pose proof (ccw_split l r k e S K) as W.
  assert (GG : forall k' e', In (k', e') (l ++ (k, e) :: r) -> fst e' = fst e /\ he_key e' = Ok k') by (intros; apply G in H; tauto).
  specialize (W GG). exists (snd (last (r ++ l) (k, e))).
  assert (IN : In (last (r ++ l) (k, e)) (l ++ (k, e) :: r)).
  { destruct (exists_last' (r ++ l)) as [->|(q & a & Q)]; [cbn; apply in_or_app; right; now left|].
    rewrite Q, last_last. assert (In a (r ++ l)) as A by (rewrite Q; apply in_or_app; right; now left).
    apply in_app_or in A as [A|A]; apply in_or_app; [right; now right|now left]. }
  split; [exact W|]. split.
  { unfold get_next_ccw in W. apply bind_ok in W as (? & _ & W). apply bind_ok in W as (? & _ & W).
    apply bind_ok in W as (n & _ & W). apply bind_ok in W as (p & W1 & W). apply bind_ok in W as (u & W2 & W).
    assert (n = snd (last (r ++ l) (k, e))) as -> by congruence. apply passert_ok in W2. destruct (seg_eqb_ok p e) as [->|]; [auto|discriminate]. }
  destruct (last (r ++ l) (k, e)) as [kn n] eqn:LAST. cbn [snd].
  destruct (proj1 (G kn n) IN) as (N1 & N2 & N3). split; auto. split; auto.
  destruct (ss_split _ _ _ _ S) as (LO & HI & _ & _). split.
  - intros m M MC X. destruct (KEY m M) as (km & KM). apply (insect_frangle _ _ _ _ _ _ K N3 KM) in X.
    assert (JM : In (km, m) (l ++ (k, e) :: r)) by (apply G; auto).
    destruct (exists_last' l) as [->|(l' & a & ->)].
    + destruct (exists_last' r) as [->|(r' & a & ->)].
      * cbn in LAST. pose proof (f_equal fst LAST) as L1. cbn in L1. destruct JM as [JM|[]]. pose proof (f_equal fst JM) as L2. cbn in L2.
        subst. destruct X as [(X & Y)|(X & [Y|Y])]; qlra.
      * rewrite app_nil_r, last_last in LAST. subst a.
        assert (KK : k < kn) by (apply (HI (kn, n)); apply in_or_app; right; now left).
        cbn [app] in JM. destruct JM as [JM|JM].
        -- pose proof (f_equal fst JM) as L2. cbn in L2. destruct X as [(X & Y)|(X & [Y|Y])]; qlra.
        -- assert (k < km) by (apply (HI (km, m)); auto).
           assert (km <= kn).
           { cbn [app] in S. inversion S as [|? ? S' _]; subst. apply ss_app in S' as (_ & _ & S').
             apply in_app_or in JM as [JM|[JM|[]]]; [|pose proof (f_equal fst JM) as L2; cbn in L2; qlra].
             specialize (S' _ (kn, n) JM (or_introl eq_refl)). cbn in S'. qlra. }
           destruct X as [(X & Y)|(X & [Y|Y])]; qlra.
    + rewrite app_assoc, last_last in LAST. subst a.
      assert (KK : kn < k) by (apply (LO (kn, n)); apply in_or_app; right; now left).
      rewrite <- app_assoc in JM, S. cbn [app] in JM, S. apply ss_app in S as (_ & S & SL). inversion S as [|? ? _ F]; subst.
      inversion F as [|? ? F1 F2]; subst. rewrite Forall_forall in F2. cbn in *.
      apply in_app_or in JM as [JM|[JM|[JM|JM]]].
      * specialize (SL _ (kn, n) JM (or_introl eq_refl)). cbn in SL. destruct X as [(X & Y)|(X & [Y|Y])]; qlra.
      * pose proof (f_equal fst JM) as L2; cbn in L2. destruct X as [(X & Y)|(X & [Y|Y])]; qlra.
      * pose proof (f_equal fst JM) as L2; cbn in L2. destruct X as [(X & Y)|(X & [Y|Y])]; qlra.
      * pose proof (HI _ JM) as HJ. cbn in HJ. destruct X as [(X & Y)|(X & [Y|Y])]; qlra.
  - intros NE (Z & D). destruct (fr_parallel _ _ _ _ K N3 Z) as [(E & _)|(_ & D')]; [|qlra]. subst kn.
    apply NE. apply in_app_or in IN as [IN|[IN|IN]].
    + specialize (LO _ IN). cbn in LO. exfalso. qlra.
    + pose proof (f_equal snd IN) as E. cbn in E. congruence.
    + specialize (HI _ IN). cbn in HI. exfalso. qlra.
Qed.
