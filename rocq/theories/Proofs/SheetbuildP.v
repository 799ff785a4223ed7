(** * Proofs about sheetbuild.py. *)
From Verif.Spec Require Import Plane Region PointSet1 Fingers.
From Verif.Model Require Import Sheetbuild.
From Verif.Proofs Require Import PyP ExtOrd DictP Geom1dP Geom1dM Geom2dP NearP Geom2dOps SheetplexP FingerP.
From Verif.Props Require Import Geom1dProps Primitive2dProps SheetplexProps.
From Coq Require Import String.
Open Scope Qc_scope.

(** ** Geom1D facts as used here *)
Lemma is_geom1d_or a b r : is_geom1d a -> is_geom1d b -> g_or a b = Ok r -> is_geom1d r.
Proof. intros (x & X) (y & Y) H. exists (EOr x y). cbn. now rewrite X, Y. Qed.
Lemma is_geom1d_and a b r : is_geom1d a -> is_geom1d b -> g_and a b = Ok r -> is_geom1d r.
Proof. intros (x & X) (y & Y) H. exists (EAnd x y). cbn [eval]. rewrite X, Y. exact H. Qed.
Lemma is_geom1d_sub a b r : is_geom1d a -> is_geom1d b -> g_sub a b = Ok r -> is_geom1d r.
Proof. intros (x & X) (y & Y) H. exists (ESub x y). cbn [eval]. rewrite X, Y. exact H. Qed.
Lemma is_geom1d_xor a b r : is_geom1d a -> is_geom1d b -> g_xor a b = Ok r -> is_geom1d r.
Proof. intros (x & X) (y & Y) H. exists (EXor x y). cbn [eval]. rewrite X, Y. exact H. Qed.
Lemma is_geom1d_inv a r : is_geom1d a -> g_invert a = Ok r -> is_geom1d r.
Proof. intros (x & X) H. exists (EInv x). cbn [eval]. rewrite X. exact H. Qed.
Lemma is_geom1d_buffer a q r : is_geom1d a -> buffer_q a q = Ok r -> is_geom1d r.
Proof. intros (x & X) H. exists (EBuffer x (NMpq q)). cbn [eval]. rewrite X. exact H. Qed.
Lemma is_geom1d_new l r : Geom1D l = Ok r -> is_geom1d r.
Proof. intros H. exists (ENew l). exact H. Qed.
Lemma is_geom1d_empty : is_geom1d [].
Proof. exists EEmpty. reflexivity. Qed.
Lemma is_geom1d_project g v o r : project_to_1d g v o = Ok r -> is_geom1d r.
Proof.
  unfold project_to_1d. change g_empty with (@Ok geom1d []). cbn [bind]. generalize is_geom1d_empty. generalize (@nil iv).
  induction g as [|s g IH]; intros a Ha H; cbn [foldM] in H.
  - apply Ok_inv in H as <-. exact Ha.
  - destruct (min_max _) as [(lo, hi)|]; [|discriminate]. cbn [bind] in H.
    destruct (Geom1D _) as [i|] eqn:E; [|discriminate]. cbn [bind] in H.
    destruct (g_or a i) as [b|] eqn:E2; [|discriminate]. cbn [bind] in H.
    eapply IH; [|exact H]. exact (is_geom1d_or a i b Ha (is_geom1d_new _ _ E) E2).
Qed.

(** [pts] of the operations *)
Lemma or_pts a b r x : normal a -> normal b -> g_or a b = Ok r -> (pts r x <-> pts a x \/ pts b x).
Proof. intros A B H. rewrite g_or_ok in H by auto. apply Ok_inv in H as <-. rewrite !pts_epts. now apply or_epts. Qed.
Lemma and_pts a b r x : normal a -> normal b -> g_and a b = Ok r -> (pts r x <-> pts a x /\ pts b x).
Proof. intros A B H. rewrite g_and_ok in H by auto. apply Ok_inv in H as <-. rewrite !pts_epts. now apply and_epts. Qed.
Lemma sub_pts a b r x : normal a -> normal b -> g_sub a b = Ok r -> (pts r x <-> pts a x /\ ~ pts b x).
Proof. intros A B H. rewrite g_sub_ok in H by auto. apply Ok_inv in H as <-. rewrite !pts_epts. now apply sub_epts. Qed.
Lemma inv_pts a r x : normal a -> g_invert a = Ok r -> (pts r x <-> ~ pts a x).
Proof. intros A H. rewrite g_invert_ok in H by auto. apply Ok_inv in H as <-. rewrite !pts_epts. now apply inv_epts. Qed.
Lemma pts_dec g x : pts g x \/ ~ pts g x.
Proof. rewrite pts_epts. apply epts_dec. Qed.
Lemma or_nml a b r : normal a -> normal b -> g_or a b = Ok r -> normal r.
Proof. intros A B H. rewrite g_or_ok in H by auto. apply Ok_inv in H as <-. now apply or_normal. Qed.
Lemma and_nml a b r : normal a -> normal b -> g_and a b = Ok r -> normal r.
Proof. intros A B H. rewrite g_and_ok in H by auto. apply Ok_inv in H as <-. now apply and_normal. Qed.
Lemma sub_nml a b r : normal a -> normal b -> g_sub a b = Ok r -> normal r.
Proof. intros A B H. rewrite g_sub_ok in H by auto. apply Ok_inv in H as <-. now apply sub_normal. Qed.
Lemma inv_nml a r : normal a -> g_invert a = Ok r -> normal r.
Proof. intros A H. rewrite g_invert_ok in H by auto. apply Ok_inv in H as <-. now apply inv_normal. Qed.
Lemma normal_nil_pts g : normal g -> (g = [] <-> forall x, ~ pts g x).
Proof.
  intros N. split; [intros -> x (i & [] & _)|]. intros H. apply normal_canonical; auto; [exact I|].
  intros x. destruct (pts_dec g x) as [P|P]; [destruct (H x P)|]. split; [tauto|intros (i & [] & _)].
Qed.

(** ** Sheetplexes built by the code *)
Definition plex_made (sp : sheetplex) : Prop := exists fr sp0, fresh_plex sp0 /\ create_intersections fr sp0 = Ok sp.
Lemma made_sides sp k it s : plex_made sp -> In (k, it) (sp_inters sp) -> In s (it_sides it) -> is_inter s = k /\ is_id s = (k, is_sheet s).
Proof.
  intros (fr & sp0 & F & C) H Hs. destruct (created fr sp0 sp F C) as (_ & _ & _ & G). destruct (proj1 (G k it) H) as (a & b & (d1 & o1 & os1) & (d2 & o2 & os2) & _ & _ & -> & ->).
  cbn in Hs. destruct Hs as [<-|[<-|[]]]; cbn; auto.
Qed.
Lemma made_two sp k it : plex_made sp -> In (k, it) (sp_inters sp) -> exists s0 s1, it_sides it = [s0; s1] /\ is_sheet s0 <> is_sheet s1 /\ it_id it = k /\
  opposite s0 sp = Ok s1 /\ opposite s1 sp = Ok s0.
Proof.
  intros M H. pose proof M as (fr & sp0 & F & C). destruct (created fr sp0 sp F C) as (_ & ND & _ & G). destruct (proj1 (G k it) H) as (a & b & (d1 & o1 & os1) & (d2 & o2 & os2) & B & _ & E1 & E2).
  destruct (fresh_ids _ F) as (N & _). destruct (before_ids _ a b N B) as (NE & _).
  assert (D : dget String.eqb k (sp_inters sp) = Some it) by now apply (dget_nodup _ string_eqb_ok).
  rewrite E1, E2 in *. exists (create_inter_side (pid (a, b)) (sh_id a) 0 (d1, (o1, os1))), (create_inter_side (pid (a, b)) (sh_id b) 1 (d2, (o2, os2))).
  split; [reflexivity|]. split; [exact NE|]. split; [reflexivity|].
  unfold opposite, dgetr. cbn [is_inter create_inter_side]. rewrite D. cbn. auto.
Qed.
Lemma made_interside sp id s : plex_made sp -> sp_interside sp id = Ok s -> side_of sp s /\ is_id s = id.
Proof.
  intros M H. unfold sp_interside in H. destruct (dgetr _ _ _) as [it|] eqn:D; [|discriminate]. cbn [bind] in H.
  apply dgetr_ok in D. apply (dget_in _ string_eqb_ok) in D.
  destruct (made_two _ _ _ M D) as (s0 & s1 & E & _). rewrite E in H. cbn [side_at nth_error bind] in H.
  assert (S : forall t, In t (it_sides it) -> is_sheet t = snd id -> side_of sp t /\ is_id t = id).
  { intros t Ht Q. destruct (made_sides _ _ _ _ M D Ht) as (_ & I). split; [exists (fst id), it; auto|]. rewrite I, Q. now destruct id. }
  destruct (String.eqb_spec (is_sheet s0) (snd id)) as [Q|Q].
  - apply Ok_inv in H as <-. apply S; auto. rewrite E. cbn. auto.
  - destruct (String.eqb_spec (is_sheet s1) (snd id)) as [Q1|Q1]; cbn in H; [|discriminate]. apply Ok_inv in H as <-. apply S; auto. rewrite E. cbn. auto.
Qed.
Lemma made_opp sp s : plex_made sp -> side_of sp s -> exists o, opposite s sp = Ok o /\ opposite o sp = Ok s /\ side_of sp o /\
  is_id o <> is_id s /\ is_sheet o <> is_sheet s /\ is_inter o = is_inter s /\ sp_interside sp (is_id s) = Ok s.
Proof.
  intros (fr & sp0 & F & C) H. destruct (interside_lookups fr sp0 sp F C) as (L & _). destruct (L s H) as (I & o & A1 & A2 & A3 & A4 & A5 & A6 & _).
  exists o. repeat split; auto. intros E. apply A5. destruct (L o A3) as (_ & _ & _ & _ & _ & _ & _ & I' & _). congruence.
Qed.
Lemma made_unique sp s t : plex_made sp -> side_of sp s -> side_of sp t -> is_id s = is_id t -> s = t.
Proof. intros (fr & sp0 & F & C). destruct (interside_lookups fr sp0 sp F C) as (_ & U & _). apply U. Qed.
Lemma made_list sp s : plex_made sp -> (In s (sp_intersides sp None) <-> side_of sp s).
Proof. intros (fr & sp0 & F & C). destruct (interside_lookups fr sp0 sp F C) as (_ & _ & _ & U & _). apply U. Qed.

(** ** Maps of geoms *)
Lemma mor1_ok m k g m' : mor1 m k g = Ok m' -> exists r, g_or (match dget id2_eqb k m with Some x => x | None => [] end) g = Ok r /\ m' = dset id2_eqb k r m.
Proof. unfold mor1, map_or_geom. destruct (g_or _ _) as [r|] eqn:E; cbn [bind]; [|discriminate]. intros H. apply Ok_inv in H as <-. eauto. Qed.
Lemma msub1_ok m k g m' : msub1 m k g = Ok m' -> exists x r, dget id2_eqb k m = Some x /\ g_sub x g = Ok r /\ m' = dset id2_eqb k r m.
Proof. unfold msub1, map_op_geom. destruct (dget _ _ _) as [x|] eqn:D; [|discriminate]. destruct (g_sub _ _) as [r|] eqn:E; cbn [bind]; [|discriminate]. intros H. apply Ok_inv in H as <-. eauto. Qed.
Lemma mor2_ok A m k g m' : mor2 A m k g = Ok m' -> exists r, g2_or A (match dget String.eqb k m with Some x => x | None => [] end) g = Ok r /\ m' = dset String.eqb k r m.
Proof. unfold mor2, map_or_geom. destruct (g2_or _ _ _) as [r|] eqn:E; cbn [bind]; [|discriminate]. intros H. apply Ok_inv in H as <-. eauto. Qed.
Lemma msub2_ok A m k g m' : msub2 A m k g = Ok m' -> exists x r, dget String.eqb k m = Some x /\ g2_sub A x g = Ok r /\ m' = dset String.eqb k r m.
Proof. unfold msub2, map_op_geom. destruct (dget _ _ _) as [x|] eqn:D; [|discriminate]. destruct (g2_sub _ _ _) as [r|] eqn:E; cbn [bind]; [|discriminate]. intros H. apply Ok_inv in H as <-. eauto. Qed.

(** ** What a successful operation did *)
Record choose_did (A : arr_impl) (sb : sbuild) (id : id2) (v : geom1d) (t : bool) (sb' : sbuild) (s o : interside) : Prop := {
  cd_side : sp_interside (sb_plex sb) id = Ok s;
  cd_opp : opposite s (sb_plex sb) = Ok o;
  cd_plex : sb_plex sb' = sb_plex sb;
  cd_ok : exists k nk bad, dget id2_eqb id (sb_iok sb) = Some k /\ g_invert k = Ok nk /\ g_and nk v = Ok bad /\ measure_lt bad e6 = true;
  cd_2d : exists f oc x, make_fingers01 A o v = Ok f /\ dget String.eqb (is_sheet o) (sb_schosen sb) = Some oc /\ g2_and A f oc = Ok x /\ area_lt x e6 = Ok true;
  cd_schosen : (t = true -> sb_schosen sb' = sb_schosen sb) /\
    (t = false -> exists f k x r, make_fingers01 A s v = Ok f /\ dget String.eqb (is_sheet s) (sb_sok sb) = Some k /\ g2_and A f k = Ok x /\
       g2_or A (match dget String.eqb (is_sheet s) (sb_schosen sb) with Some c => c | None => [] end) x = Ok r /\ sb_schosen sb' = dset String.eqb (is_sheet s) r (sb_schosen sb));
  cd_sok : exists f k r, make_fingers01 A o v = Ok f /\ dget String.eqb (is_sheet o) (sb_sok sb) = Some k /\ g2_sub A k f = Ok r /\ sb_sok sb' = dset String.eqb (is_sheet o) r (sb_sok sb);
  cd_ich : exists r, g_or (match dget id2_eqb id (sb_ichosen sb) with Some c => c | None => [] end) v = Ok r /\ sb_ichosen sb' = dset id2_eqb id r (sb_ichosen sb);
  cd_iok : exists k r, dget id2_eqb (is_id o) (sb_iok sb) = Some k /\ g_sub k v = Ok r /\ sb_iok sb' = dset id2_eqb (is_id o) r (sb_iok sb) }.
Lemma choose_inv A sb id v t sb' : choose_interside A sb id v t = Ok sb' -> exists s o, choose_did A sb id v t sb' s o.
Proof.
  unfold choose_interside. intros H.
  destruct (iget id (sb_iok sb)) as [k|] eqn:E1; [|discriminate]. cbn [bind] in H.
  destruct (g_invert k) as [nk|] eqn:E2; [|discriminate]. cbn [bind] in H.
  destruct (g_and nk v) as [bad|] eqn:E3; [|discriminate]. cbn [bind] in H.
  destruct (measure_lt bad e6) eqn:E4; cbn [passert bind] in H; [|discriminate].
  destruct (sp_interside _ _) as [s|] eqn:E5; [|discriminate]. cbn [bind] in H.
  destruct (opposite s _) as [o|] eqn:E6; [|discriminate]. cbn [bind] in H.
  destruct (make_fingers01 A o v) as [f|] eqn:E7; [|discriminate]. cbn [bind] in H.
  destruct (sget (is_sheet o) (sb_schosen sb)) as [oc|] eqn:E8; [|discriminate]. cbn [bind] in H.
  destruct (g2_and A f oc) as [x|] eqn:E9; [|discriminate]. cbn [bind] in H.
  unfold assert_area in H. destruct (area_lt x e6) as [[|]|] eqn:E10; cbn [passert bind] in H; try discriminate.
  destruct (if t then _ else _) as [sc|] eqn:E11; [|discriminate]. cbn [bind] in H.
  destruct (msub2 A _ _ _) as [sok|] eqn:E12; [|discriminate]. cbn [bind] in H.
  destruct (mor1 _ _ _) as [ich|] eqn:E13; [|discriminate]. cbn [bind] in H.
  destruct (msub1 _ _ _) as [iok|] eqn:E14; [|discriminate]. cbn [bind] in H.
  apply Ok_inv in H as <-. exists s, o.
  apply msub2_ok in E12 as (k2 & r2 & ? & ? & ->). apply mor1_ok in E13 as (r3 & ? & ->). apply msub1_ok in E14 as (k4 & r4 & ? & ? & ->).
  unfold iget, sget in *. apply dgetr_ok in E1. apply dgetr_ok in E8.
  constructor; cbn [sb_plex sb_schosen sb_sok sb_ichosen sb_iok]; auto; eauto 8.
  split; intros ->; [now apply Ok_inv in E11|].
    destruct (make_fingers01 A s v) as [fs|] eqn:G1; [|discriminate]. cbn [bind] in E11.
    destruct (dgetr _ _ _) as [ks|] eqn:G2 in E11; [|discriminate]. cbn [bind] in E11.
    destruct (g2_and A fs ks) as [y|] eqn:G3; [|discriminate]. cbn [bind] in E11.
    apply mor2_ok in E11 as (r & R & ->). apply dgetr_ok in G2. exists fs, ks, y, r. auto.
Qed.
Record unchoose_did (sb : sbuild) (id : id2) (v : geom1d) (sb' : sbuild) (s : interside) : Prop := {
  ud_side : sp_interside (sb_plex sb) id = Ok s;
  ud_plex : sb_plex sb' = sb_plex sb;
  ud_free : exists c, dget id2_eqb id (sb_ichosen sb) = Some c /\ g_and c v = Ok [];
  ud_schosen : sb_schosen sb' = sb_schosen sb; ud_sok : sb_sok sb' = sb_sok sb; ud_ich : sb_ichosen sb' = sb_ichosen sb;
  ud_iok : exists k r, dget id2_eqb (is_id s) (sb_iok sb) = Some k /\ g_sub k v = Ok r /\ sb_iok sb' = dset id2_eqb (is_id s) r (sb_iok sb) }.
Lemma unchoose_inv sb id v sb' : unchoose_interside sb id v = Ok sb' -> exists s, unchoose_did sb id v sb' s.
Proof.
  unfold unchoose_interside. intros H.
  destruct (iget id (sb_ichosen sb)) as [k|] eqn:E1; [|discriminate]. cbn [bind] in H.
  destruct (g_and k v) as [[|]|] eqn:E2; cbn [bind is_empty] in H; try discriminate.
  destruct (sp_interside _ _) as [s|] eqn:E3; [|discriminate]. cbn [bind] in H.
  destruct (msub1 _ _ _) as [iok|] eqn:E4; [|discriminate]. cbn [bind] in H. apply Ok_inv in H as <-.
  apply msub1_ok in E4 as (x & r & ? & ? & ->). apply dgetr_ok in E1. exists s. constructor; cbn [sb_plex sb_schosen sb_sok sb_ichosen sb_iok]; eauto.
Qed.
Record area_did (A : arr_impl) (sb : sbuild) (k : string) (a : geom2d) (sb' : sbuild) : Prop := {
  ad_plex : sb_plex sb' = sb_plex sb; ad_ich : sb_ichosen sb' = sb_ichosen sb; ad_iok : sb_iok sb' = sb_iok sb; ad_schosen : sb_schosen sb' = sb_schosen sb;
  ad_free : exists c x, dget String.eqb k (sb_schosen sb) = Some c /\ g2_and A c a = Ok x /\ area_lt x e5 = Ok true;
  ad_sok : exists x r, dget String.eqb k (sb_sok sb) = Some x /\ g2_sub A x a = Ok r /\ sb_sok sb' = dset String.eqb k r (sb_sok sb) }.
Lemma area_inv A sb k a sb' : unchoose_sheet_area A sb k a = Ok sb' -> area_did A sb k a sb'.
Proof.
  unfold unchoose_sheet_area. intros H. destruct (sget k (sb_schosen sb)) as [c|] eqn:E1; [|discriminate]. cbn [bind] in H.
  destruct (g2_and A c a) as [x|] eqn:E2; [|discriminate]. cbn [bind] in H. unfold assert_area in H.
  destruct (area_lt x e5) as [[|]|] eqn:E3; cbn [bind passert] in H; try discriminate. unfold transform_sub2 in H.
  destruct (msub2 _ _ _ _) as [sok|] eqn:E4; [|discriminate]. cbn [bind] in H. apply Ok_inv in H as <-.
  apply msub2_ok in E4 as (y & r & ? & ? & ->). apply dgetr_ok in E1. constructor; cbn [sb_plex sb_schosen sb_sok sb_ichosen sb_iok]; eauto.
Qed.

(** ** Steps of the whole program (operations and heuristics) *)
Definition opt {K} (o : option (list K)) : list K := match o with Some x => x | None => [] end.
Definition geom_at (m : dict string geom2d) (k : string) : geom2d := opt (dget String.eqb k m).
Record inv2 (sb : sbuild) : Prop := {
  i2_ch : forall k, is_geom2d (geom_at (sb_schosen sb) k); i2_ok : forall k, is_geom2d (geom_at (sb_sok sb) k) }.
(** the 2D fields of the sheets are Geom2D values *)
Definition plex_geoms (sp : sheetplex) : Prop := forall k sh, In (k, sh) (sp_sheets sp) ->
  is_geom2d (sh_face0 sh) /\ is_geom2d (sh_face1 sh) /\ is_geom2d (sh_slices_max sh).
(** [K] is a class of geometries that the 2D fields belong to; the areas taken away from sheet_ok belong to it as well *)
Definition plex_in (K : geom2d -> Prop) (sp : sheetplex) : Prop := forall k sh, In (k, sh) (sp_sheets sp) -> K (sh_face0 sh) /\ K (sh_face1 sh) /\ K (sh_slices_max sh).
Definition state_in (K : geom2d -> Prop) (sb : sbuild) : Prop := forall k, K (geom_at (sb_schosen sb) k) /\ K (geom_at (sb_sok sb) k).
(** the class of Geom2D values, if the arrangement keeps to it *)
Definition geoms_of (A : arr_impl) (g : geom2d) : Prop := arr_sound A -> is_geom2d g.
Inductive sstep (A : arr_impl) (K : geom2d -> Prop) : sbuild -> sbuild -> Prop :=
| st_choose sb id v t sb' : is_geom1d v -> choose_interside A sb id v t = Ok sb' -> sstep A K sb sb'
| st_unchoose sb id v sb' : is_geom1d v -> unchoose_interside sb id v = Ok sb' -> sstep A K sb sb'
| st_iok sb id v iok : is_geom1d v -> msub1 (sb_iok sb) id v = Ok iok ->
    sstep A K sb (mkSB (sb_plex sb) (sb_schosen sb) (sb_sok sb) (sb_ichosen sb) iok)
| st_sok sb k a sok : (plex_in K (sb_plex sb) -> state_in K sb -> K a) -> msub2 A (sb_sok sb) k a = Ok sok ->
    sstep A K sb (mkSB (sb_plex sb) (sb_schosen sb) sok (sb_ichosen sb) (sb_iok sb)).
Inductive ssteps (A : arr_impl) (K : geom2d -> Prop) : sbuild -> sbuild -> Prop :=
| ss_refl sb : ssteps A K sb sb
| ss_step a b c : ssteps A K a b -> sstep A K b c -> ssteps A K a c.
Lemma ss_one A K a b : sstep A K a b -> ssteps A K a b.
Proof. intros H. exact (ss_step A K a a b (ss_refl A K a) H). Qed.
Lemma ss_trans A K a b c : ssteps A K a b -> ssteps A K b c -> ssteps A K a c.
Proof. intros H1 H2. induction H2 as [|x y z S IH T]; [exact H1|]. exact (ss_step A K a y z (IH H1) T). Qed.
Lemma st_area A (K : geom2d -> Prop) sb k a sb' : (plex_in K (sb_plex sb) -> state_in K sb -> K a) -> unchoose_sheet_area A sb k a = Ok sb' -> sstep A K sb sb'.
Proof.
  intros G H. apply area_inv in H as [E1 E2 E3 E4 _ (x & r & D & R & E)]. destruct sb' as [p sc so ic io]. cbn in *. subst. apply (st_sok A K sb k a _ G).
  unfold msub2, map_op_geom, dgetr. rewrite D. cbn [bind]. now rewrite R.
Qed.

(** ** C49 *)
Definition chosen_of (sb : sbuild) (id : id2) : geom1d := opt (dget id2_eqb id (sb_ichosen sb)).
Definition ok_of (sb : sbuild) (id : id2) : geom1d := opt (dget id2_eqb id (sb_iok sb)).
Record inv1 (sp : sheetplex) (sb : sbuild) : Prop := {
  iv_plex : sb_plex sb = sp;
  iv_has : forall s, side_of sp s -> In (is_id s) (keys (sb_ichosen sb)) /\ In (is_id s) (keys (sb_iok sb));
  iv_normal : forall id, is_geom1d (chosen_of sb id) /\ is_geom1d (ok_of sb id);
  iv_disj : forall s o x, side_of sp s -> opposite s sp = Ok o -> pts (chosen_of sb (is_id s)) x -> ~ pts (ok_of sb (is_id o)) x }.
Lemma chosen_set sb k r id p sc so io : chosen_of (mkSB p sc so (dset id2_eqb k r (sb_ichosen sb)) io) id = if id2_eqb id k then r else chosen_of sb id.
Proof. unfold chosen_of. cbn [sb_ichosen]. rewrite (dget_dset _ id2_eqb_ok). now destruct (id2_eqb id k). Qed.
Lemma chosen_dset sb sb' k r id : sb_ichosen sb' = dset id2_eqb k r (sb_ichosen sb) -> chosen_of sb' id = if id2_eqb id k then r else chosen_of sb id.
Proof. intros H. unfold chosen_of. rewrite H, (dget_dset _ id2_eqb_ok). now destruct (id2_eqb id k). Qed.
Lemma ok_dset sb sb' k r id : sb_iok sb' = dset id2_eqb k r (sb_iok sb) -> ok_of sb' id = if id2_eqb id k then r else ok_of sb id.
Proof. intros H. unfold ok_of. rewrite H, (dget_dset _ id2_eqb_ok). now destruct (id2_eqb id k). Qed.
Lemma opt_get {K V} eqb k (m : dict K (list V)) x : dget eqb k m = Some x -> opt (dget eqb k m) = x.
Proof. now intros ->. Qed.

(** shrinking one ok range keeps the invariant *)
Lemma inv1_shrink sp sb sb' id k v r : inv1 sp sb -> is_geom1d v -> sb_plex sb' = sb_plex sb -> sb_ichosen sb' = sb_ichosen sb ->
  dget id2_eqb id (sb_iok sb) = Some k -> g_sub k v = Ok r -> sb_iok sb' = dset id2_eqb id r (sb_iok sb) -> inv1 sp sb'.
Proof.
  intros [P H N D] V E1 E2 Dk R E3. assert (Kk : ok_of sb id = k) by now apply opt_get.
  assert (C : forall i, chosen_of sb' i = chosen_of sb i) by (intros; unfold chosen_of; now rewrite E2).
  assert (O : forall i, ok_of sb' i = if id2_eqb i id then r else ok_of sb i) by (intros; now apply ok_dset).
  assert (Nk : is_geom1d k) by (rewrite <- Kk; apply N).
  constructor.
  - congruence.
  - intros s Hs. destruct (H s Hs) as (H1 & H2). rewrite E2, E3. split; auto. apply (in_keys_dset _ id2_eqb_ok). auto.
  - intros i. rewrite C, O. split; [apply N|]. destruct (id2_eqb i id); [|apply N]. exact (is_geom1d_sub k v r Nk V R).
  - intros s o x Hs Ho. rewrite C, O. destruct (eqb_case _ id2_eqb_ok (is_id o) id) as [(-> & Q)|(-> & Q)]; [|now apply D].
    intros X Y. apply (sub_pts k v r x) in Y as (Y & _); auto; try now apply is_geom1d_normal. rewrite <- Kk, <- Q in Y. exact (D s o x Hs Ho X Y).
Qed.
Lemma inv1_step A Kc sp sb sb' : plex_made sp -> inv1 sp sb -> sstep A Kc sb sb' -> inv1 sp sb'.
Proof.
  intros M I S. destruct S as [sb id v t sb' V H|sb id v sb' V H|sb id v iok V H|sb k a sok _ _].
  - apply choose_inv in H as (s & o & CD). destruct CD as [C1 C2 C3 _ _ _ _ (r & R & RE) (k & r' & K & R' & RE')].
    pose proof I as [P Hh N D]. rewrite P in *. destruct (made_interside _ _ _ M C1) as (Hs & <-).
    destruct (made_opp _ _ M Hs) as (o' & O1 & O2 & Ho & NE & _). rewrite C2 in O1. apply Ok_inv in O1 as <-.
    change (g_or (chosen_of sb (is_id s)) v = Ok r) in R. pose proof (opt_get _ _ _ _ K) as Kk. fold (ok_of sb (is_id o)) in Kk.
    destruct (N (is_id s)) as (Nc & _). destruct (N (is_id o)) as (_ & No). rewrite <- Kk in R'.
    constructor.
    + congruence.
    + intros u Hu. destruct (Hh u Hu). rewrite RE, RE'. split; apply (in_keys_dset _ id2_eqb_ok); auto.
    + intros i. rewrite (chosen_dset _ _ _ _ i RE), (ok_dset _ _ _ _ i RE'). split.
      * destruct (id2_eqb i (is_id s)); [|apply N]. exact (is_geom1d_or _ _ _ Nc V R).
      * destruct (id2_eqb i (is_id o)); [|apply N]. exact (is_geom1d_sub _ _ _ No V R').
    + intros u w x Hu Hw. rewrite (chosen_dset _ _ _ _ (is_id u) RE), (ok_dset _ _ _ _ (is_id w) RE').
      apply is_geom1d_normal in Nc, No. pose proof (is_geom1d_normal _ V) as Nv.
      destruct (eqb_case _ id2_eqb_ok (is_id u) (is_id s)) as [(-> & Q)|(-> & Q)].
      * assert (u = s) by (eapply made_unique; eauto). subst u. assert (w = o) by (rewrite C2 in Hw; now apply Ok_inv in Hw). subst w.
        rewrite (DictP.eqb_refl _ id2_eqb_ok). intros X Y. apply (or_pts _ _ _ _ Nc Nv R) in X. apply (sub_pts _ _ _ _ No Nv R') in Y as (Y & Z).
        destruct X as [X|X]; [|tauto]. exact (D s o x Hs Hw X Y).
      * destruct (eqb_case _ id2_eqb_ok (is_id w) (is_id o)) as [(-> & Q')|(-> & Q')]; [|now apply D].
        destruct (made_opp _ _ M Hu) as (w' & W1 & W2 & Hw' & _). rewrite Hw in W1. apply Ok_inv in W1 as <-.
        assert (w = o) by (eapply made_unique; eauto). subst w. rewrite O2 in W2. apply Ok_inv in W2 as <-. destruct Q. reflexivity.
  - apply unchoose_inv in H as (s & [C1 C2 _ _ _ C6 (k & r & K & R & RE)]). eapply inv1_shrink; eauto.
  - apply msub1_ok in H as (k & r & K & R & ->). eapply inv1_shrink; eauto; reflexivity.
  - destruct I as [P H N D]. constructor; auto.
Qed.
Lemma inv1_steps A K sp sb sb' : plex_made sp -> inv1 sp sb -> ssteps A K sb sb' -> inv1 sp sb'.
Proof. intros M I H. induction H as [|x y z S IH T]; [exact I|]. exact (inv1_step A K sp y z M (IH I) T). Qed.

(** ** Fresh SheetBuilds *)
Lemma dict_of_in {X V} (key : X -> id2) (f : X -> result V) l : forall m m',
  foldM (fun m x => v <- f x ;; Ok (dset id2_eqb (key x) v m)) l m = Ok m' ->
  forall id, (In id (keys m') <-> In id (keys m) \/ In id (map key l)) /\
    (forall v, dget id2_eqb id m' = Some v -> dget id2_eqb id m = Some v \/ exists x, In x l /\ f x = Ok v).
Proof.
  induction l as [|x l IH]; intros m m' H id; cbn [foldM] in H.
  - apply Ok_inv in H as <-. split; [cbn; tauto|]. auto.
  - destruct (f x) as [v|] eqn:E; [|discriminate]. cbn [bind] in H. destruct (IH _ _ H id) as (A & B). split.
    + rewrite A, (in_keys_dset _ id2_eqb_ok). cbn [map In]. intuition.
    + intros w W. apply B in W. rewrite (dget_dset _ id2_eqb_ok) in W. destruct W as [W|(y & Hy & W)]; [|right; exists y; cbn; auto].
      destruct (id2_eqb id (key x)); [|auto]. injection W as <-. right. exists x. cbn. auto.
Qed.
Lemma init_side_geom A sp sok s v : init_side_ok A sp sok s = Ok v -> is_geom1d v.
Proof.
  unfold init_side_ok. intros H. apply bind_ok in H as (k & _ & H). apply bind_ok in H as (sh & _ & H). apply bind_ok in H as (a & _ & H).
  apply bind_ok in H as (r & _ & H). apply bind_ok in H as (f & _ & H). apply bind_ok in H as (x & _ & H). exact (is_geom1d_project _ _ _ _ H).
Qed.
Lemma and_opposites sp l : forall iok iok', foldM (and_opposite sp) l iok = Ok iok' -> (forall id v, dget id2_eqb id iok = Some v -> is_geom1d v) ->
  (forall id, In id (keys iok') <-> In id (keys iok)) /\ forall id v, dget id2_eqb id iok' = Some v -> is_geom1d v.
Proof.
  induction l as [|s l IH]; intros iok iok' E3 G0; cbn [foldM] in E3.
  - apply Ok_inv in E3 as <-. split; auto. tauto.
  - apply bind_ok in E3 as (m & F & E3). unfold and_opposite, iget in F. apply bind_ok in F as (a & F1 & F). apply bind_ok in F as (o & F2 & F).
    apply bind_ok in F as (b & F3 & F). apply bind_ok in F as (r & F4 & F). apply Ok_inv in F as <-.
    apply dgetr_ok in F1, F3. apply IH in E3 as (A1 & A2).
    + split; auto. intros id. rewrite A1, (in_keys_dset _ id2_eqb_ok). split; [intros [->|]; auto|auto]. apply (dget_some _ id2_eqb_ok). eauto.
    + intros id v. rewrite (dget_dset _ id2_eqb_ok). destruct (id2_eqb id (is_id s)); [|now apply G0]. intros E. apply some_inv in E as <-.
      exact (is_geom1d_and _ _ _ (G0 _ _ F1) (G0 _ _ F3) F4).
Qed.
Lemma create_parts A fsqrt sp rad sb : create_sheetbuild A fsqrt sp rad = Ok sb -> exists sc0 iok,
  dict_of String.eqb sh_id (init_chosen A fsqrt) (values (sp_sheets sp)) = Ok sc0 /\
  dict_of String.eqb sh_id (init_ok A fsqrt rad) (values (sp_sheets sp)) = Ok (sb_sok sb) /\
  dict_of id2_eqb is_id (fun _ => g_empty) (sp_intersides sp None) = Ok (sb_ichosen sb) /\
  dict_of id2_eqb is_id (init_side_ok A sp (sb_sok sb)) (sp_intersides sp None) = Ok iok /\
  foldM (and_opposite sp) (sp_intersides sp None) iok = Ok (sb_iok sb) /\
  foldM (carve A sp) (sb_iok sb) sc0 = Ok (sb_schosen sb) /\ sb_plex sb = sp.
Proof.
  unfold create_sheetbuild. intros H. apply bind_ok in H as (sc & H1 & H). apply bind_ok in H as (sok & H2 & H). apply bind_ok in H as (ich & H3 & H).
  apply bind_ok in H as (iok & H4 & H). apply bind_ok in H as (iok' & H5 & H). apply bind_ok in H as (sc' & H6 & H). apply Ok_inv in H as <-.
  exists sc, iok. cbn [sb_sok sb_ichosen sb_iok sb_schosen sb_plex]. auto 8.
Qed.
Lemma create_inv1 A fsqrt sp rad sb : plex_made sp -> create_sheetbuild A fsqrt sp rad = Ok sb -> inv1 sp sb /\ (forall id, chosen_of sb id = []).
Proof.
  intros M H. apply create_parts in H as (sc0 & iok & _ & _ & E1 & E2 & E3 & _ & P).
  pose proof (dict_of_in _ _ _ _ _ E1) as D1. pose proof (dict_of_in _ _ _ _ _ E2) as D2.
  assert (C : forall id, chosen_of sb id = []).
  { intros id. unfold chosen_of. destruct (dget id2_eqb id (sb_ichosen sb)) as [v|] eqn:E; auto. apply D1 in E as [E|(x & _ & E)]; [discriminate|].
    symmetry. apply Ok_inv. exact E. }
  apply and_opposites in E3 as (K1 & K2); [|intros id v E; apply D2 in E as [E|(x & _ & E)]; [discriminate|exact (init_side_geom _ _ _ _ _ E)]].
  split; auto. constructor; auto.
  - intros s Hs. apply (made_list _ _ M) in Hs. split.
    + apply D1. right. now apply in_map.
    + apply K1. apply D2. right. now apply in_map.
  - intros id. rewrite C. split; [apply is_geom1d_empty|]. unfold ok_of. destruct (dget id2_eqb id (sb_iok sb)) as [v|] eqn:E; [exact (K2 _ _ E)|apply is_geom1d_empty].
  - intros s o x _ _. rewrite C. intros (i & [] & _).
Qed.

(** ** C50 *)
Lemma measure_lt_mes g q : normal g -> measure_lt g q = true -> exists m, mes g = Fin m /\ 0 <= m /\ m < q.
Proof.
  intros N. unfold measure_lt. rewrite measure_mes by auto. pose proof (mes_nneg g) as NN. unfold nneg in NN.
  destruct (mes g) as [|m|]; try discriminate; [destruct NN|]. change (eltb (Fin m) (Fin q)) with (qltb m q). destruct (qltb_spec m q) as [L|L]; [|discriminate]. intros _. exists m. auto.
Qed.
Lemma mes_sub_bound a b c m q : normal a -> normal b -> normal c -> (forall x, pts a x -> pts b x \/ pts c x) ->
  mes b = Fin m -> mes c = Fin q -> exists r, mes a = Fin r /\ r <= m + q.
Proof.
  intros A B C H M Q. pose proof (mes_additive b c B C) as E. rewrite M, Q in E. cbn [eplus] in E.
  pose proof (mes_mono a (or_pure b c) A (or_normal _ _ B C)) as L.
  assert (L' : ele (mes a) (mes (or_pure b c))). { apply L. intros x X. apply pts_epts, or_epts; auto. rewrite <- !pts_epts. auto. }
  pose proof (mes_nneg (and_pure b c)) as N1. pose proof (mes_nneg a) as N2. unfold nneg in *.
  destruct (mes (or_pure b c)) as [|u|], (mes (and_pure b c)) as [|w|], (mes a) as [|r|]; cbn [eplus] in E; try discriminate; unfold ele in *; try tauto.
  exists r. split; auto. assert (u + w = m + q) by congruence. qlra.
Qed.
(** the part of the chosen range that is not ok (any more) *)
Definition exc (sb : sbuild) (id : id2) : geom1d := sub_pure (chosen_of sb id) (ok_of sb id).
Lemma exc_pts sp sb id x : inv1 sp sb -> (pts (exc sb id) x <-> pts (chosen_of sb id) x /\ ~ pts (ok_of sb id) x).
Proof.
  intros [_ _ N _]. destruct (N id) as (A & B). apply is_geom1d_normal in A, B. unfold exc. rewrite !pts_epts. now apply sub_epts.
Qed.
Lemma exc_normal sp sb id : inv1 sp sb -> normal (exc sb id).
Proof. intros [_ _ N _]. destruct (N id) as (A & B). apply is_geom1d_normal in A, B. now apply sub_normal. Qed.

(** elementary operations of the public interface *)
Inductive sop := Choose (id : id2) (v : geom1d) (tentative : bool) | Unchoose (id : id2) (v : geom1d) | UnchooseArea (sheet_id : string) (area : geom2d).
Definition sapply (A : arr_impl) (sb : sbuild) (op : sop) : result sbuild :=
  match op with
  | Choose id v t => choose_interside A sb id v t
  | Unchoose id v => unchoose_interside sb id v
  | UnchooseArea k a => unchoose_sheet_area A sb k a
  end.
Definition sruns (A : arr_impl) (ops : list sop) (sb : sbuild) : result sbuild := foldM (sapply A) ops sb.
(** the ranges given are Geom1D and Geom2D objects *)
Definition sop_ok (op : sop) : Prop := match op with Choose _ v _ | Unchoose _ v => is_geom1d v | UnchooseArea _ a => is_geom2d a end.
Lemma sapply_step A sb op sb' : sop_ok op -> sapply A sb op = Ok sb' -> sstep A (geoms_of A) sb sb'.
Proof. destruct op; cbn [sop_ok sapply]; intros O H; [eapply st_choose|eapply st_unchoose|eapply st_area]; eauto. intros _ _ _. exact O. Qed.
Lemma sruns_steps A ops : forall sb sb', Forall sop_ok ops -> sruns A ops sb = Ok sb' -> ssteps A (geoms_of A) sb sb'.
Proof.
  induction ops as [|op ops IH]; intros sb sb' F H; cbn in H; [apply Ok_inv in H as <-; constructor|].
  apply bind_ok in H as (m & H1 & H2). inversion F; subst. eapply ss_trans; [apply ss_one; eapply sapply_step; eauto|]. apply IH; auto.
Qed.
(** the number of choices made on the intersection of the side *)
Definition n_choices (i : string) (ops : list sop) : nat :=
  List.length (filter (fun op => match op with Choose id _ _ => String.eqb (fst id) i | _ => false end) ops).
Lemma nc_cons i op ops : n_choices i (op :: ops) = ((match op with Choose id _ _ => if String.eqb (fst id) i then 1 else 0 | _ => 0 end) + n_choices i ops)%nat.
Proof. unfold n_choices. cbn [filter]. destruct op as [id v t|id v|k a]; auto. destruct (String.eqb (fst id) i); reflexivity. Qed.

Lemma exc_step A sp sb op sb' s m : plex_made sp -> inv1 sp sb -> sop_ok op -> sapply A sb op = Ok sb' -> side_of sp s ->
  mes (exc sb (is_id s)) = Fin m ->
  exists m', mes (exc sb' (is_id s)) = Fin m' /\ m' <= m + (match op with Choose id _ _ => if String.eqb (fst id) (is_inter s) then e6 else 0 | _ => 0 end).
Proof.
  intros M I O H Hs Em. assert (I' : inv1 sp sb') by (eapply inv1_step; eauto; eapply sapply_step; eauto).
  assert (SAME : (forall x, pts (exc sb' (is_id s)) x -> pts (exc sb (is_id s)) x) -> exists m', mes (exc sb' (is_id s)) = Fin m' /\ m' <= m + 0).
  { intros L. pose proof (mes_mono _ _ (exc_normal sp sb' (is_id s) I') (exc_normal sp sb (is_id s) I) L) as ML. rewrite Em in ML.
    pose proof (mes_nneg (exc sb' (is_id s))) as NN. unfold nneg in NN. destruct (mes (exc sb' (is_id s))) as [|r|]; unfold ele in ML, NN; try tauto. exists r. split; auto. qlra. }
  destruct op as [id v t|id v|k a]; cbn [sapply sop_ok] in *.
  - apply choose_inv in H as (u & o & [C1 C2 C3 (k & nk & bad & K1 & K2 & K3 & K4) _ _ _ (r & R & RE) (k' & r' & K' & R' & RE')]).
    pose proof I as [P Hh N D]. rewrite P in *. destruct (made_interside _ _ _ M C1) as (Hu & <-).
    destruct (made_opp _ _ M Hu) as (o' & O1 & O2 & Ho & NE & NS & IO & SI). rewrite C2 in O1. apply Ok_inv in O1 as <-.
    change (g_or (chosen_of sb (is_id u)) v = Ok r) in R. pose proof (opt_get _ _ _ _ K') as Kk'. fold (ok_of sb (is_id o)) in Kk'. rewrite <- Kk' in R'.
    pose proof (opt_get _ _ _ _ K1) as Kk. fold (ok_of sb (is_id u)) in Kk. rewrite <- Kk in K2.
    destruct (N (is_id u)) as (Nc & Nk). destruct (N (is_id o)) as (Nco & No). apply is_geom1d_normal in Nc, No, Nk, Nco. pose proof (is_geom1d_normal _ O) as Nv.
    pose proof (inv_nml _ _ Nk K2) as Nnk. pose proof (and_nml _ _ _ Nnk Nv K3) as Nbad.
    assert (IU : forall w, side_of sp w -> is_inter w = fst (is_id w)).
    { intros w (kk & it & H1 & H2). destruct (made_sides _ _ _ _ M H1 H2) as (-> & ->). reflexivity. }
    destruct (String.eqb_spec (fst (is_id u)) (is_inter s)) as [Q|Q].
    + destruct (measure_lt_mes _ _ Nbad K4) as (q & Eq & _ & Lq).
      assert (US : is_id s = is_id u \/ is_id s = is_id o).
      { destruct Hs as (kk & it & H1 & H2). destruct (made_sides _ _ _ _ M H1 H2) as (I1 & I2). destruct (made_two _ _ _ M H1) as (s0 & s1 & E & _ & _ & P0 & P1).
        pose proof Hu as (kk' & it' & G1 & G2). destruct (made_sides _ _ _ _ M G1 G2) as (J1 & J2).
        assert (kk' = kk) by (rewrite J2 in Q; cbn in Q; congruence). subst kk'.
        assert (it' = it). { destruct M as (fr & sp0 & F & C). destruct (created fr sp0 sp F C) as (_ & ND & _). apply (dget_nodup _ string_eqb_ok) in G1, H1; auto. congruence. }
        subst it'. rewrite E in H2, G2. destruct H2 as [<-|[<-|[]]], G2 as [<-|[<-|[]]]; auto; right; [rewrite P1 in C2|rewrite P0 in C2]; apply Ok_inv in C2; congruence. }
      enough (exists m', mes (exc sb' (is_id s)) = Fin m' /\ m' <= m + q) as (m' & X1 & X2) by (exists m'; split; auto; qlra).
      apply (mes_sub_bound _ (exc sb (is_id s)) bad); auto; [now apply (exc_normal sp)|now apply (exc_normal sp)|].
      intros x. rewrite !(exc_pts sp) by auto. rewrite (chosen_dset _ _ _ _ (is_id s) RE), (ok_dset _ _ _ _ (is_id s) RE').
      rewrite (and_pts _ _ _ x Nnk Nv K3), (inv_pts _ _ x Nk K2).
      destruct US as [->| ->].
      * rewrite (DictP.eqb_refl _ id2_eqb_ok). destruct (eqb_case _ id2_eqb_ok (is_id u) (is_id o)) as [(_ & B)|(-> & _)]; [congruence|].
        rewrite (or_pts _ _ _ x Nc Nv R). tauto.
      * rewrite (DictP.eqb_refl _ id2_eqb_ok). destruct (eqb_case _ id2_eqb_ok (is_id o) (is_id u)) as [(_ & B)|(-> & _)]; [congruence|].
        rewrite (sub_pts _ _ _ x No Nv R'). intros (X & Y). destruct (pts_dec (ok_of sb (is_id o)) x) as [Z|Z]; [|auto].
        destruct (pts_dec v x) as [W|W]; [|tauto]. right. split; auto. exact (D o u x Ho O2 X).
    + apply SAME. intros x. rewrite !(exc_pts sp) by auto. rewrite (chosen_dset _ _ _ _ (is_id s) RE), (ok_dset _ _ _ _ (is_id s) RE').
      destruct (eqb_case _ id2_eqb_ok (is_id s) (is_id u)) as [(_ & B)|(-> & _)]; [destruct Q; rewrite <- B; symmetry; now apply IU|].
      destruct (eqb_case _ id2_eqb_ok (is_id s) (is_id o)) as [(_ & B)|(-> & _)]; [|auto].
      destruct Q. rewrite <- (IU u Hu), <- IO, (IU o Ho), <- B. symmetry. now apply IU.
  - apply SAME. apply unchoose_inv in H as (u & [C1 C2 (c & Dc & F) _ _ C6 (k & r & K & R & RE)]). pose proof I as [P Hh N D]. rewrite P in *.
    destruct (made_interside _ _ _ M C1) as (Hu & <-).
    intros x. rewrite !(exc_pts sp) by auto. replace (chosen_of sb' (is_id s)) with (chosen_of sb (is_id s)) by (unfold chosen_of; now rewrite C6).
    rewrite (ok_dset _ _ _ _ (is_id s) RE). destruct (eqb_case _ id2_eqb_ok (is_id s) (is_id u)) as [(-> & B)|(-> & _)]; [|auto].
    pose proof (opt_get _ _ _ _ K) as Kk. fold (ok_of sb (is_id u)) in Kk. pose proof (opt_get _ _ _ _ Dc) as Kc. fold (chosen_of sb (is_id u)) in Kc.
    rewrite B. rewrite <- Kk in R. rewrite <- Kc in F. destruct (N (is_id u)) as (Nc & Nk). apply is_geom1d_normal in Nc, Nk. pose proof (is_geom1d_normal _ O) as Nv.
    rewrite (sub_pts _ _ _ x Nk Nv R). intros (X & Y). split; auto. intros Z. apply Y. split; auto. intros W.
    assert (BAD : pts [] x) by (apply (and_pts _ _ _ x Nc Nv F); auto). destruct BAD as (? & [] & _).
  - apply SAME. apply area_inv in H as [E1 E2 E3 E4 _ _]. unfold exc, chosen_of, ok_of. rewrite E2, E3. auto.
Qed.
Lemma exc_runs A sp s ops : forall sb sb' m, plex_made sp -> inv1 sp sb -> Forall sop_ok ops -> sruns A ops sb = Ok sb' -> side_of sp s ->
  mes (exc sb (is_id s)) = Fin m ->
  exists m', mes (exc sb' (is_id s)) = Fin m' /\ m' <= m + zq (Z.of_nat (n_choices (is_inter s) ops)) * e6.
Proof.
  induction ops as [|op ops IH]; intros sb sb' m M I F H Hs Em; cbn [sruns foldM] in H.
  - apply Ok_inv in H as <-. exists m. split; auto. cbn. change (zq 0) with 0. qlra.
  - apply bind_ok in H as (mid & H1 & H2). inversion F; subst. destruct (exc_step _ _ _ _ _ s m M I H3 H1 Hs Em) as (m1 & E1 & L1).
    assert (I' : inv1 sp mid) by (eapply inv1_step; eauto; eapply sapply_step; eauto).
    destruct (IH mid sb' m1) as (m2 & E2 & L2); auto. exists m2. split; auto. rewrite nc_cons, Nat2Z.inj_add.
    assert (zq_add : forall a b : Z, zq (a + b) = zq a + zq b). { intros a b. apply Qc_is_canon. unfold zq, Qcplus. cbn [this Q2Qc Qcplus]. rewrite !Qred_correct, inject_Z_plus. reflexivity. }
    rewrite zq_add. assert (0 <= e6) by (unfold e6; qlra).
    destruct op as [id v t|id v|k a]; [destruct (String.eqb (fst id) (is_inter s))| |]; cbn [Z.of_nat Pos.of_succ_nat] in *;
     change (zq 1) with 1 in *; change (zq 0) with 0 in *; clear - L1 L2; set (w := zq _) in *; set (e := e6) in *; clearbody w e; qnra.
Qed.

(** ** 2D: fingers without assumptions on the frame *)
Definition rot_ok (s : interside) : Prop := is_normal s = (snd (is_dir s), - fst (is_dir s)).
Lemma made_rot sp s : plex_made sp -> side_of sp s -> rot_ok s.
Proof.
  intros (fr & sp0 & F & C) (k & it & H & Hs). destruct (created fr sp0 sp F C) as (_ & _ & _ & G). destruct (proj1 (G k it) H) as (a & b & (d1 & o1 & os1) & (d2 & o2 & os2) & _ & _ & -> & ->).
  cbn in Hs. destruct Hs as [<-|[<-|[]]]; reflexivity.
Qed.
Lemma polygon_q_ok l g : polygon_q true l = Ok g -> is_geom2d g /\ area_of l <> 0.
Proof.
  unfold polygon_q. intros H. apply bind_ok in H as (a & H1 & H). apply area_ok_inv in H1 as (N & ->).
  apply bind_ok in H as (s & H2 & H). apply bind_ok in H as (b & _ & H). apply bind_ok in H as (u & _ & H). apply Ok_inv in H as <-.
  apply SPWH_ok in H2 as (R & Hh & ->). split.
  - constructor; [|constructor]. apply spwh_ok_iff. cbn [outer holes]. auto.
  - intros E. destruct R as (_ & R & _). rewrite E in R. destruct (qltb_spec 0 0) as [L|L]; [qlra|]. rewrite E in R. qlra.
Qed.
Lemma finger_frame s f0 f1 i g : rot_ok s -> finger_polygon s f0 f1 i = Ok g -> is_geom2d g /\ frame_ok s /\ offset_at s f0 <> offset_at s f1.
Proof.
  intros R. destruct i as [[|a|] [|b|]]; cbn [finger_polygon]; try discriminate. intros H. apply polygon_q_ok in H as (G & NZ). split; auto.
  rewrite (area_of_fan (0, 0)) in NZ. unfold fan2, cyclic_pairs, finger_coord, offset_at in *. rewrite R in NZ. cbn in NZ.
  unfold rot_ok in R. unfold frame_ok. destruct (is_dir s) as [dx dy] eqn:D. split.
  - split; [|exact R]. intros E. apply pair_inv in E as (-> & ->). apply NZ. unfold orient, cross, padd, pscale, vsub. cbn [fst snd]. ring.
  - intros E. apply NZ. unfold orient, cross, padd, pscale, vsub. cbn [fst snd].
    transitivity (- (qhalf * (qq 2 1 * (dx * dx + dy * dy) * (a - b) * ((is_min s + (is_max s - is_min s) * f0) - (is_min s + (is_max s - is_min s) * f1))))).
    + replace (qq 2 1) with (1 + 1) by qlra. ring.
    + rewrite E. ring.
Qed.
Lemma fingers_any A s w f0 f1 g : arr_sound A -> rot_ok s -> normal w -> make_fingers A s w f0 f1 = Ok g ->
  is_geom2d g /\ (forall p, in_band s w f0 f1 p -> ~ on_bd g p /\ in_geom g p) /\ (forall p, ~ on_bd g p -> (in_geom g p <-> in_band s w f0 f1 p)).
Proof.
  intros SA R N H. destruct w as [|i w].
  - unfold make_fingers in H. cbn [mapM bind] in H. apply g2_union_ok in H; auto. destruct H as (G & B & I). split; auto.
    assert (OFF : forall p, off_all [] p) by (intros p x []). split.
    + intros p ((j & [] & _) & _).
    + intros p _. rewrite (I p (OFF p)). split; [intros (x & [] & _)|intros ((j & [] & _) & _)].
  - pose proof H as H'. unfold make_fingers in H'. apply bind_ok in H' as (gs & H1 & _). cbn [mapM] in H1. apply bind_ok in H1 as (g1 & H1 & _).
    apply finger_frame in H1 as (_ & F & O); auto. destruct (make_fingers_ok A s _ f0 f1 g SA F O N H) as (G & _ & P1 & P2 & _). auto.
Qed.

(** ** C53, C51: the sheets *)
Lemma geom_at_dset m k r j : geom_at (dset String.eqb k r m) j = if String.eqb j k then r else geom_at m j.
Proof. unfold geom_at. rewrite (dget_dset _ string_eqb_ok). now destruct (String.eqb j k). Qed.
Lemma geom_at_get m k x : dget String.eqb k m = Some x -> geom_at m k = x.
Proof. apply opt_get. Qed.
(** off finitely many segments, sheet_ok only loses and sheet_chosen only gains points that were ok *)
Definition sheets_move (sb sb' : sbuild) : Prop := exists S, forall p, off_segs S p -> forall k,
  (in_geom (geom_at (sb_sok sb') k) p -> in_geom (geom_at (sb_sok sb) k) p) /\
  (in_geom (geom_at (sb_schosen sb) k) p -> in_geom (geom_at (sb_schosen sb') k) p) /\
  (in_geom (geom_at (sb_schosen sb') k) p -> in_geom (geom_at (sb_schosen sb) k) p \/ in_geom (geom_at (sb_sok sb) k) p).
Lemma sheets_move_refl sb : sheets_move sb sb.
Proof. exists []. intros p _ k. tauto. Qed.
Lemma sheets_move_trans a b c : sheets_move a b -> sheets_move b c -> sheets_move a c.
Proof.
  intros (S1 & H1) (S2 & H2). exists (S1 ++ S2). intros p Hp k. apply off_segs_app in Hp as (P1 & P2).
  destruct (H1 p P1 k) as (A1 & A2 & A3). destruct (H2 p P2 k) as (B1 & B2 & B3). split; [auto|split; [auto|]]. intros X. apply B3 in X as [X|X]; auto.
Qed.
Lemma op_segs gs P r : is_op gs P r -> exists S, forall p, off_segs S p -> (in_geom r p <-> P p).
Proof. intros (_ & _ & H). exists (flat_map all_segments gs). intros p Hp. apply H. now apply off_segs_all. Qed.

Lemma choose_2d A sp sb id v t sb' s o : arr_sound A -> plex_made sp -> sb_plex sb = sp -> inv2 sb -> is_geom1d v -> choose_did A sb id v t sb' s o ->
  inv2 sb' /\ exists S fs fo, is_geom2d fs /\ is_geom2d fo /\ make_fingers01 A o v = Ok fo /\ (t = false -> make_fingers01 A s v = Ok fs) /\
   forall p, off_segs S p ->
    (forall k, in_geom (geom_at (sb_schosen sb') k) p <->
        in_geom (geom_at (sb_schosen sb) k) p \/ (t = false /\ k = is_sheet s /\ in_geom (geom_at (sb_sok sb) k) p /\ in_geom fs p)) /\
    (forall k, in_geom (geom_at (sb_sok sb') k) p <-> in_geom (geom_at (sb_sok sb) k) p /\ ~ (k = is_sheet o /\ in_geom fo p)).
Proof.
  intros SA M P [G1 G2] V [C1 C2 C3 _ _ C6 C7 _ _]. rewrite P in *. destruct (made_interside _ _ _ M C1) as (Hs & <-).
  destruct (made_opp _ _ M Hs) as (o' & O1 & O2 & Ho & _). rewrite C2 in O1. apply Ok_inv in O1 as <-. apply is_geom1d_normal in V.
  destruct C7 as (fo & ko & ro & F1 & F2 & F3 & F4). destruct (fingers_any A o v 0 1 fo SA (made_rot _ _ M Ho) V F1) as (Gfo & _).
  pose proof (geom_at_get _ _ _ F2) as Ek. rewrite <- Ek in F3. apply g2_sub_ok in F3; auto. pose proof F3 as (Gro & _). apply op_segs in F3 as (S1 & F3).
  assert (SOK : forall k p, off_segs S1 p -> (in_geom (geom_at (sb_sok sb') k) p <-> in_geom (geom_at (sb_sok sb) k) p /\ ~ (k = is_sheet o /\ in_geom fo p))).
  { intros k p Hp. rewrite F4, geom_at_dset. destruct (String.eqb_spec k (is_sheet o)) as [->|NK]; [rewrite (F3 p Hp)|]; tauto. }
  assert (GOK : forall k, is_geom2d (geom_at (sb_sok sb') k)) by (intros k; rewrite F4, geom_at_dset; destruct (String.eqb k (is_sheet o)); auto).
  destruct t.
  - destruct C6 as (C6 & _). specialize (C6 eq_refl). split; [constructor; [rewrite C6; auto|auto]|]. exists S1, [], fo.
    split; [constructor|]. split; auto. split; auto. split; [discriminate|]. intros p Hp. split; [|intros k; now apply SOK]. intros k. rewrite C6. split; [auto|intros [X|(? & _)]; [auto|discriminate]].
  - destruct C6 as (_ & C6). destruct (C6 eq_refl) as (fs & ks & x & r & D1 & D2 & D3 & D4 & D5). clear C6.
    destruct (fingers_any A s v 0 1 fs SA (made_rot _ _ M Hs) V D1) as (Gfs & _).
    pose proof (geom_at_get _ _ _ D2) as Es. rewrite <- Es in D3. apply g2_and_ok in D3; auto. pose proof D3 as (Gx & _). apply op_segs in D3 as (S2 & D3).
    change (g2_or A (geom_at (sb_schosen sb) (is_sheet s)) x = Ok r) in D4. apply g2_or_ok in D4; auto. pose proof D4 as (Gr & _). apply op_segs in D4 as (S3 & D4).
    split. { constructor; auto. intros k. rewrite D5, geom_at_dset. destruct (String.eqb k (is_sheet s)); auto. }
    exists (S1 ++ S2 ++ S3), fs, fo. split; auto. split; auto. split; auto. split; auto. intros p Hp. apply off_segs_app in Hp as (P1 & Hp). apply off_segs_app in Hp as (P2 & P3).
    split; [|intros k; now apply SOK]. intros k. rewrite D5, geom_at_dset. destruct (String.eqb_spec k (is_sheet s)) as [->|NK]; [rewrite (D4 p P3), (D3 p P2)|]; tauto.
Qed.
Lemma sapply_2d A sp sb op sb' : arr_sound A -> plex_made sp -> sb_plex sb = sp -> inv2 sb -> sop_ok op -> sapply A sb op = Ok sb' ->
  inv2 sb' /\ sheets_move sb sb' /\ sb_plex sb' = sp.
Proof.
  intros SA M P G O H. destruct op as [id v t|id v|k a]; cbn [sop_ok sapply] in *.
  - apply choose_inv in H as (s & o & CD). destruct (choose_2d _ _ _ _ _ _ _ _ _ SA M P G O CD) as (G' & S & fs & fo & _ & _ & _ & _ & H). split; auto.
    split; [|destruct CD; congruence]. exists S. intros p Hp j. destruct (H p Hp) as (H1 & H2). rewrite H1, H2. tauto.
  - apply unchoose_inv in H as (u & [C1 C2 _ C4 C5 _ _]). split; [destruct G; constructor; [rewrite C4|rewrite C5]; auto|]. split; [|congruence].
    exists []. intros p _ j. rewrite C4, C5. tauto.
  - apply area_inv in H as [E1 _ _ E4 _ (x & r & D & R & E)]. destruct G as [G1 G2].
    pose proof (geom_at_get _ _ _ D) as Ek. rewrite <- Ek in R. apply g2_sub_ok in R; auto. pose proof R as (Gr & _). apply op_segs in R as (S & R).
    split; [constructor; [rewrite E4; auto|intros j; rewrite E, geom_at_dset; destruct (String.eqb j k); auto]|]. split; [|congruence].
    exists S. intros p Hp j. rewrite E4, E, geom_at_dset. destruct (String.eqb_spec j k) as [->|]; [rewrite (R p Hp)|]; tauto.
Qed.
Lemma sruns_2d A sp ops : forall sb sb', arr_sound A -> plex_made sp -> sb_plex sb = sp -> inv2 sb -> Forall sop_ok ops -> sruns A ops sb = Ok sb' ->
  inv2 sb' /\ sheets_move sb sb' /\ sb_plex sb' = sp.
Proof.
  induction ops as [|op ops IH]; intros sb sb' SA M P G F H; cbn [sruns foldM] in H.
  - apply Ok_inv in H as <-. auto using sheets_move_refl.
  - apply bind_ok in H as (m & H1 & H2). inversion F; subst. destruct (sapply_2d A (sb_plex sb) sb op m SA M eq_refl G H3 H1) as (G' & M1 & P').
    destruct (IH m sb' SA M P' G' H4 H2) as (G'' & M2 & P''). split; auto. split; auto. eapply sheets_move_trans; eauto.
Qed.
Lemma sstep_2d A sp sb sb' : arr_sound A -> plex_made sp -> plex_geoms sp -> sb_plex sb = sp -> inv2 sb -> sstep A (geoms_of A) sb sb' ->
  inv2 sb' /\ sheets_move sb sb' /\ sb_plex sb' = sp.
Proof.
  intros SA M PG P G S. destruct S as [sb id v t sb' V H|sb id v sb' V H|sb id v iok V H|sb k a sok GA H].
  - exact (sapply_2d A sp sb (Choose id v t) sb' SA M P G V H).
  - exact (sapply_2d A sp sb (Unchoose id v) sb' SA M P G V H).
  - split; [destruct G; constructor; auto|]. split; [exact (sheets_move_refl sb)|exact P].
  - rewrite P in GA. specialize (GA (fun k sh I => conj (fun _ => proj1 (PG k sh I)) (conj (fun _ => proj1 (proj2 (PG k sh I))) (fun _ => proj2 (proj2 (PG k sh I))))) (fun k => conj (fun _ => i2_ch _ G k) (fun _ => i2_ok _ G k)) SA). apply msub2_ok in H as (x & r & D & R & ->). destruct G as [G1 G2].
    pose proof (geom_at_get _ _ _ D) as Ek. rewrite <- Ek in R. apply g2_sub_ok in R; auto. pose proof R as (Gr & _). apply op_segs in R as (S & R). cbn [sb_plex sb_schosen sb_sok].
    split; [constructor; cbn [sb_schosen sb_sok]; [auto|intros j; rewrite geom_at_dset; destruct (String.eqb j k); auto]|]. split; [|exact P].
    exists S. cbn [sb_schosen sb_sok]. intros p Hp j. rewrite geom_at_dset. destruct (String.eqb_spec j k) as [->|]; [rewrite (R p Hp)|]; tauto.
Qed.
Lemma ssteps_2d A sp sb sb' : arr_sound A -> plex_made sp -> plex_geoms sp -> sb_plex sb = sp -> inv2 sb -> ssteps A (geoms_of A) sb sb' ->
  inv2 sb' /\ sheets_move sb sb' /\ sb_plex sb' = sp.
Proof.
  intros SA M PG P G H. induction H as [|x y z S IH T]; [auto using sheets_move_refl|]. destruct (IH P G) as (Gy & My & Py).
  destruct (sstep_2d A sp y z SA M PG Py Gy T) as (Gz & Mz & Pz). split; auto. split; auto. exact (sheets_move_trans _ _ _ My Mz).
Qed.
