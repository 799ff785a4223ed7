(** * The sheets that create_sheetbuild starts from *)
From Verif.Spec Require Import Plane Region PointSet1 Fingers.
From Verif.Model Require Import Sheetbuild.
From Verif.Proofs Require Import PyP PolyP Geom2dP Geom2dOps BufferP ExtOrd DictP Geom1dP Geom1dM SheetplexP FingerP SheetbuildP NearP.
From Verif.Props Require Import Geom1dProps SheetplexProps.
From Coq Require Import String.
Open Scope Qc_scope.

(** what a sheet may at most be *)
Definition slices_of (sp : sheetplex) (k : string) : geom2d := match dget String.eqb k (sp_sheets sp) with Some sh => sh_slices_max sh | None => [] end.

Lemma dict_of_get {X K V} (eqb : K -> K -> bool) (Q : eq_dec_b eqb) (key : X -> K) (f : X -> result V) l : forall m m',
  foldM (fun m x => v <- f x ;; Ok (dset eqb (key x) v m)) l m = Ok m' ->
  (NoDup (keys m) -> NoDup (keys m')) /\
  forall k v, dget eqb k m' = Some v -> dget eqb k m = Some v \/ exists x, In x l /\ key x = k /\ f x = Ok v.
Proof.
  induction l as [|x l IH]; intros m m' H; cbn [foldM] in H; [apply Ok_inv in H as <-; auto|].
  apply bind_ok in H as (m1 & H1 & H). apply bind_ok in H1 as (v & E & H1). apply Ok_inv in H1 as <-. destruct (IH _ _ H) as (N & G). split.
  - intros ND. apply N. now apply (nodup_dset _ Q).
  - intros k w W. apply G in W as [W|(y & Hy & W)]; [|right; exists y; cbn; auto]. rewrite (dget_dset _ Q) in W.
    destruct (eqb_case _ Q k (key x)) as [(QQ & E')|(QQ & E')]; rewrite QQ in W; [|auto]. apply some_inv in W as <-. right. exists x. cbn. auto.
Qed.
Lemma and_opposites_nodup sp l : forall iok iok', foldM (and_opposite sp) l iok = Ok iok' -> NoDup (keys iok) -> NoDup (keys iok').
Proof.
  induction l as [|s l IH]; intros iok iok' H N; cbn [foldM] in H; [now apply Ok_inv in H as <-|]. apply bind_ok in H as (m & F & H). apply (IH _ _ H).
  unfold and_opposite in F. apply bind_ok in F as (a & _ & F). apply bind_ok in F as (o & _ & F). apply bind_ok in F as (b & _ & F). apply bind_ok in F as (r & _ & F). apply Ok_inv in F as <-.
  now apply (nodup_dset _ id2_eqb_ok).
Qed.

Section Create.
Variable A : arr_impl.
Hypothesis SA : arr_sound A.
Variable fsqrt : Qc -> Qc.
Variable sp : sheetplex.
Hypothesis M : plex_made sp.
Hypothesis PG : plex_geoms sp.

Lemma made_sheets_fresh : NoDup (keys (sp_sheets sp)) /\ forall k s, In (k, s) (sp_sheets sp) -> sh_id s = k.
Proof.
  destruct M as (fr & sp0 & F & C). destruct (created fr sp0 sp F C) as (-> & _). destruct F as (_ & N & H). split; auto. intros k s I. now apply H in I.
Qed.
Lemma slices_at k sh : In (k, sh) (sp_sheets sp) -> slices_of sp k = sh_slices_max sh.
Proof.
  intros I. unfold slices_of. destruct made_sheets_fresh as (N & _). now rewrite (proj2 (dget_nodup _ string_eqb_ok k sh _ N) I).
Qed.
Lemma slices_geom k : is_geom2d (slices_of sp k).
Proof. unfold slices_of. destruct (dget String.eqb k (sp_sheets sp)) as [sh|] eqn:E; [|constructor]. apply dget_in in E; [|exact string_eqb_ok]. now apply PG in E. Qed.
Lemma slices_value sh : In sh (values (sp_sheets sp)) -> is_geom2d (sh_face0 sh) /\ is_geom2d (sh_face1 sh) /\ is_geom2d (sh_slices_max sh) /\ slices_of sp (sh_id sh) = sh_slices_max sh.
Proof.
  intros I. apply in_map_iff in I as ((k & s) & E & I). cbn in E. subst s. destruct (PG k sh I) as (G1 & G2 & G3). split; auto. split; auto. split; auto.
  apply slices_at. destruct made_sheets_fresh as (_ & H). now rewrite (H _ _ I).
Qed.
(** both initial areas are geometries within the slices *)
Definition bounded_by (g m : geom2d) : Prop := is_geom2d g /\ exists S, forall p, off_segs S p -> in_geom g p -> in_geom m p.
Lemma init_chosen_within sh r : In sh (values (sp_sheets sp)) -> init_chosen A fsqrt sh = Ok r -> bounded_by r (slices_of sp (sh_id sh)).
Proof.
  intros I H. destruct (slices_value sh I) as (G0 & G1 & G2 & ->). unfold init_chosen in H. apply bind_ok in H as (b & H1 & H). apply bind_ok in H as (b' & H2 & H). apply bind_ok in H as (m & H3 & H).
  apply g2_and_ok in H1; auto. apply buffer_geom in H2; auto; [|apply H1]. apply buffer_zero in H3 as ->. apply g2_and_ok in H; auto. pose proof H as (Gr & _). apply op_segs in H as (S & H).
  split; auto. exists S. intros p Hp X. now apply H in X.
Qed.
Lemma init_ok_within rad sh r : In sh (values (sp_sheets sp)) -> init_ok A fsqrt rad sh = Ok r -> bounded_by r (slices_of sp (sh_id sh)).
Proof.
  intros I H. destruct (slices_value sh I) as (G0 & G1 & G2 & ->). unfold init_ok in H. apply bind_ok in H as (f0 & H1 & H). apply bind_ok in H as (f1 & H2 & H). apply bind_ok in H as (b & H3 & H). apply bind_ok in H as (m & H4 & H).
  apply buffer_geom in H1; auto. apply buffer_geom in H2; auto. apply g2_and_ok in H3; auto. apply buffer_zero in H4 as ->. apply g2_and_ok in H; auto; [|apply H3]. pose proof H as (Gr & _). apply op_segs in H as (S & H).
  split; auto. exists S. intros p Hp X. now apply H in X.
Qed.
Lemma bounded_nil k : bounded_by [] k.
Proof. split; [constructor|]. exists []. intros p _ (s & [] & _). Qed.
(** removing the joints *)
Lemma carve_all l : (forall id v, In (id, v) l -> is_geom1d v) -> forall sc sc', (forall k, is_geom2d (geom_at sc k)) -> foldM (carve A sp) l sc = Ok sc' ->
  (forall k, is_geom2d (geom_at sc' k)) /\ exists S, forall p, off_segs S p -> forall k, in_geom (geom_at sc' k) p <->
    in_geom (geom_at sc k) p /\ forall id v s, In (id, v) l -> sp_interside sp id = Ok s -> is_sheet s = k -> ~ in_band s v 0 1 p.
Proof.
  induction l as [|(id & v) l IH]; intros GV sc sc' G H; cbn [foldM] in H.
  - apply Ok_inv in H as <-. split; auto. exists []. intros p _ k. split; [intros X; split; auto; intros id v s []|tauto].
  - apply bind_ok in H as (sc1 & H1 & H). unfold carve in H1. cbn [fst snd] in H1. apply bind_ok in H1 as (s & Es & H1). apply bind_ok in H1 as (c & C & H1). apply bind_ok in H1 as (f & F & H1). apply bind_ok in H1 as (d & D & H1). apply Ok_inv in H1 as <-.
    destruct (made_interside _ _ _ M Es) as (Hs & Eid). pose proof (GV id v (or_introl eq_refl)) as Gv. apply is_geom1d_normal in Gv. destruct (fingers_any A s v 0 1 f SA (made_rot _ _ M Hs) Gv F) as (Gf & _ & Pf).
    apply dgetr_ok in C. apply geom_at_get in C. rewrite <- C in D. apply g2_sub_ok in D; auto. pose proof D as (Gd & _). apply op_segs in D as (S1 & D).
    assert (G1 : forall k, is_geom2d (geom_at (dset String.eqb (is_sheet s) d sc) k)) by (intros k; rewrite geom_at_dset; destruct (String.eqb k (is_sheet s)); auto).
    destruct (IH (fun i w I => GV i w (or_intror I)) _ _ G1 H) as (G' & S2 & H2). split; auto. exists (S1 ++ S2 ++ all_segments f). intros p Hp k.
    apply off_segs_app in Hp as (P1 & Hp). apply off_segs_app in Hp as (P2 & P3). rewrite (H2 p P2 k), geom_at_dset.
    assert (NB : ~ on_bd f p) by (intros X; apply on_bd_segments in X as (e & E & X); exact (P3 e E X)). specialize (Pf p NB).
    destruct (String.eqb_spec k (is_sheet s)) as [->|NK].
    + rewrite (D p P1), Pf. split.
      * intros ((X & Y) & Z). split; auto. intros i w t [E|I] Et Hk; [|exact (Z i w t I Et Hk)]. injection E as <- <-. rewrite Es in Et. apply Ok_inv in Et as <-. exact Y.
      * intros (X & Z). split; [split; auto; exact (Z id v s (or_introl eq_refl) Es eq_refl)|]. intros i w t I. exact (Z i w t (or_intror I)).
    + split; intros (X & Z); (split; [exact X|]).
      * intros i w t [E|I] Et Hk; [|exact (Z i w t I Et Hk)]. injection E as <- <-. rewrite Es in Et. apply Ok_inv in Et as <-. congruence.
      * intros i w t I. exact (Z i w t (or_intror I)).
Qed.
Lemma create_2d rad sb : create_sheetbuild A fsqrt sp rad = Ok sb ->
  inv2 sb /\ sb_plex sb = sp /\ exists S, forall p, off_segs S p -> 
    (forall k, in_geom (geom_at (sb_schosen sb) k) p -> in_geom (slices_of sp k) p) /\
    (forall k, in_geom (geom_at (sb_sok sb) k) p -> in_geom (slices_of sp k) p) /\
    (forall s, side_of sp s -> in_band s (ok_of sb (is_id s)) 0 1 p -> ~ in_geom (geom_at (sb_schosen sb) (is_sheet s)) p).
Proof.
  intros H. pose proof (proj1 (create_inv1 _ _ _ _ _ M H)) as L. apply create_parts in H as (sc0 & iok & E1 & E2 & _ & E3 & E4 & E5 & P).
  pose proof (dict_of_get _ string_eqb_ok _ _ _ _ _ E1) as (_ & D1). pose proof (dict_of_get _ string_eqb_ok _ _ _ _ _ E2) as (_ & D2). pose proof (dict_of_get _ id2_eqb_ok _ _ _ _ _ E3) as (N3 & _).
  specialize (N3 ltac:(constructor)). pose proof (and_opposites_nodup _ _ _ _ E4 N3) as N.
  assert (B1 : forall k, bounded_by (geom_at sc0 k) (slices_of sp k)).
  { intros k. unfold geom_at. destruct (dget String.eqb k sc0) as [g|] eqn:E; [|apply bounded_nil]. apply D1 in E as [E|(sh & I & <- & E)]; [discriminate|]. cbn [opt]. exact (init_chosen_within sh g I E). }
  assert (B2 : forall k, bounded_by (geom_at (sb_sok sb) k) (slices_of sp k)).
  { intros k. unfold geom_at. destruct (dget String.eqb k (sb_sok sb)) as [g|] eqn:E; [|apply bounded_nil]. apply D2 in E as [E|(sh & I & <- & E)]; [discriminate|]. cbn [opt]. exact (init_ok_within rad sh g I E). }
  assert (GV : forall id v, In (id, v) (sb_iok sb) -> is_geom1d v).
  { intros id v I. apply (dget_nodup _ id2_eqb_ok _ _ _ N) in I. pose proof (proj2 (iv_normal _ _ L id)) as G. unfold ok_of in G. now rewrite I in G. }
  destruct (carve_all _ GV sc0 (sb_schosen sb) (fun k => proj1 (B1 k)) E5) as (G' & S0 & H0).
  split; [constructor; [exact G'|exact (fun k => proj1 (B2 k))]|]. split; auto.
  assert (FIN : forall gs : list string, exists S, forall p, off_segs S p -> forall k, In k gs -> (in_geom (geom_at sc0 k) p -> in_geom (slices_of sp k) p) /\ (in_geom (geom_at (sb_sok sb) k) p -> in_geom (slices_of sp k) p)).
  { induction gs as [|k gs (S & HS)]; [exists []; intros p _ k []|]. destruct (B1 k) as (_ & S1 & H1). destruct (B2 k) as (_ & S2 & H2). exists (S1 ++ S2 ++ S). intros p Hp.
    apply off_segs_app in Hp as (P1 & Hp). apply off_segs_app in Hp as (P2 & P3). intros j [<-|J]; auto. }
  destruct (FIN (keys sc0 ++ keys (sb_sok sb))) as (S1 & H1). exists (S0 ++ S1). intros p Hp. apply off_segs_app in Hp as (P0 & P1).
  assert (OUT : forall m k, ~ In k (keys m) -> geom_at m k = []).
  { intros m k NI. unfold geom_at. destruct (dget String.eqb k m) as [g|] eqn:E; [|reflexivity]. destruct NI. apply (dget_some _ string_eqb_ok). eauto. }
  split; [|split].
  - intros k X. apply (H0 p P0 k) in X as (X & _). destruct (in_dec string_dec k (keys sc0)) as [I|NI]; [|rewrite OUT in X by auto; destruct X as (s & [] & _)].
    apply (proj1 (H1 p P1 k (in_or_app _ _ _ (or_introl I)))). exact X.
  - intros k X. destruct (in_dec string_dec k (keys (sb_sok sb))) as [I|NI]; [|rewrite OUT in X by auto; destruct X as (s & [] & _)].
    apply (proj2 (H1 p P1 k (in_or_app _ _ _ (or_intror I)))). exact X.
  - intros s Hs B X. apply (H0 p P0) in X as (_ & X). destruct (iv_has _ _ L s Hs) as (_ & K). apply (dget_some _ id2_eqb_ok) in K as (v & K).
    unfold ok_of in B. rewrite K in B. cbn [opt] in B. refine (X (is_id s) v s _ _ eq_refl B); [exact (dget_in _ id2_eqb_ok _ _ _ K)|]. destruct (made_opp _ _ M Hs) as (o & _ & _ & _ & _ & _ & _ & E). exact E.
Qed.
End Create.
