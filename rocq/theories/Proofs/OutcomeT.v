(** * Which exceptions heuristic_multi_inter_single_decisions can raise *)
From Verif.Spec Require Import Plane Region PointSet1 Fingers Crisp.
From Verif.Model Require Import Arrangement2d Heuristics.
From Verif.Proofs Require Import PyP ExtOrd DictP Geom1dP Geom1dM Geom2dP Geom2dOps ArrSoundP SheetplexP FingerP SheetbuildP CreateP HeuristicsP ClusterP HeuStepsP StepsP TrimP CrispP CrispQ BufSharpP BufSharpQ RunSharpP OutcomeP OutcomeQ OutcomeR OutcomeS.
From Verif.Props Require Import Geom1dProps Primitive2dProps SheetplexProps Geom2dProps CrispProps.
From Coq Require Import String Permutation.
Open Scope Qc_scope.

Section T.
Variable E : exn -> Prop.
Hypothesis EA : E AssertionError.
Hypothesis ET : E TypeError.
Variable orc : list segment -> nat -> nat -> nat.
Variable fsqrt : Qc -> Qc.
Hypothesis F1 : 0 < fsqrt 1.
Hypothesis F2 : fsqrt 1 < fsqrt (zq 2).
Hypothesis F3 : fsqrt (zq 2) < zq 2 * fsqrt 1.
Let A := segment_arrangement orc.
Variable sp : sheetplex.
Hypothesis M : plex_made sp.
Hypothesis PN : plex_in neat sp.
Let OC : op_closed A fsqrt neat := neat_closed orc fsqrt F1 F2 F3.
Notation good := (good sp).
Let e_or := e_or E EA orc.
Let e_and := e_and E EA orc.
Let e_sub := e_sub E EA orc.
Let e_fing := e_fing E EA orc.
Let e_area := e_area E EA.
Let e_buf := e_buf E EA orc fsqrt F1 F2 F3.
Let e_proj := e_proj E EA.
Let n_fing := n_fing orc fsqrt F1 F2 F3 sp M.
Let e_hcheck := e_hcheck E EA ET orc fsqrt F1 F2 F3 sp M PN.
Let e_choose := e_choose E EA orc fsqrt F1 F2 F3 sp M.
Let e_unchoose := e_unchoose E sp M.
Let good_steps := good_steps orc sp M PN.
Let sheet_val := sheet_val sp M PN.
Let sheet_key := sheet_key sp M PN.
Let sheet_of := sheet_of_side sp M.
Let good_choose := good_choose orc sp M PN.
Let good_unchoose := good_unchoose orc sp M PN.
Hypothesis EX : E AttributeError.
Hypothesis EP : E PlainException.

Definition post {X} (Q : X -> Prop) (r : result X) : Prop := match r with Ok x => Q x | Err e => E e end.
Lemma post_bind {X Y} (P : X -> Prop) (Q : Y -> Prop) (r : result X) (k : X -> result Y) : post P r -> (forall x, P x -> post Q (k x)) -> post Q (bind r k).
Proof. intros H K. destruct r as [x|e]; cbn [bind]; [now apply K|exact H]. Qed.
Lemma post_of {X} (r : result X) (Q : X -> Prop) : errs E r -> (forall x, r = Ok x -> Q x) -> post Q r.
Proof. intros H K. destruct r as [x|e]; cbn; [now apply K|exact H]. Qed.
Lemma post_foldM {X S} (Q : S -> Prop) (f : S -> X -> result S) l : (forall s x, In x l -> Q s -> post Q (f s x)) -> forall s, Q s -> post Q (foldM f l s).
Proof.
  induction l as [|x l IH]; intros H s Hs; cbn [foldM]; [exact Hs|]. apply (post_bind Q); [apply H; [now left|auto]|]. intros s' Hs'. apply IH; auto. intros t y Iy Ht. apply H; auto. now right.
Qed.
Lemma post_mapM {X Y} (P : X -> Y -> Prop) (f : X -> result Y) l : (forall x, In x l -> post (P x) (f x)) -> post (Forall2 P l) (mapM f l).
Proof.
  induction l as [|x l IH]; intros H; cbn [mapM]; [constructor|]. apply (post_bind (P x)); [apply H; now left|]. intros y Hy. apply (post_bind (Forall2 P l)); [apply IH; intros z Iz; apply H; now right|]. intros ys Hys. now constructor.
Qed.
Lemma post_errs {X} (Q : X -> Prop) r : post Q r -> errs E r.
Proof. destruct r; cbn; auto. Qed.

(** ** the interactions *)
Definition ia_good (i : interaction) : Prop := ia_ok i /\ (exists s, side_of sp s /\ is_id s = ia_side i) /\ exists s, side_of sp s /\ is_id s = ia_other i.
Definition ias (m : dict string (list interaction)) : Prop := Forall (fun e => Forall ia_good (snd e)) m.
Lemma ias_add m k i : ias m -> ia_good i -> ias (add_ia m k i).
Proof.
  intros F Hi. unfold add_ia. apply Forall_forall. intros e He. apply (in_dset _ string_eqb_ok) in He as [->|(He & _)]; [|unfold ias in F; rewrite Forall_forall in F; auto]. cbn [snd].
  apply Forall_app. split; [|constructor; [exact Hi|constructor]]. destruct (dget String.eqb k m) as [l|] eqn:D; [|constructor]. apply (dget_in _ string_eqb_ok) in D. unfold ias in F. rewrite Forall_forall in F. exact (F _ D).
Qed.
Lemma p_interact2 sb i fi m j : good sb -> side_of sp i -> side_of sp j -> neat fi -> ias m -> post ias (interact2 A sb i fi m j).
Proof.
  intros G Si Sj Nf F. unfold interact2. destruct (lk_iok sp sb j (gd_legal _ _ G) Sj) as (-> & Nk). cbn [bind]. apply (post_bind neat); [apply post_of; [apply e_fing|intros f Ff; exact (n_fing _ _ _ Sj Nk Ff)]|]. intros fj Nj.
  apply (post_bind neat); [apply post_of; [now apply e_and|intros d D; exact (oc_and _ _ _ OC _ _ _ Nf Nj D)]|]. intros d Nd. destruct (g2_is_empty d); [exact F|].
  apply (post_bind is_geom1d); [apply post_of; [now apply e_proj|intros x; apply n_proj]|]. intros di Ni. apply (post_bind is_geom1d); [apply post_of; [now apply e_proj|intros x; apply n_proj]|]. intros dj Njj.
  apply ias_add; [apply ias_add; [exact F|]|]; (split; [split; assumption|split; cbn [ia_side ia_other]; [eexists; split; [|reflexivity]; assumption|eexists; split; [|reflexivity]; assumption]]).
Qed.
Lemma p_interact_loop sb l : good sb -> (forall s, In s l -> side_of sp s) -> forall m, ias m -> post ias (interact_loop A sb l m).
Proof.
  intros G. induction l as [|i l IH]; intros S m F; cbn [interact_loop]; [exact F|]. pose proof (S i (or_introl eq_refl)) as Si. destruct (lk_iok sp sb i (gd_legal _ _ G) Si) as (-> & Nk). cbn [bind].
  apply (post_bind neat); [apply post_of; [apply e_fing|intros f Ff; exact (n_fing _ _ _ Si Nk Ff)]|]. intros fi Ni. apply (post_bind ias).
  - apply post_foldM; auto. intros m' j Ij Fm. apply p_interact2; auto. apply S. now right.
  - intros m' Fm. apply IH; auto. intros s Is. apply S. now right.
Qed.
Lemma p_interactions sb : good sb -> post ias (find_interactions A sb).
Proof.
  intros G. unfold find_interactions. apply post_foldM; [|constructor]. intros m sh _ F. apply p_interact_loop; auto. rewrite (iv_plex _ _ (gd_legal _ _ G)). intros s Is. exact (sides_in sp M _ s Is).
Qed.

(** ** the clusters *)
Definition cgood (c : cluster) : Prop := cgeom c /\ c <> [] /\ forall k, In k (keys c) -> In k (keys (sp_inters sp)).
Definition mgood (m : dict string cluster) : Prop := NoDup (keys m) /\ forall k c, In (k, c) m -> cgood c.
Lemma dset_ne {V} k (v : V) m : dset String.eqb k v m <> [].
Proof. destruct m as [|(j, w) m]; cbn; [discriminate|]. destruct (String.eqb k j); discriminate. Qed.
Lemma side_inter s : side_of sp s -> In (is_inter s) (keys (sp_inters sp)).
Proof. intros (k & it & I1 & I2). destruct (made_sides sp k it s M I1 I2) as (-> & _). apply in_map_iff. exists (k, it). auto. Qed.
Lemma p_cmap_of i : ia_good i -> post cgood (cmap_of sp i).
Proof.
  intros ((R1 & R2) & (s & S & E1) & (o & O & E2)). unfold cmap_of. rewrite <- E1, <- E2. destruct (lk_opp sp M s S) as (_ & _ & _ & -> & _). destruct (lk_opp sp M o O) as (_ & _ & _ & -> & _). cbn [bind post]. split; [|split; [apply dset_ne|]].
  - apply cgeom_dset; auto. intros j g [H|[]]. apply pair_inv in H as (_ & <-). exact R1.
  - intros k K. apply (in_keys_dset _ string_eqb_ok) in K as [->|[<-|[]]]; now apply side_inter.
Qed.
Lemma p_cmap_and v c : cgeom v -> cgeom c -> errs E (cmap_and v c).
Proof.
  intros V C. unfold cmap_and. induction v as [|(k, g) v IH]; cbn [map_and]; [exact I|]. assert (V' : cgeom v) by (intros j h Hj; apply (V j h); now right). destruct (dget String.eqb k c) as [g2|] eqn:D; [|now apply IH].
  apply (dget_in _ string_eqb_ok) in D. apply errs_bind; [apply errs_g_and; [exact (V k g (or_introl eq_refl))|exact (C _ _ D)]|]. intros x _. apply errs_bind; [now apply IH|intros; exact I].
Qed.
Lemma p_belongs m c : mgood m -> cgeom c -> post (fun l => NoDup l /\ incl l (keys m)) (belongs_to m c).
Proof.
  intros (ND & MG) C. induction m as [|(k, v) m IH]; cbn [belongs_to]; [split; [constructor|intros ? []]|]. cbn in ND. inversion ND as [|? ? Nk ND']; subst.
  apply (post_bind (fun _ => True)); [apply post_of; auto; apply p_cmap_and; auto; exact (proj1 (MG k v (or_introl eq_refl)))|]. intros x _.
  apply (post_bind (fun l => NoDup l /\ incl l (keys m))); [apply IH; auto; intros j d Hj; apply (MG j d); now right|]. intros l (N & J). cbn [post]. destruct x; [split; auto; intros y Hy; right; auto|].
  split; [constructor; auto|]. intros y [<-|Hy]; [now left|right; auto].
Qed.
Lemma p_cmap_or c1 c2 : cgood c1 -> cgood c2 -> post cgood (cmap_or c1 c2).
Proof.
  intros C1 (G2 & _ & K2). unfold cmap_or, map_or. apply post_foldM; auto. intros c (k, v) Ik (G & _ & K). cbn [fst snd]. unfold map_or_geom.
  assert (Go : is_geom1d (match dget String.eqb k c with Some x => x | None => [] end)) by (destruct (dget String.eqb k c) as [x|] eqn:D; [exact (G _ _ (dget_in _ string_eqb_ok _ _ _ D))|exact is_geom1d_empty]).
  apply (post_bind is_geom1d); [apply post_of; [apply errs_g_or; auto; exact (G2 _ _ Ik)|intros r R; exact (is_geom1d_or _ _ _ Go (G2 _ _ Ik) R)]|]. intros r Nr. cbn [post]. split; [now apply cgeom_dset|]. split; [apply dset_ne|].
  intros j Hj. apply (in_keys_dset _ string_eqb_ok) in Hj as [->|Hj]; auto. apply K2. apply in_map_iff. exists (k, v). auto.
Qed.
Lemma p_cmap_or1 c1 c2 : cgeom c1 -> cgeom c2 -> post cgeom (cmap_or c1 c2).
Proof.
  intros C1 G2. unfold cmap_or, map_or. apply post_foldM; auto. intros c (k, v) Ik G. cbn [fst snd]. unfold map_or_geom.
  assert (Go : is_geom1d (match dget String.eqb k c with Some x => x | None => [] end)) by (destruct (dget String.eqb k c) as [x|] eqn:D; [exact (G _ _ (dget_in _ string_eqb_ok _ _ _ D))|exact is_geom1d_empty]).
  apply (post_bind is_geom1d); [apply post_of; [apply errs_g_or; auto; exact (G2 _ _ Ik)|intros r R; exact (is_geom1d_or _ _ _ Go (G2 _ _ Ik) R)]|]. intros r Nr. cbn [post]. now apply cgeom_dset.
Qed.
Lemma mgood_dset m k c : mgood m -> cgood c -> mgood (dset String.eqb k c m).
Proof. intros (N & G) C. split; [now apply (nodup_dset _ string_eqb_ok)|]. intros j d H. apply (in_dset _ string_eqb_ok) in H as [H|(H & _)]; [apply pair_inv in H as (_ & ->); auto|exact (G j d H)]. Qed.
Lemma mgood_get m k : mgood m -> In k (keys m) -> exists c, cget k m = Ok c /\ cgood c.
Proof. intros (N & G) H. apply (dget_some _ string_eqb_ok) in H as (c & D). exists c. split; [now apply dgetr_ok|]. exact (G _ _ (dget_in _ string_eqb_ok _ _ _ D)). Qed.
Lemma p_merge b0 rest : forall m, NoDup rest -> ~ In b0 rest -> mgood m -> In b0 (keys m) -> incl rest (keys m) -> post mgood (foldM (merge_into b0) rest m).
Proof.
  induction rest as [|k rest IH]; intros m ND NB G B J; cbn [foldM]; [exact G|]. inversion ND as [|? ? Nk ND']; subst. unfold merge_into at 1.
  destruct (mgood_get m b0 G B) as (c0 & -> & C0), (mgood_get m k G (J k (or_introl eq_refl))) as (ck & -> & CK). cbn [bind].
  apply (post_bind (fun m' => mgood m' /\ In b0 (keys m') /\ incl rest (keys m'))).
  - apply (post_bind cgood); [now apply p_cmap_or|]. intros c C. cbn [post]. pose proof (mgood_dset m b0 c G C) as (N1 & G1). split; [split; [now apply nodup_ddel|]|].
    + intros j d H. unfold ddel in H. apply filter_In in H as (H & _). exact (G1 j d H).
    + split; [apply in_keys_ddel; split; [apply (in_keys_dset _ string_eqb_ok); auto|intros ->; apply NB; now left]|]. intros j Hj. apply in_keys_ddel. split; [apply (in_keys_dset _ string_eqb_ok); right; apply J; now right|intros ->; contradiction].
  - intros m' (G' & B' & J'). apply IH; auto. intros H. apply NB. now right.
Qed.
Lemma p_add st i : mgood (fst st) -> ia_good i -> post (fun st' => mgood (fst st')) (add_interaction sp st i).
Proof.
  intros G Hi. destruct st as (m & n). cbn [fst] in G. unfold add_interaction. apply (post_bind cgood); [now apply p_cmap_of|]. intros cm C. apply (post_bind (fun l => NoDup l /\ incl l (keys m))); [apply p_belongs; auto; apply C|].
  intros [|b0 rest] (N & J); [cbn [post fst]; now apply mgood_dset|]. inversion N as [|? ? Nb N']; subst. destruct (mgood_get m b0 G (J b0 (or_introl eq_refl))) as (c0 & -> & C0). cbn [bind]. apply (post_bind cgood); [now apply p_cmap_or|]. intros c Cc.
  apply (post_bind mgood); [|intros m' G'; exact G']. apply p_merge; auto; [now apply mgood_dset|apply (in_keys_dset _ string_eqb_ok); auto|]. intros j Hj. apply (in_keys_dset _ string_eqb_ok). right. apply J. now right.
Qed.
Lemma p_clusters m : ias m -> post mgood (find_interaction_clusters sp m).
Proof.
  intros F. unfold find_interaction_clusters. apply (post_bind (fun st : dict string cluster * nat => mgood (fst st))); [|intros (m' & n) G; exact G].
  apply post_foldM; [|split; [constructor|intros ? ? []]]. intros st e Ie G. apply post_foldM; auto. intros s i Hi Gs. apply p_add; auto. unfold ias in F. rewrite Forall_forall in F. specialize (F e Ie). rewrite Forall_forall in F. auto.
Qed.

(** ** one cluster *)
Definition clside (cl : cluster) (s : interside) : Prop := side_of sp s /\ In (is_inter s) (keys cl).
Lemma gcl_get cl k : cgeom cl -> In k (keys cl) -> exists g, gcl k cl = Ok g /\ is_geom1d g.
Proof. intros G H. apply (dget_some _ string_eqb_ok) in H as (c & D). exists c. split; [now apply dgetr_ok|]. exact (G _ _ (dget_in _ string_eqb_ok _ _ _ D)). Qed.
Lemma e_offer sb cl bys sh : good sb -> cgeom cl -> In sh (values (sp_sheets sp)) -> (forall k s, In s (match dget String.eqb k bys with Some l => l | None => [] end) -> clside cl s) -> errs E (sheet_offer A fsqrt sb cl bys sh).
Proof.
  intros G C Ish B. unfold sheet_offer. destruct (sheet_val sh Ish) as (J & _). apply (post_errs (fun _ => True)). apply (post_bind neat).
  - apply post_foldM; [|exact neat_nil]. intros f s Is Nf. destruct (B _ _ Is) as (S & K). destruct (gcl_get cl _ C K) as (g & -> & Ng), (lk_iok sp sb s (gd_legal _ _ G) S) as (-> & Nk). cbn [bind].
    apply (post_bind is_geom1d); [apply post_of; [now apply errs_g_and|intros r R; exact (is_geom1d_and _ _ _ Ng Nk R)]|]. intros r Nr. apply (post_bind neat); [apply post_of; [apply e_fing|intros x X; exact (n_fing _ _ _ S Nr X)]|]. intros x Nx.
    apply post_of; [now apply e_or|]. intros y Y. exact (oc_or _ _ _ OC _ _ _ Nf Nx Y).
  - intros f Nf. apply (post_bind (fun _ => True)); [apply post_of; auto; apply errs_g2_area; apply Nf|]. intros a _. apply (post_bind neat); [apply post_of; [now apply e_buf|intros x X; exact (oc_buffer _ _ _ OC _ _ _ Nf X)]|]. intros fb Nb.
    destruct (lk_sch sp sb _ G J) as (-> & Nc). cbn [bind]. apply (post_bind neat); [apply post_of; [now apply e_and|intros x X; exact (oc_and _ _ _ OC _ _ _ Nb Nc X)]|]. intros x Nx. apply (post_bind (fun _ => True)); [apply post_of; auto; apply errs_g2_area; apply Nx|]. intros; exact I.
Qed.
Lemma e_ext i : errs E (Geom1D_ext [i]).
Proof.
  destruct i as (a & b). unfold Geom1D_ext, Geom1D. cbn [map fst snd]. change (sort_by pylist_ltb [[Heuristics.num a; Heuristics.num b]]) with [[Heuristics.num a; Heuristics.num b]]. cbn [mapM conv_interval].
  apply errs_bind; [|intros; exact I]. apply errs_bind; [|intros; exact I]. apply errs_bind; [now apply errs_passert|]. intros u _. destruct a, b; exact I.
Qed.
Lemma p_extra sb cl l : good sb -> cgood cl -> (forall s, In s l -> clside cl s) -> post (fun o => match o with Some c => cgood c /\ incl (keys cl) (keys c) | None => True end) (find_extra sb cl l).
Proof.
  intros G C. induction l as [|s l IH]; intros B; cbn [find_extra]; [exact I|]. destruct (B s (or_introl eq_refl)) as (S & K). pose proof (gd_legal _ _ G) as L. rewrite (iv_plex _ _ L).
  destruct S as (k & it & I1 & I2). destruct (made_sides sp k it s M I1 I2) as (EI & _). assert (S : side_of sp s) by (exists k, it; auto).
  assert (D : dgetr String.eqb (is_inter s) (sp_inters sp) = Ok it). { apply dgetr_ok. rewrite EI. apply (dget_nodup _ string_eqb_ok); auto. destruct M as (fr & sp0 & FR & CR). exact (proj1 (proj2 (created fr sp0 sp FR CR))). }
  rewrite D. cbn [bind]. destruct (made_two sp k it M I1) as (_ & _ & _ & _ & -> & _). destruct (gcl_get cl _ (proj1 C) K) as (g & EG & Ng). rewrite EI in EG. rewrite EG. cbn [bind].
  apply (post_bind is_geom1d); [apply post_of; [apply errs_buffer_q|intros x X; exact (is_geom1d_buffer _ _ _ Ng X)]|]. intros mr Nm. destruct (lk_iok sp sb s L S) as (-> & Nk). cbn [bind].
  apply (post_bind is_geom1d); [apply post_of; [now apply errs_g_and|intros x X; exact (is_geom1d_and _ _ _ Nm Nk X)]|]. intros mr2 Nm2. apply (post_bind (fun _ => True)); [apply post_of; [now apply errs_g_sub|auto]|]. intros mr3 _.
  assert (B' : forall s, In s l -> clside cl s) by (intros t T; apply B; now right). destruct (rev (sort_by iv_key_ltb mr3)) as [|i r]; [now apply IH|]. destruct (opt_ltb _ _); [now apply IH|]. rewrite EI, EG. cbn [bind].
  apply (post_bind is_geom1d); [apply post_of; [apply e_ext|intros x X; exact (is_geom1d_new _ _ X)]|]. intros e Ne. apply (post_bind is_geom1d); [apply post_of; [now apply errs_g_or|intros x X; exact (is_geom1d_or _ _ _ Ng Ne X)]|]. intros x Nx. cbn [post].
  destruct C as (C1 & C2 & C3). split; [split; [now apply cgeom_dset|split; [apply dset_ne|]]|]. 
  - intros j Hj. apply (in_keys_dset _ string_eqb_ok) in Hj as [->|Hj]; auto. apply in_map_iff. exists (k, it). auto.
  - intros j Hj. apply (in_keys_dset _ string_eqb_ok). auto.
Qed.
Variable ord : dict string geom1d -> dict string geom1d.
Variable sord : list string -> list string.
Hypothesis ORD : forall c, Permutation c (ord c).
Hypothesis SORD : forall l, Permutation l (sord l).
Lemma argmax_in l : l <> [] -> exists n, argmax l = Ok n /\ (n < List.length l)%nat.
Proof.
  destruct l as [|v r]; [tauto|]. intros _. cbn [argmax]. eexists. split; [reflexivity|]. destruct (argmax_loop_ok r 0%nat v 1%nat [v] eq_refl eq_refl) as (w & H & _); [intros w [<-|[]]; apply Qcle_refl|]. apply nth_error_Some. cbn [app] in H. rewrite H. discriminate.
Qed.
Definition gst (st : hstate) : Prop := good (fst st).
Lemma p_hcheck st : gst st -> post gst (hcheck A st).
Proof. intros G. apply post_of; [now apply e_hcheck|]. intros st' H. unfold gst. now rewrite (hcheck_ok A st st' H). Qed.
Lemma p_decide st cl : gst st -> cgood cl -> post gst (decide_cluster A fsqrt ord sord st cl).
Proof.
  intros G C. destruct st as (sb & ci). unfold gst in G. cbn [fst] in G. unfold decide_cluster. pose proof (gd_legal _ _ G) as L. rewrite (iv_plex _ _ L).
  assert (ND : NoDup (keys (sp_inters sp))) by (destruct M as (fr & sp0 & FR & CR); exact (proj1 (proj2 (created fr sp0 sp FR CR)))).
  apply (post_bind (Forall2 (fun k it => In (k, it) (sp_inters sp) /\ In k (keys cl)) (keys (ord cl)))).
  { apply post_mapM. intros k Hk. assert (K : In k (keys cl)) by (unfold keys in *; apply (Permutation_in _ (Permutation_sym (Permutation_map fst (ORD cl))) Hk)). pose proof (proj2 (proj2 C) k K) as K'.
    apply (dget_some _ string_eqb_ok) in K' as (it & D). pose proof (dget_in _ string_eqb_ok _ _ _ D) as D'. apply dgetr_ok in D. rewrite D. cbn [post]. auto. }
  intros its ITS. set (bys := fold_left by_sheet (flat_map it_sides its) []).
  assert (SIDE : forall s, In s (flat_map it_sides its) -> clside cl s).
  { intros s Hs. apply in_flat_map in Hs as (it & Hit & Hs). clear -ITS Hit Hs M. induction ITS as [|k x ks xs (H1 & H2) _ IH]; [destruct Hit|]. destruct Hit as [->|Hit]; [|now apply IH].
    destruct (made_sides sp k it s M H1 Hs) as (EI & _). split; [exists k, it; auto|now rewrite EI]. }
  assert (BYS : forall k s, In s (match dget String.eqb k bys with Some l => l | None => [] end) -> clside cl s).
  { intros k s Hs. apply by_sheet_get in Hs as [[]|(Hs & _)]. auto. }
  assert (KEYS : forall k, In k (keys bys) -> In k (keys (sp_sheets sp))).
  { assert (K : forall l m, (forall s, In s l -> side_of sp s) -> (forall k, In k (keys m) -> In k (keys (sp_sheets sp))) -> forall k, In k (keys (fold_left by_sheet l m)) -> In k (keys (sp_sheets sp))).
    { induction l as [|s l IH]; intros m Sl Km k; cbn [fold_left]; auto. apply IH; [intros t T; apply Sl; now right|]. intros j Hj. unfold by_sheet in Hj. apply (in_keys_dset _ string_eqb_ok) in Hj as [->|Hj]; auto. apply sheet_of, Sl. now left. }
    apply K; [intros s Hs; apply (SIDE s Hs)|intros ? []]. }
  assert (NE : keys bys <> []).
  { destruct its as [|it its].
    - inversion ITS as [E0|]. exfalso. destruct C as (_ & C & _). apply C. apply Permutation_nil. symmetry in E0. apply map_eq_nil in E0. pose proof (ORD cl) as P. rewrite E0 in P. now apply Permutation_sym.
    - inversion ITS as [|k ? ks ? (H1 & _) _]; subst. destruct (made_two sp k it M H1) as (s0 & s1 & ES & _). assert (J : In (is_sheet s0) (keys bys)). { apply by_sheet_keys. left. cbn [flat_map]. rewrite ES. now left. }
      intros E0. rewrite E0 in J. destruct J. }
  apply (post_bind (Forall2 (fun k sh => In sh (values (sp_sheets sp))) (sord (keys bys)))).
  { apply post_mapM. intros k Hk. apply (Permutation_in _ (Permutation_sym (SORD _))) in Hk. apply KEYS in Hk. destruct (sheet_key k Hk) as (sh & -> & H & _). exact H. }
  intros shs SHS. assert (SH : forall sh, In sh shs -> In sh (values (sp_sheets sp))) by (clear -SHS; intros sh H; induction SHS as [|k x ks xs H1 _ IH]; [destruct H|destruct H as [->|H]; auto]).
  apply (post_bind (Forall2 (fun _ _ => True) shs)). { apply post_mapM. intros sh Hsh. apply post_of; auto. apply e_offer; auto; apply C. }
  intros offs OFFS. assert (LN : List.length offs = List.length shs) by (clear -OFFS; induction OFFS; cbn; auto). assert (NS : shs <> []).
  { intros ->. inversion SHS as [E0|]. pose proof (SORD (keys bys)) as P. rewrite <- E0 in P. apply Permutation_sym, Permutation_nil in P. contradiction. }
  destruct (argmax_in (map fst offs)) as (n & -> & LT). { intros H. apply map_eq_nil in H. subst offs. destruct shs; [contradiction|discriminate]. } cbn [bind]. rewrite map_length in LT.
  destruct (nth_error shs n) as [sh|] eqn:N1; [|apply nth_error_None in N1; lia]. destruct (nth_error offs n) as [(ar & ne)|] eqn:N2; [|apply nth_error_None in N2; lia].
  set (sides := match dget String.eqb (sh_id sh) bys with Some l => l | None => [] end). assert (SD : forall s, In s sides -> clside cl s) by (intros s Hs; exact (BYS (sh_id sh) s Hs)).
  apply (post_bind (fun c => cgood c /\ incl (keys cl) (keys c))).
  { destruct ne; [|split; [exact C|apply incl_refl]]. apply (post_bind (fun o => match o with Some c => cgood c /\ incl (keys cl) (keys c) | None => True end)); [now apply p_extra|]. intros [c|] Hc; [exact Hc|exact EP]. }
  intros c (Cc & Ic). apply (post_bind gst); [now apply p_hcheck|]. intros (sb1 & ci1) G1. unfold gst in G1. cbn [fst] in G1. apply (post_bind good).
  { apply post_foldM; auto. intros b s Hs Gb. destruct (SD s Hs) as (S & K). unfold choose_side. destruct (gcl_get c _ (proj1 Cc) (Ic _ K)) as (g & -> & Ng), (lk_iok sp b s (gd_legal _ _ Gb) S) as (-> & Nk). cbn [bind].
    apply (post_bind is_geom1d); [apply post_of; [now apply errs_g_and|intros x X; exact (is_geom1d_and _ _ _ Ng Nk X)]|]. intros r Nr. apply post_of; [now apply e_choose|]. intros b' H. exact (good_choose _ _ _ _ _ Gb Nr H). }
  intros sb2 G2. apply (post_bind good).
  { apply post_foldM; auto. intros b (j & r) Hj Gb. apply (Permutation_in _ (Permutation_sym (ORD c))) in Hj. unfold unchoose_others. cbn [fst snd]. rewrite (iv_plex _ _ (gd_legal _ _ Gb)).
    assert (J : In j (keys (sp_inters sp))) by (apply (proj2 (proj2 Cc)), in_map_iff; exists (j, r); auto). apply (dget_some _ string_eqb_ok) in J as (it & D). pose proof (dget_in _ string_eqb_ok _ _ _ D) as D'. apply dgetr_ok in D. rewrite D. cbn [bind].
    apply post_foldM; auto. intros b2 s Hs Gb2. destruct (String.eqb (is_sheet s) (sh_id sh)); [exact Gb2|]. assert (S : side_of sp s) by (exists j, it; auto). pose proof (proj1 Cc _ _ Hj) as Nr. apply post_of; [apply e_unchoose; auto|]. intros b3 H. exact (good_unchoose _ _ _ _ Gb2 Nr H). }
  intros sb3 G3. apply p_hcheck. exact G3.
Qed.
Lemma e_multi st : good (fst st) -> errs E (heuristic_multi_inter_single_decisions A fsqrt ord sord st).
Proof.
  intros G. unfold heuristic_multi_inter_single_decisions. apply (post_errs gst). apply (post_bind ias); [now apply p_interactions|]. intros ia IA. rewrite (iv_plex _ _ (gd_legal _ _ G)). apply (post_bind mgood); [now apply p_clusters|]. intros m (_ & MG).
  assert (V : forall c, In c (values m) -> cgood c) by (intros c H; apply in_map_iff in H as ((k & d) & <- & H); exact (MG _ _ H)).
  apply (post_bind cgeom); [apply post_foldM; [|intros ? ? []]; intros a c Hc Ga; apply p_cmap_or1; auto; apply (V c Hc)|]. intros u _. apply post_foldM; auto. intros s c Hc Gs. apply p_decide; auto.
Qed.
End T.
