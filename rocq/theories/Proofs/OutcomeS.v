(** * Which exceptions the heuristics can raise *)
From Verif.Spec Require Import Plane Region PointSet1 Fingers Crisp.
From Verif.Model Require Import Arrangement2d Heuristics.
From Verif.Proofs Require Import PyP ExtOrd DictP Geom1dP Geom1dM Geom2dP Geom2dOps ArrSoundP SheetplexP FingerP SheetbuildP CreateP HeuristicsP ClusterP HeuStepsP StepsP TrimP CrispP CrispQ BufSharpP BufSharpQ RunSharpP OutcomeP OutcomeQ OutcomeR.
From Verif.Props Require Import Geom1dProps Primitive2dProps SheetplexProps Geom2dProps CrispProps.
From Coq Require Import String Permutation.
Open Scope Qc_scope.

Section S.
Variable E : exn -> Prop.
Hypothesis EA : E AssertionError.
Hypothesis ET : E TypeError.
Variable orc : list segment -> nat -> nat -> nat.
Variable fsqrt : Qc -> Qc.
Hypothesis F1 : 0 < fsqrt 1.
Hypothesis F2 : fsqrt 1 < fsqrt (zq 2).
Hypothesis F3 : fsqrt (zq 2) < zq 2 * fsqrt 1.
Let A := segment_arrangement orc.
Variable sp : sheetplex.
Hypothesis M : plex_made sp.
Hypothesis PN : plex_in neat sp.
Let OC : op_closed A fsqrt neat := neat_closed orc fsqrt F1 F2 F3.
Notation good := (good sp).
Let e_or := e_or E EA orc.
Let e_and := e_and E EA orc.
Let e_sub := e_sub E EA orc.
Let e_fing := e_fing E EA orc.
Let e_area := e_area E EA.
Let e_buf := e_buf E EA orc fsqrt F1 F2 F3.
Let e_proj := e_proj E EA.
Let n_fing := n_fing orc fsqrt F1 F2 F3 sp M.
Let e_hcheck := e_hcheck E EA ET orc fsqrt F1 F2 F3 sp M PN.
Let e_choose := e_choose E EA orc fsqrt F1 F2 F3 sp M.
Let e_unchoose := e_unchoose E sp M.
Let good_steps := good_steps orc sp M PN.
Let sheet_val := sheet_val sp M PN.
Let sheet_key := sheet_key sp M PN.
Let sheet_of := sheet_of_side sp M.

Lemma good_choose sb id v t sb' : good sb -> is_geom1d v -> choose_interside A sb id v t = Ok sb' -> good sb'.
Proof. intros G V H. exact (good_steps _ _ G (one_choose A sb id v t sb' V H)). Qed.
Lemma good_unchoose sb id v sb' : good sb -> is_geom1d v -> unchoose_interside sb id v = Ok sb' -> good sb'.
Proof. intros G V H. exact (good_steps _ _ G (one_unchoose A sb id v sb' V H)). Qed.
Lemma good_hcheck st st' : good (fst st) -> hcheck A st = Ok st' -> good (fst st').
Proof. intros G H. now rewrite (hcheck_ok A st st' H). Qed.

(** ** choose_obviously_irrelevant *)
Lemma e_irrelevant sb s : good sb -> side_of sp s -> errs E (irrelevant A fsqrt sb s).
Proof.
  intros G S. pose proof (gd_legal _ _ G) as L. unfold irrelevant. rewrite (iv_plex _ _ L). destruct (lk_iok sp sb s L S) as (-> & Nk). cbn [bind]. apply errs_bind; [apply errs_buffer_q|]. intros k' K'. pose proof (is_geom1d_buffer _ _ _ Nk K') as Nk'.
  apply errs_bind; [apply e_fing|]. intros f Ff. pose proof (n_fing _ _ _ S Nk' Ff) as Nf. destruct (sheet_key _ (sheet_of s S)) as (sh & -> & _ & _ & _ & _ & N2). cbn [bind].
  apply errs_bind; [now apply e_buf|]. intros fb FB. pose proof (oc_buffer _ _ _ OC _ _ _ Nf FB) as Nfb. apply errs_bind; [now apply e_and|]. intros ou OU. pose proof (oc_and _ _ _ OC _ _ _ N2 Nfb OU) as No.
  apply errs_bind; [now apply e_buf|]. intros fc FC. pose proof (oc_buffer _ _ _ OC _ _ _ Nf FC) as Nfc. apply errs_bind; [now apply e_sub|]. intros ov OV. pose proof (oc_sub _ _ _ OC _ _ _ No Nfc OV) as Nv.
  apply errs_bind; [now apply e_proj|]. intros p P. pose proof (n_proj _ _ _ P) as Np. apply errs_bind; [now apply errs_g_invert|]. intros ol OL. pose proof (is_geom1d_inv _ _ Np OL) as Nl.
  destruct (lk_opp sp M s S) as (o & -> & O & _). cbn [bind]. apply errs_bind; [now apply errs_g_and|]. intros x X. pose proof (is_geom1d_and _ _ _ Nl Nk X) as Nx.
  destruct (lk_iok sp sb o L O) as (-> & Nko). cbn [bind]. now apply errs_g_and.
Qed.
Lemma n_irrelevant sb s v : good sb -> side_of sp s -> irrelevant A fsqrt sb s = Ok v -> is_geom1d v.
Proof.
  intros G S H. pose proof (gd_legal _ _ G) as L. unfold irrelevant in H. apply bind_ok in H as (k & K & H). do 8 (apply bind_ok in H as (? & ? & H)). apply bind_ok in H as (ol & OL & H). apply bind_ok in H as (o & _ & H). apply bind_ok in H as (y & X & H). apply bind_ok in H as (ko & KO & H).
  apply (legal_iok sp _ _ _ L) in K, KO. refine (is_geom1d_and _ _ _ (is_geom1d_and _ _ _ (is_geom1d_inv _ _ _ OL) K X) KO H). match goal with P : is_project_to_1d _ _ = Ok _ |- _ => exact (n_proj _ _ _ P) end.
Qed.
Lemma e_obviously st : good (fst st) -> (E AttributeError \/ forall id, chosen_of (fst st) id = []) -> errs E (choose_obviously_irrelevant A fsqrt st).
Proof.
  intros G AT. unfold choose_obviously_irrelevant. apply errs_bind; [now apply e_hcheck|]. intros (sb & ci) HC. pose proof (hcheck_ok A _ _ HC) as EQ. cbn [fst] in EQ. subst sb.
  apply errs_bind.
  { apply e_dict. intros s Is. apply e_irrelevant; auto. unfold sides_of in Is. rewrite (iv_plex _ _ (gd_legal _ _ G)) in Is. now apply (made_list sp s M). }
  intros u U. apply errs_bind; [|intros; exact I]. unfold unchoose_intersides.
  apply (errs_foldM E (fun sb => good sb /\ (E AttributeError \/ forall id, chosen_of sb id = []))); auto. intros sb (id & v) Ie (Gs & As). cbn [fst snd].
  destruct (dict_of_get _ id2_eqb_ok _ _ _ _ _ U) as (ND & D). apply (dget_nodup _ id2_eqb_ok _ _ _ (ND (NoDup_nil _))) in Ie. apply D in Ie as [Ie|(s & Is & <- & Iv)]; [discriminate|].
  unfold sides_of in Is. rewrite (iv_plex _ _ (gd_legal _ _ G)) in Is. apply (made_list sp s M) in Is. pose proof (n_irrelevant _ _ _ G Is Iv) as V. split.
  - apply e_unchoose; auto. destruct As as [As|As]; auto. right. intros x X. rewrite As in X. destruct X as (? & [] & _).
  - intros sb' H. split; [exact (good_unchoose _ _ _ _ Gs V H)|]. destruct As as [As|As]; auto. right. intros j. apply unchoose_inv in H as (s' & UD). unfold chosen_of. rewrite (ud_ich _ _ _ _ _ UD). apply As.
Qed.

(** ** remove_loose *)
Lemma e_loose_sheet sb sh : good sb -> In sh (values (sp_sheets sp)) -> errs E (remove_loose_sheet A sb sh) /\ forall sb', remove_loose_sheet A sb sh = Ok sb' -> good sb'.
Proof.
  intros G Ish. destruct (sheet_val sh Ish) as (J & N0 & N1 & _). unfold remove_loose_sheet. destruct (lk_sch sp sb _ G J) as (EC & Nc), (lk_sok sp sb _ G J) as (EK & Nk). rewrite EC, EK. cbn [bind].
  assert (FOLD : forall fs ps, neat fs -> neat ps -> errs E (foldM (loose A sb sh fs) (g2_polygons ps) g2_empty) /\ forall im, foldM (loose A sb sh fs) (g2_polygons ps) g2_empty = Ok im -> neat im).
  { intros fs ps Nfs Nps.
    assert (ONE : forall a x, In x (g2_polygons ps) -> neat a -> errs E (loose A sb sh fs a x) /\ forall a', loose A sb sh fs a x = Ok a' -> neat a').
    { intros a x Ix Na. apply in_map_iff in Ix as (w & <- & Iw). pose proof (oc_part _ _ _ OC _ w Nps Iw) as Nw. unfold loose. rewrite EC. cbn [bind]. split.
      - apply errs_bind; [now apply e_and|]. intros y Y. destruct (g2_is_empty y); [|exact I]. apply errs_bind; [now apply e_and|]. intros cp CP. apply errs_bind; [apply e_area; exact (oc_and _ _ _ OC _ _ _ Nc Nw CP)|]. intros u _. now apply e_or.
      - intros a' H. apply bind_ok in H as (y & _ & H). destruct (g2_is_empty y); [|now apply Ok_inv in H as <-]. apply bind_ok in H as (cp & _ & H). apply bind_ok in H as (u & _ & H). exact (oc_or _ _ _ OC _ _ _ Na Nw H). }
    split; [apply (errs_foldM E neat); [exact ONE|exact neat_nil]|]. intros im H. refine (fold_in _ _ _ _ _ neat_nil H). intros a x r Ix Na Hr. exact (proj2 (ONE a x Ix Na) r Hr). }
  split.
  - apply errs_bind; [now apply e_and|]. intros fs FS. pose proof (oc_and _ _ _ OC _ _ _ N0 N1 FS) as Nfs. apply errs_bind; [now apply e_or|]. intros ps PS. pose proof (oc_or _ _ _ OC _ _ _ Nc Nk PS) as Nps.
    destruct (FOLD fs ps Nfs Nps) as (H1 & H2). apply errs_bind; auto. intros im IM. apply errs_bind; [|intros; exact I]. unfold transform_sub2. unfold sget in EK. apply dgetr_ok in EK. exact (e_msub2 E EA orc _ _ _ _ EK Nk (H2 im IM)).
  - intros sb' H. apply bind_ok in H as (fs & FS & H). pose proof (oc_and _ _ _ OC _ _ _ N0 N1 FS) as Nfs. apply bind_ok in H as (ps & PS & H). pose proof (oc_or _ _ _ OC _ _ _ Nc Nk PS) as Nps. apply bind_ok in H as (im & IM & H). apply bind_ok in H as (sok & SK & H). apply Ok_inv in H as <-.
    refine (good_steps _ _ G (ss_one A neat _ _ (st_sok A neat sb (sh_id sh) im sok _ SK))). intros _ _. exact (proj2 (FOLD fs ps Nfs Nps) im IM).
Qed.
Lemma e_loose st : good (fst st) -> errs E (remove_loose A st).
Proof.
  intros G. unfold remove_loose. apply errs_bind; [now apply e_hcheck|]. intros (sb & ci) HC. pose proof (good_hcheck _ _ G HC) as G'. cbn [fst] in G'. apply errs_bind; [|intros; exact I]. apply (errs_foldM E good); auto.
  intros s sh Ish Gs. unfold sheets_of in Ish. rewrite (iv_plex _ _ (gd_legal _ _ G')) in Ish. now apply e_loose_sheet.
Qed.

(** ** update_intersection_ok *)
Lemma e_iok_side sb s : good sb -> side_of sp s -> errs E (update_iok_side A sb s) /\ forall sb', update_iok_side A sb s = Ok sb' -> good sb'.
Proof.
  intros G S. pose proof (gd_legal _ _ G) as L. destruct (lk_iok sp sb s L S) as (EK & Nk). destruct (lk_sok sp sb _ G (sheet_of s S)) as (ES & Ns). split.
  - unfold update_iok_side. rewrite EK, ES. cbn [bind]. apply errs_bind; [apply errs_buffer_q|]. intros k' K'. pose proof (is_geom1d_buffer _ _ _ Nk K') as Nk'. apply errs_bind; [apply e_fing|]. intros f Ff. pose proof (n_fing _ _ _ S Nk' Ff) as Nf.
    apply errs_bind; [now apply e_and|]. intros mf MF. apply errs_bind; [now apply e_proj|]. intros p P. apply errs_bind; [apply e_proj; exact (oc_and _ _ _ OC _ _ _ Nf Ns MF)|]. intros q Q.
    apply errs_bind; [apply errs_g_sub; eapply n_proj; eauto|]. intros u U. pose proof (is_geom1d_sub _ _ _ (n_proj _ _ _ P) (n_proj _ _ _ Q) U) as Nu. apply errs_bind; [apply errs_buffer_q|]. intros v V. apply errs_bind; [|intros; exact I].
    unfold iget in EK. apply dgetr_ok in EK. exact (e_msub1 E _ _ _ _ EK Nk (is_geom1d_buffer _ _ _ Nu V)).
  - intros sb' H. unfold update_iok_side in H. do 5 (apply bind_ok in H as (? & _ & H)). apply bind_ok in H as (p & P & H). apply bind_ok in H as (q & Q & H). apply bind_ok in H as (u & U & H). apply bind_ok in H as (v & V & H). apply bind_ok in H as (iok & IO & H). apply Ok_inv in H as <-.
    refine (good_steps _ _ G (ss_one A neat _ _ (st_iok A neat sb (is_id s) v iok _ IO))). exact (is_geom1d_buffer _ _ _ (is_geom1d_sub _ _ _ (n_proj _ _ _ P) (n_proj _ _ _ Q) U) V).
Qed.
Lemma e_update_iok st : good (fst st) -> errs E (update_intersection_ok A st).
Proof.
  intros G. unfold update_intersection_ok. apply errs_bind; [now apply e_hcheck|]. intros (sb & ci) HC. pose proof (good_hcheck _ _ G HC) as G'. cbn [fst] in G'. apply errs_bind; [|intros; exact I]. apply (errs_foldM E good); auto.
  intros b s Is Gs. unfold sides_of in Is. rewrite (iv_plex _ _ (gd_legal _ _ G')) in Is. apply (made_list sp s M) in Is. now apply e_iok_side.
Qed.

(** ** update_sheet_ok *)
Lemma e_on_sides sb acc s : good sb -> side_of sp s -> neat (fst acc) /\ neat (snd acc) -> errs E (on_sides A sb acc s) /\ forall acc', on_sides A sb acc s = Ok acc' -> neat (fst acc') /\ neat (snd acc').
Proof.
  intros G S (Na & Nb). destruct acc as (a & b). cbn [fst snd] in *. pose proof (gd_legal _ _ G) as L. unfold on_sides. rewrite (iv_plex _ _ L). destruct (lk_opp sp M s S) as (o & -> & O & _). cbn [bind].
  destruct (lk_iok sp sb s L S) as (-> & Nk), (lk_iok sp sb o L O) as (-> & Nko). cbn [bind]. split.
  - apply errs_bind; [apply e_fing|]. intros f Ff. pose proof (n_fing _ _ _ S Nk Ff) as Nf. apply errs_bind; [now apply e_or|]. intros b' _. apply errs_bind; [now apply errs_g_or|]. intros kk KK. pose proof (is_geom1d_or _ _ _ Nk Nko KK) as Nkk.
    apply errs_bind; [apply e_fing|]. intros f' Ff'. pose proof (n_fing _ _ _ S Nkk Ff') as Nf'. apply errs_bind; [now apply e_or|intros; exact I].
  - intros acc' H. apply bind_ok in H as (f & Ff & H). pose proof (n_fing _ _ _ S Nk Ff) as Nf. apply bind_ok in H as (b' & B & H). apply bind_ok in H as (kk & KK & H). pose proof (is_geom1d_or _ _ _ Nk Nko KK) as Nkk.
    apply bind_ok in H as (f' & Ff' & H). pose proof (n_fing _ _ _ S Nkk Ff') as Nf'. apply bind_ok in H as (a' & HA & H). apply Ok_inv in H as <-. cbn [fst snd]. split; [exact (oc_or _ _ _ OC _ _ _ Na Nf' HA)|exact (oc_or _ _ _ OC _ _ _ Nb Nf B)].
Qed.
Lemma e_sok_sheet sb sh : good sb -> In sh (values (sp_sheets sp)) -> errs E (update_sok_sheet A fsqrt sb sh) /\ forall sb', update_sok_sheet A fsqrt sb sh = Ok sb' -> good sb'.
Proof.
  intros G Ish. destruct (sheet_val sh Ish) as (J & _). pose proof (gd_legal _ _ G) as L. unfold update_sok_sheet. rewrite (iv_plex _ _ L). destruct (lk_sch sp sb _ G J) as (EC & Nc), (lk_sok sp sb _ G J) as (EK & Nk). rewrite EC. cbn [bind].
  assert (FOLD : forall ab, foldM (on_sides A sb) (sp_intersides sp (Some (sh_id sh))) (g2_empty, g2_empty) = Ok ab -> neat (fst ab) /\ neat (snd ab)).
  { intros (a & b) H. exact (on_sides_in A fsqrt sp M OC sb (Some (sh_id sh)) _ L (fun _ X => X) _ _ _ _ neat_nil neat_nil H). }
  split.
  - apply errs_bind. { apply (errs_foldM E (fun ab => neat (fst ab) /\ neat (snd ab))); [|split; exact neat_nil]. intros ab s Is Nab. apply e_on_sides; auto. exact (sides_in sp M _ s Is). }
    intros (a & b) AB. apply FOLD in AB as (Na & Nb). cbn [fst snd] in *. apply errs_bind; [now apply e_sub|]. intros d D. pose proof (oc_sub _ _ _ OC _ _ _ Na Nb D) as Nd. apply errs_bind; [now apply e_buf|]. intros bf BF. pose proof (oc_buffer _ _ _ OC _ _ _ Nd BF) as Nbf.
    apply errs_bind; [now apply e_sub|]. intros ar AR. pose proof (oc_sub _ _ _ OC _ _ _ Nbf Nc AR) as Nar. unfold unchoose_sheet_area. rewrite EC. cbn [bind]. apply errs_bind; [now apply e_and|]. intros ca CA. apply errs_bind; [apply e_area; exact (oc_and _ _ _ OC _ _ _ Nc Nar CA)|]. intros u _.
    apply errs_bind; [|intros; exact I]. unfold transform_sub2. unfold sget in EK. apply dgetr_ok in EK. exact (e_msub2 E EA orc _ _ _ _ EK Nk Nar).
  - intros sb' H. apply bind_ok in H as ((a & b) & AB & H). apply FOLD in AB as (Na & Nb). cbn [fst snd] in *. apply bind_ok in H as (d & D & H). apply bind_ok in H as (bf & BF & H). apply bind_ok in H as (ar & AR & H).
    refine (good_steps _ _ G (ss_one A neat _ _ (st_area A neat sb (sh_id sh) ar sb' _ H))). intros _ _. exact (oc_sub _ _ _ OC _ _ _ (oc_buffer _ _ _ OC _ _ _ (oc_sub _ _ _ OC _ _ _ Na Nb D) BF) Nc AR).
Qed.
Lemma e_update_sok st : good (fst st) -> errs E (update_sheet_ok A fsqrt st).
Proof.
  intros G. unfold update_sheet_ok. apply errs_bind; [now apply e_hcheck|]. intros (sb & ci) HC. pose proof (good_hcheck _ _ G HC) as G'. cbn [fst] in G'. apply errs_bind; [|intros; exact I]. apply (errs_foldM E good); auto.
  intros s sh Ish Gs. unfold sheets_of in Ish. rewrite (iv_plex _ _ (gd_legal _ _ G')) in Ish. now apply e_sok_sheet.
Qed.

(** ** choose_the_ok_side *)
Lemma e_only_ok st s : good (fst st) -> side_of sp s -> errs E (choose_only_ok A st s) /\ forall st', choose_only_ok A st s = Ok st' -> good (fst st').
Proof.
  intros G S. destruct st as (sb & ci). cbn [fst] in G. pose proof (gd_legal _ _ G) as L. unfold choose_only_ok. rewrite (iv_plex _ _ L). destruct (lk_opp sp M s S) as (o & -> & O & _ & _). cbn [bind].
  destruct (lk_iok sp sb s L S) as (-> & Nk), (lk_iok sp sb o L O) as (-> & Nko), (lk_ich sp sb s L S) as (-> & Nc), (lk_ich sp sb o L O) as (-> & Nco). cbn [bind].
  assert (GEO : forall t t2 og t4 t5 sm, g_sub (ok_of sb (is_id s)) (chosen_of sb (is_id s)) = Ok t -> g_sub t (ok_of sb (is_id o)) = Ok t2 -> g_sub t2 (chosen_of sb (is_id o)) = Ok og ->
    buffer_q og (- qq 1 100) = Ok t4 -> buffer_q t4 (qq 1 100) = Ok t5 -> g_sub og t5 = Ok sm -> is_geom1d t5 /\ is_geom1d sm /\ forall x, pts sm x -> ~ pts (chosen_of sb (is_id s)) x /\ ~ pts t5 x).
  { intros t t2 og t4 t5 sm T T2 OG T4 T5 SM. pose proof (is_geom1d_sub _ _ _ Nk Nc T) as Nt. pose proof (is_geom1d_sub _ _ _ Nt Nko T2) as Nt2. pose proof (is_geom1d_sub _ _ _ Nt2 Nco OG) as Nog.
    pose proof (is_geom1d_buffer _ _ _ (is_geom1d_buffer _ _ _ Nog T4) T5) as Nt5. split; auto. split; [exact (is_geom1d_sub _ _ _ Nog Nt5 SM)|]. intros x X. apply is_geom1d_normal in Nk, Nc, Nko, Nco, Nt, Nt2, Nog, Nt5.
    apply (sub_pts _ _ _ x Nog Nt5 SM) in X as (X & X5). split; auto. apply (sub_pts _ _ _ x Nt2 Nco OG) in X as (X & _). apply (sub_pts _ _ _ x Nt Nko T2) in X as (X & _). now apply (sub_pts _ _ _ x Nk Nc T) in X. }
  assert (CH : forall t5 sm sb1, is_geom1d t5 -> (forall x, pts sm x -> ~ pts (chosen_of sb (is_id s)) x /\ ~ pts t5 x) -> choose_interside A sb (is_id s) t5 false = Ok sb1 -> forall x, pts (chosen_of sb1 (is_id s)) x -> ~ pts sm x).
  { intros t5 sm sb1 Nt5 D H x X Y. destruct (D x Y) as (D1 & D2). apply choose_inv in H as (s' & o' & CD). destruct (cd_ich _ _ _ _ _ _ _ _ CD) as (r & R & RE). rewrite (chosen_dset _ _ _ _ (is_id s) RE), (DictP.eqb_refl _ id2_eqb_ok) in X.
    change (g_or (chosen_of sb (is_id s)) t5 = Ok r) in R. apply is_geom1d_normal in Nc, Nt5. apply (or_pts _ _ _ x Nc Nt5 R) in X. tauto. }
  split.
  - apply errs_bind; [now apply errs_g_sub|]. intros t T. pose proof (is_geom1d_sub _ _ _ Nk Nc T) as Nt. apply errs_bind; [now apply errs_g_sub|]. intros t2 T2. pose proof (is_geom1d_sub _ _ _ Nt Nko T2) as Nt2.
    apply errs_bind; [now apply errs_g_sub|]. intros og OG. pose proof (is_geom1d_sub _ _ _ Nt2 Nco OG) as Nog. apply errs_bind; [apply errs_buffer_q|]. intros t4 T4. apply errs_bind; [apply errs_buffer_q|]. intros t5 T5.
    pose proof (is_geom1d_buffer _ _ _ (is_geom1d_buffer _ _ _ Nog T4) T5) as Nt5. apply errs_bind; [now apply errs_g_sub|]. intros sm SM. destruct (GEO _ _ _ _ _ _ T T2 OG T4 T5 SM) as (_ & Ns & D).
    apply errs_bind; [now apply e_choose|]. intros sb1 S1. pose proof (good_choose _ _ _ _ _ G Nt5 S1) as G1. apply errs_bind. { apply e_unchoose; auto. right. exact (CH t5 sm sb1 Nt5 D S1). }
    intros sb2 S2. apply e_hcheck. exact (good_unchoose _ _ _ _ G1 Ns S2).
  - intros st' H. apply bind_ok in H as (t & T & H). apply bind_ok in H as (t2 & T2 & H). apply bind_ok in H as (og & OG & H). apply bind_ok in H as (t4 & T4 & H). apply bind_ok in H as (t5 & T5 & H). apply bind_ok in H as (sm & SM & H).
    destruct (GEO _ _ _ _ _ _ T T2 OG T4 T5 SM) as (Nt5 & Ns & _). apply bind_ok in H as (sb1 & S1 & H). apply bind_ok in H as (sb2 & S2 & H). refine (good_hcheck _ _ _ H). exact (good_unchoose _ _ _ _ (good_choose _ _ _ _ _ G Nt5 S1) Ns S2).
Qed.
Lemma e_ok_side st : good (fst st) -> errs E (choose_the_ok_side A st).
Proof.
  intros G. unfold choose_the_ok_side. apply errs_bind; [now apply e_hcheck|]. intros st1 HC. pose proof (good_hcheck _ _ G HC) as G'. apply (errs_foldM E (fun st => good (fst st))); auto.
  intros st2 s Is Gs. apply e_only_ok; auto. rewrite (iv_plex _ _ (gd_legal _ _ G')) in Is. apply (made_list sp s M). unfold sp_intersides. now rewrite filter_all.
Qed.

(** ** single_fingers_random *)
Section Random.
Variable fl : Qc -> Qc.
Variable R : rng.
Variable min_width max_width : Qc.
Hypothesis WZ : min_width = 0 \/ max_width = 0 -> E ZeroDivisionError.
Lemma e_draw n mn mx total : forall order lengths running handled k, errs E (draw_loop fl R n mn mx total order lengths running handled k).
Proof. induction order as [|i r IH]; intros; cbn [draw_loop]; [exact I|]. apply errs_bind; [now apply errs_passert|]. intros u _. apply IH. Qed.
Lemma e_min_max n mn mx total k : errs E (random_min_max fl R n mn mx total k).
Proof.
  unfold random_min_max. apply errs_bind; [now apply errs_passert|]. intros u _. apply errs_bind; [apply e_draw|]. intros (lengths & k') _. destruct (spans_loop fl lengths (FX 0)) as (l & c). apply errs_bind; [now apply errs_passert|intros; exact I].
Qed.
Lemma e_alternate start l : forall cur f0 f1, is_geom1d f0 -> is_geom1d f1 -> errs E (alternate start l cur f0 f1).
Proof.
  induction l as [|(a, b) l IH]; intros cur f0 f1 N0 N1; cbn [alternate]; [exact I|]. apply errs_bind; [now apply errs_new|]. intros span SP. pose proof (is_geom1d_new _ _ SP) as Ns.
  destruct cur; (apply errs_bind; [now apply errs_g_or|]); intros f Hf; apply IH; auto; [exact (is_geom1d_or _ _ _ N1 Ns Hf)|exact (is_geom1d_or _ _ _ N0 Ns Hf)].
Qed.
Lemma e_plan on0 on1 a b k : errs E (plan_fingers fl R min_width max_width on0 on1 a b k).
Proof.
  unfold plan_fingers, count_range, qdivr. destruct (qeqb_spec max_width 0) as [Z|_]; [exact (WZ (or_intror Z))|]. destruct (qeqb_spec min_width 0) as [Z|_]; [exact (WZ (or_introl Z))|]. cbn [bind]. destruct (if xorb on0 on1 then _ else _) as (n1 & n2). cbn [bind].
  destruct (n2 <? n1)%Z; [exact I|]. apply errs_bind; [apply e_min_max|]. intros (loc & k') _. apply errs_bind; [apply e_alternate; exact is_geom1d_empty|intros; exact I].
Qed.
Lemma e_more sb s0 s1 a b : good sb -> side_of sp s0 -> side_of sp s1 -> errs E (more_on_1 sb s0 s1 (Fin a, Fin b)).
Proof.
  intros G S0 S1. pose proof (gd_legal _ _ G) as L. unfold more_on_1. apply errs_bind; [exact (errs_new E EA a b)|]. intros ei EI. pose proof (is_geom1d_new _ _ EI) as Ne.
  destruct (lk_ich sp sb s0 L S0) as (-> & N0), (lk_ich sp sb s1 L S1) as (-> & N1). cbn [bind]. apply errs_bind; [now apply errs_g_and|]. intros m0 _. apply errs_bind; [now apply errs_g_and|intros; exact I].
Qed.
Lemma e_range s0 s1 a b st : good (fst st) -> side_of sp s0 -> side_of sp s1 -> errs E (fingers_range A fl R min_width max_width s0 s1 st (Fin a, Fin b)) /\
  forall st', fingers_range A fl R min_width max_width s0 s1 st (Fin a, Fin b) = Ok st' -> good (fst st').
Proof.
  intros G S0 S1. destruct st as (sb & k). cbn [fst] in G. unfold fingers_range. split.
  - apply errs_bind; [exact (errs_new E EA a b)|]. intros g HG. pose proof (is_geom1d_new _ _ HG) as Ng. apply errs_bind; [now apply e_more|]. intros on0 _. apply errs_bind; [now apply e_more|]. intros on1 _. apply errs_bind; [apply e_plan|]. intros (pl & k') PL.
    destruct pl as [(f0 & f1)|]; [|apply errs_bind; [now apply e_choose|intros; exact I]]. destruct (plan_geom _ _ _ _ _ _ _ _ _ _ _ _ PL) as (N0 & N1). apply errs_bind; [now apply e_choose|]. intros sb1 H1.
    apply errs_bind; [apply e_choose; auto; exact (good_choose _ _ _ _ _ G N0 H1)|intros; exact I].
  - intros st' H. apply bind_ok in H as (g & HG & H). pose proof (is_geom1d_new _ _ HG) as Ng. apply bind_ok in H as (on0 & _ & H). apply bind_ok in H as (on1 & _ & H). apply bind_ok in H as ((pl & k') & PL & H). destruct pl as [(f0 & f1)|].
    + destruct (plan_geom _ _ _ _ _ _ _ _ _ _ _ _ PL) as (N0 & N1). apply bind_ok in H as (sb1 & H1 & H). apply bind_ok in H as (sb2 & H2 & H). apply Ok_inv in H as <-. cbn [fst]. exact (good_choose _ _ _ _ _ (good_choose _ _ _ _ _ G N0 H1) N1 H2).
    + apply bind_ok in H as (sb1 & H1 & H). apply Ok_inv in H as <-. cbn [fst]. exact (good_choose _ _ _ _ _ G Ng H1).
Qed.
Lemma e_inter st it : good (fst st) -> In it (values (sp_inters sp)) -> errs E (fingers_inter A fl R min_width max_width st it) /\ forall st', fingers_inter A fl R min_width max_width st it = Ok st' -> good (fst st').
Proof.
  intros G Iit. pose proof (gd_legal _ _ G) as L. apply in_map_iff in Iit as ((k & it') & <- & Iit). cbn [snd]. destruct (made_two sp k it' M Iit) as (s0 & s1 & ES & _). unfold fingers_inter. rewrite ES.
  assert (S0 : side_of sp s0) by (exists k, it'; split; auto; rewrite ES; cbn; auto). assert (S1 : side_of sp s1) by (exists k, it'; split; auto; rewrite ES; cbn; auto).
  destruct (lk_iok sp _ s0 L S0) as (-> & Nk0), (lk_iok sp _ s1 L S1) as (-> & Nk1), (lk_ich sp _ s0 L S0) as (-> & Nc0), (lk_ich sp _ s1 L S1) as (-> & Nc1). cbn [bind].
  assert (RUN : forall a0 i, g_sub (ok_of (fst st) (is_id s0)) (chosen_of (fst st) (is_id s0)) = Ok a0 -> In i a0 -> exists a b, i = (Fin a, Fin b)).
  { intros a0 i H Ii. pose proof (is_geom1d_normal _ (is_geom1d_sub _ _ _ Nk0 Nc0 H)) as Na. assert (B : bd a0). { apply (bd_sub (ok_of (fst st) (is_id s0))); [|apply (gd_bd _ _ G)]. intros x X. apply is_geom1d_normal in Nk0, Nc0. now apply (sub_pts _ _ _ x Nk0 Nc0 H) in X. }
    exact (bd_bounded a0 Na B i Ii). }
  split.
  - apply errs_bind; [now apply errs_g_sub|]. intros a0 HA0. apply errs_bind; [now apply errs_g_sub|]. intros a1 HA1. apply errs_bind; [apply errs_g_xor; [exact (is_geom1d_sub _ _ _ Nk0 Nc0 HA0)|exact (is_geom1d_sub _ _ _ Nk1 Nc1 HA1)]|]. intros x _.
    apply errs_bind; [now apply errs_passert|]. intros u _. apply (errs_foldM E (fun st => good (fst st))); auto. intros s i Ii Gs. destruct (RUN a0 i HA0 Ii) as (a & b & ->). now apply e_range.
  - intros st' H. apply bind_ok in H as (a0 & HA0 & H). do 3 (apply bind_ok in H as (? & _ & H)). specialize (fun i => RUN a0 i HA0). clear HA0 L Nk0 Nk1 Nc0 Nc1. revert st G H. induction a0 as [|i a0 IH]; intros st G H; cbn [foldM] in H; [now apply Ok_inv in H as <-|].
    apply bind_ok in H as (st1 & H1 & H). destruct (RUN i (or_introl eq_refl)) as (a & b & ->). exact (IH (fun j J => RUN j (or_intror J)) st1 (proj2 (e_range s0 s1 a b st G S0 S1) st1 H1) H).
Qed.
Lemma e_random st : good (fst st) -> errs E (single_fingers_random A fl R min_width max_width st).
Proof.
  intros G. unfold single_fingers_random. apply errs_bind; [now apply e_hcheck|]. intros (sb & ci) HC. pose proof (good_hcheck _ _ G HC) as G'. cbn [fst] in G'. apply errs_bind; [|intros (sb2 & k) _; exact I].
  apply (errs_foldM E (fun st : sbuild * nat => good (fst st))); auto. intros s it Iit Gs. rewrite (iv_plex _ _ (gd_legal _ _ G')) in Iit. now apply e_inter.
Qed.
End Random.

(** ** clean_up_thin_ok_parts *)
Lemma e_clean st : good (fst st) -> errs E (clean_up_thin_ok_parts A fsqrt st).
Proof.
  intros G. destruct st as (sb & ci). cbn [fst] in G. unfold clean_up_thin_ok_parts. apply errs_bind; [|intros; exact I]. apply (errs_foldM E (fun _ => True)); auto. intros m sh Ish _. split; auto. unfold sheets_of in Ish. rewrite (iv_plex _ _ (gd_legal _ _ G)) in Ish.
  destruct (sheet_val sh Ish) as (J & _). unfold clean_sheet. destruct (lk_sch sp sb _ G J) as (-> & Nc), (lk_sok sp sb _ G J) as (-> & Nk). cbn [bind]. apply errs_bind; [now apply e_buf|]. intros o1 O1. pose proof (oc_buffer _ _ _ OC _ _ _ Nk O1) as N1.
  apply errs_bind; [now apply e_buf|]. intros o2 O2. pose proof (oc_buffer _ _ _ OC _ _ _ N1 O2) as N2. apply errs_bind; [now apply e_or|intros; exact I].
Qed.
End S.
