(** * Which exceptions the checks, the choices and the single heuristics can raise *)
From Verif.Spec Require Import Plane Region PointSet1 Fingers Crisp.
From Verif.Model Require Import Arrangement2d Heuristics.
From Verif.Proofs Require Import PyP ExtOrd DictP Geom1dP Geom1dM Geom2dP Geom2dOps ArrSoundP SheetplexP FingerP SheetbuildP CreateP HeuristicsP ClusterP HeuStepsP StepsP TrimP CrispP CrispQ BufSharpP BufSharpQ RunSharpP OutcomeP OutcomeQ.
From Verif.Props Require Import Geom1dProps Primitive2dProps SheetplexProps Geom2dProps CrispProps.
From Coq Require Import String Permutation.
Open Scope Qc_scope.

Section R.
Variable E : exn -> Prop.
Hypothesis EA : E AssertionError.
Hypothesis ET : E TypeError.
Variable orc : list segment -> nat -> nat -> nat.
Variable fsqrt : Qc -> Qc.
Hypothesis F1 : 0 < fsqrt 1.
Hypothesis F2 : fsqrt 1 < fsqrt (zq 2).
Hypothesis F3 : fsqrt (zq 2) < zq 2 * fsqrt 1.
Let A := segment_arrangement orc.
Variable sp : sheetplex.
Hypothesis M : plex_made sp.
Hypothesis PN : plex_in neat sp.
Let OC : op_closed A fsqrt neat := neat_closed orc fsqrt F1 F2 F3.
Notation good := (good sp).

Lemma e_or a b : neat a -> neat b -> errs E (g2_or A a b). Proof. exact (errs_or E EA orc a b). Qed.
Lemma e_and a b : neat a -> neat b -> errs E (g2_and A a b). Proof. exact (errs_and E EA orc a b). Qed.
Lemma e_sub a b : neat a -> neat b -> errs E (g2_sub A a b). Proof. exact (errs_sub E EA orc a b). Qed.
Lemma e_fing s w : errs E (make_fingers01 A s w). Proof. exact (errs_fingers E EA orc s w). Qed.
Lemma e_area g q : neat g -> errs E (assert_area g q). Proof. intros (G & _). exact (errs_assert_area E EA g q G). Qed.
Lemma e_buf g q : neat g -> errs E (g2_buffer A fsqrt g (NMpq q)).
Proof. intros N. apply (errs_buffer E EA orc fsqrt g (NMpq q) F1 F2 F3 N). exists q. reflexivity. Qed.
Lemma e_proj s g : neat g -> errs E (is_project_to_1d s g). Proof. intros (G & _). exact (errs_project E EA s g G). Qed.
Lemma n_proj s g r : is_project_to_1d s g = Ok r -> is_geom1d r. Proof. apply is_geom1d_project. Qed.
Lemma n_fing s w f : side_of sp s -> is_geom1d w -> make_fingers01 A s w = Ok f -> neat f. Proof. exact (fing_neat orc fsqrt F1 F2 F3 sp M s w f). Qed.
Lemma e_msub1 m k g x : dget id2_eqb k m = Some x -> is_geom1d x -> is_geom1d g -> errs E (msub1 m k g).
Proof. intros D X G. unfold msub1, map_op_geom. rewrite D. apply errs_bind; [now apply errs_g_sub|intros; exact I]. Qed.
Lemma e_msub2 m k g x : dget String.eqb k m = Some x -> neat x -> neat g -> errs E (msub2 A m k g).
Proof. intros D X G. unfold msub2, map_op_geom. rewrite D. apply errs_bind; [now apply e_sub|intros; exact I]. Qed.

(** ** the checks *)
Lemma e_check_sheet sb sh : good sb -> In sh (values (sp_sheets sp)) -> errs E (check_sheet A sb sh).
Proof.
  intros G I. destruct (sheet_val sp M PN sh I) as (K & _). unfold check_sheet. destruct (lk_sch sp sb _ G K) as (-> & N1), (lk_sok sp sb _ G K) as (-> & N2). cbn [bind].
  apply errs_bind; [now apply e_sub|]. intros d D. apply e_area. exact (oc_sub _ _ _ OC _ _ _ N1 N2 D).
Qed.
Lemma e_check_side sb s : good sb -> side_of sp s -> errs E (check_side A sb s).
Proof.
  intros G S. pose proof (gd_legal _ _ G) as L. unfold check_side. rewrite (iv_plex _ _ L). destruct (lk_opp sp M s S) as (o & -> & O & _). cbn [bind].
  destruct (lk_ich sp sb s L S) as (-> & Nc), (lk_iok sp sb s L S) as (-> & Nk), (lk_iok sp sb o L O) as (-> & No). cbn [bind].
  apply errs_bind; [now apply errs_g_sub|]. intros d D. apply errs_bind; [now apply errs_passert|]. intros u _. apply errs_bind; [now apply errs_g_and|]. intros ck _. apply errs_bind; [now apply errs_passert|]. intros u' _.
  destruct (lk_sch sp sb _ G (sheet_of_side sp M s S)) as (-> & N1). cbn [bind]. apply errs_bind; [apply e_fing|]. intros f Ff. pose proof (n_fing _ _ _ S No Ff) as Nf.
  apply errs_bind; [now apply e_and|]. intros x X. destruct (oc_and _ _ _ OC _ _ _ N1 Nf X) as (Gx & _). unfold area_lt. rewrite g2_area_ok by auto. cbn [bind]. destruct (qltb _ _); [exact I|].
  destruct (lk_ich sp sb o L O) as (-> & Nco). cbn [bind errs]. destruct (_ && _); assumption.
Qed.
Lemma e_check sb force ci : good sb -> errs E (check A sb force ci).
Proof.
  intros G. unfold check. destruct (check_step force ci) as ([|] & c); cbn [bind]; [|exact I]. apply errs_bind; [|intros; exact I]. unfold check_now. rewrite (iv_plex _ _ (gd_legal _ _ G)).
  apply errs_bind; [apply errs_mapM; intros sh Ish; now apply e_check_sheet|]. intros u _. apply errs_bind; [|intros; exact I]. apply errs_mapM. intros s Is. apply e_check_side; auto. now apply (made_list sp s M).
Qed.
Lemma e_hcheck st : good (fst st) -> errs E (hcheck A st).
Proof. intros G. unfold hcheck. apply errs_bind; [now apply e_check|intros; exact I]. Qed.

(** ** choices *)
Lemma e_choose sb s v t : good sb -> side_of sp s -> is_geom1d v -> errs E (choose_interside A sb (is_id s) v t).
Proof.
  intros G S V. pose proof (gd_legal _ _ G) as L. unfold choose_interside. rewrite (iv_plex _ _ L). destruct (lk_opp sp M s S) as (o & EO & O & ES & NE & _). rewrite ES. cbn [bind].
  destruct (lk_iok sp sb s L S) as (-> & Nk). cbn [bind]. apply errs_bind; [now apply errs_g_invert|]. intros nk NK. apply errs_bind; [apply errs_g_and; auto; exact (is_geom1d_inv _ _ Nk NK)|]. intros bad _.
  apply errs_bind; [now apply errs_passert|]. intros u _. rewrite EO. cbn [bind]. apply errs_bind; [apply e_fing|]. intros f Ff. pose proof (n_fing _ _ _ O V Ff) as Nf.
  destruct (lk_sch sp sb _ G (sheet_of_side sp M o O)) as (-> & N1). cbn [bind]. apply errs_bind; [now apply e_and|]. intros both B. apply errs_bind; [apply e_area; exact (oc_and _ _ _ OC _ _ _ Nf N1 B)|]. intros u' _.
  apply errs_bind.
  { destruct t; [exact I|]. apply errs_bind; [apply e_fing|]. intros fs Fs. pose proof (n_fing _ _ _ S V Fs) as Ns. destruct (lk_sok sp sb _ G (sheet_of_side sp M s S)) as (-> & N2). cbn [bind].
    apply errs_bind; [now apply e_and|]. intros ad AD. unfold mor2, map_or_geom. apply errs_bind; [|intros; exact I]. apply e_or; [exact (proj1 (gd_neat _ _ G (is_sheet s)))|exact (oc_and _ _ _ OC _ _ _ Ns N2 AD)]. }
  intros sc _. apply errs_bind; [apply e_fing|]. intros f' Ff'. pose proof (n_fing _ _ _ O V Ff') as Nf'.
  destruct (lk_sok sp sb _ G (sheet_of_side sp M o O)) as (D & N2). unfold sget in D. apply dgetr_ok in D. apply errs_bind; [exact (e_msub2 _ _ _ _ D N2 Nf')|]. intros sok _.
  apply errs_bind. { unfold mor1, map_or_geom. apply errs_bind; [|intros; exact I]. apply errs_g_or; auto. exact (proj1 (iv_normal _ _ L (is_id s))). }
  intros ich _. apply errs_bind; [|intros; exact I]. destruct (lk_iok sp sb o L O) as (D' & No). unfold iget in D'. apply dgetr_ok in D'. exact (e_msub1 _ _ _ _ D' No V).
Qed.
Lemma e_unchoose sb s v : good sb -> side_of sp s -> is_geom1d v -> (E AttributeError \/ forall x, pts (chosen_of sb (is_id s)) x -> ~ pts v x) -> errs E (unchoose_interside sb (is_id s) v).
Proof.
  intros G S V AT. pose proof (gd_legal _ _ G) as L. unfold unchoose_interside. rewrite (iv_plex _ _ L). destruct (lk_opp sp M s S) as (o & EO & O & ES & NE & _). rewrite ES.
  destruct (lk_ich sp sb s L S) as (-> & Nc). cbn [bind]. apply errs_bind; [now apply errs_g_and|]. intros cv CV. apply errs_bind.
  - destruct cv as [|i cv]; [exact I|]. cbn [is_empty]. destruct AT as [AT|AT]; [exact AT|]. exfalso. pose proof (is_geom1d_and _ _ _ Nc V CV) as Ng. apply is_geom1d_normal in Ng, Nc, V.
    destruct (normal_point _ _ Ng) as (x & X). apply (and_pts _ _ _ x Nc V CV) in X as (X1 & X2). exact (AT x X1 X2).
  - intros u _. apply errs_bind; [|intros; exact I]. destruct (lk_iok sp sb s L S) as (D' & No). unfold iget in D'. apply dgetr_ok in D'. exact (e_msub1 _ _ _ _ D' No V).
Qed.

(** ** a fresh state *)
Lemma e_dict {X K V} (eqb : K -> K -> bool) (key : X -> K) (f : X -> result V) l : (forall x, In x l -> errs E (f x)) -> errs E (dict_of eqb key f l).
Proof. intros H. unfold dict_of. apply (errs_foldM E (fun _ => True)); auto. intros m x Ix _. split; auto. apply errs_bind; auto. intros; exact I. Qed.
Lemma e_init_chosen sh : In sh (values (sp_sheets sp)) -> errs E (init_chosen A fsqrt sh).
Proof.
  intros Ish. destruct (sheet_val sp M PN sh Ish) as (_ & N0 & N1 & N2). unfold init_chosen. apply errs_bind; [now apply e_and|]. intros b B. pose proof (oc_and _ _ _ OC _ _ _ N0 N1 B) as Nb.
  apply errs_bind; [apply (errs_buffer E EA orc fsqrt b (NInt 1) F1 F2 F3 Nb); eexists; reflexivity|]. intros b' B'. apply errs_bind; [apply (errs_buffer E EA orc fsqrt _ (NInt 0) F1 F2 F3 N2); eexists; reflexivity|]. intros m Hm.
  apply e_and; [exact (oc_buffer _ _ _ OC _ _ _ Nb B')|exact (oc_buffer _ _ _ OC _ _ _ N2 Hm)].
Qed.
Lemma e_init_ok rad sh : exact_num rad -> In sh (values (sp_sheets sp)) -> errs E (init_ok A fsqrt rad sh).
Proof.
  intros X Ish. destruct (sheet_val sp M PN sh Ish) as (_ & N0 & N1 & N2). unfold init_ok. apply errs_bind; [now apply (errs_buffer E EA orc fsqrt _ rad F1 F2 F3 N0)|]. intros f0 H0. apply errs_bind; [now apply (errs_buffer E EA orc fsqrt _ rad F1 F2 F3 N1)|]. intros f1 H1.
  pose proof (oc_buffer _ _ _ OC _ _ _ N0 H0) as Nf0. pose proof (oc_buffer _ _ _ OC _ _ _ N1 H1) as Nf1. apply errs_bind; [now apply e_and|]. intros b B. apply errs_bind; [apply (errs_buffer E EA orc fsqrt _ (NInt 0) F1 F2 F3 N2); eexists; reflexivity|]. intros m Hm.
  apply e_and; [exact (oc_and _ _ _ OC _ _ _ Nf0 Nf1 B)|exact (oc_buffer _ _ _ OC _ _ _ N2 Hm)].
Qed.
Lemma n_init_chosen sh c : In sh (values (sp_sheets sp)) -> init_chosen A fsqrt sh = Ok c -> neat c.
Proof.
  intros Ish H. destruct (sheet_val sp M PN sh Ish) as (_ & N0 & N1 & N2). unfold init_chosen in H. apply bind_ok in H as (b & B & H). apply bind_ok in H as (b' & B' & H). apply bind_ok in H as (m & Hm & H).
  exact (oc_and _ _ _ OC _ _ _ (oc_buffer _ _ _ OC _ _ _ (oc_and _ _ _ OC _ _ _ N0 N1 B) B') (oc_buffer _ _ _ OC _ _ _ N2 Hm) H).
Qed.
Lemma n_init_ok rad sh c : In sh (values (sp_sheets sp)) -> init_ok A fsqrt rad sh = Ok c -> neat c.
Proof.
  intros Ish H. destruct (sheet_val sp M PN sh Ish) as (_ & N0 & N1 & N2). unfold init_ok in H. apply bind_ok in H as (f0 & H0 & H). apply bind_ok in H as (f1 & H1 & H). apply bind_ok in H as (b & B & H). apply bind_ok in H as (m & Hm & H).
  exact (oc_and _ _ _ OC _ _ _ (oc_and _ _ _ OC _ _ _ (oc_buffer _ _ _ OC _ _ _ N0 H0) (oc_buffer _ _ _ OC _ _ _ N1 H1) B) (oc_buffer _ _ _ OC _ _ _ N2 Hm) H).
Qed.
Lemma dict_all (f : sheet -> result geom2d) m : (forall sh c, In sh (values (sp_sheets sp)) -> f sh = Ok c -> neat c) -> dict_of String.eqb sh_id f (values (sp_sheets sp)) = Ok m ->
  (forall k, neat (geom_at m k)) /\ forall k, In k (keys (sp_sheets sp)) -> In k (keys m).
Proof.
  intros N H. split.
  - intros k. unfold geom_at. destruct (dget String.eqb k m) as [g|] eqn:D; [|exact neat_nil]. destruct (dict_of_get _ string_eqb_ok _ _ _ _ _ H) as (_ & K). apply K in D as [D|(sh & Ish & _ & D)]; [discriminate|]. exact (N sh g Ish D).
  - intros k Ik. destruct (all_keys sp M PN k Ik) as (sh & Ish & <-). exact (proj2 (dict_of_has _ _ _ _ _ H) sh Ish).
Qed.
Lemma geom_get (m : dict string geom2d) k : In k (keys m) -> sget k m = Ok (geom_at m k).
Proof. intros H. apply (dget_some _ string_eqb_ok) in H as (v & D). unfold geom_at. rewrite D. now apply dgetr_ok. Qed.
Lemma e_create rad : exact_num rad -> errs E (create_sheetbuild A fsqrt sp rad).
Proof.
  intros X. unfold create_sheetbuild. apply errs_bind; [apply e_dict; intros; now apply e_init_chosen|]. intros sc SC. apply errs_bind; [apply e_dict; intros; now apply e_init_ok|]. intros sok SOK.
  destruct (dict_all _ _ n_init_chosen SC) as (Nc & Kc), (dict_all _ _ (n_init_ok rad) SOK) as (Nk & Kk). apply errs_bind; [apply e_dict; intros; exact I|]. intros ich _.
  apply errs_bind.
  { apply e_dict. intros s Is. apply (made_list sp s M) in Is. unfold init_side_ok. pose proof (sheet_of_side sp M s Is) as J. rewrite (geom_get _ _ (Kk _ J)). cbn [bind]. destruct (sheet_key sp M PN _ J) as (sh & -> & _ & _ & _ & _ & N2). cbn [bind].
    apply errs_bind; [now apply e_and|]. intros a HA. apply errs_bind; [now apply errs_new|]. intros w W. apply errs_bind; [apply e_fing|]. intros f Ff. apply errs_bind; [apply e_and; [exact (oc_and _ _ _ OC _ _ _ (Nk _) N2 HA)|exact (n_fing _ _ _ Is (is_geom1d_new _ _ W) Ff)]|].
    intros x Hx. apply e_proj. exact (oc_and _ _ _ OC _ _ _ (oc_and _ _ _ OC _ _ _ (Nk _) N2 HA) (n_fing _ _ _ Is (is_geom1d_new _ _ W) Ff) Hx). }
  intros iok IOK.
  set (Q := fun m : dict id2 geom1d => (forall id, In id (keys m) <-> In id (map is_id (sp_intersides sp None))) /\ NoDup (keys m) /\ all1 is_geom1d m).
  assert (Q0 : Q iok).
  { split; [intros id; destruct (dict_of_in _ _ _ _ _ IOK id) as (K & _); cbn in K; tauto|]. split; [exact (proj1 (dict_of_get _ id2_eqb_ok _ _ _ _ _ IOK) (NoDup_nil _))|]. intros id.
    destruct (dget id2_eqb id iok) as [v|] eqn:D; [|exact is_geom1d_empty]. destruct (dict_of_in _ _ _ _ _ IOK id) as (_ & K). apply K in D as [D|(s & Is & D)]; [discriminate|]. cbn [opt].
    unfold init_side_ok in D. do 6 (apply bind_ok in D as (? & _ & D)). exact (is_geom1d_project _ _ _ _ D). }
  assert (GET : forall m s, Q m -> side_of sp s -> iget (is_id s) m = Ok (opt (dget id2_eqb (is_id s) m)) /\ is_geom1d (opt (dget id2_eqb (is_id s) m))).
  { intros m s (Q1 & _ & Q2) S. split; [|apply Q2]. assert (J : In (is_id s) (keys m)) by (apply Q1, in_map_iff; exists s; split; auto; now apply (made_list sp s M)). apply (dget_some _ id2_eqb_ok) in J as (v & D). rewrite D. now apply dgetr_ok. }
  assert (STEP : forall m s, side_of sp s -> Q m -> errs E (and_opposite sp m s) /\ forall m', and_opposite sp m s = Ok m' -> Q m').
  { intros m s S Qm. unfold and_opposite. destruct (lk_opp sp M s S) as (o & -> & O & _). destruct (GET m s Qm S) as (-> & Na). cbn [bind]. destruct (GET m o Qm O) as (-> & Nb). cbn [bind]. split.
    - apply errs_bind; [now apply errs_g_and|intros; exact I].
    - intros m' H. apply bind_ok in H as (r & R & H). apply Ok_inv in H as <-. destruct Qm as (Q1 & Q2 & Q3). split; [|split; [now apply (nodup_dset _ id2_eqb_ok)|apply all1_dset; auto; exact (is_geom1d_and _ _ _ Na Nb R)]].
      intros id. rewrite (in_keys_dset _ id2_eqb_ok), Q1. split; auto. intros [->|?]; auto. apply in_map. now apply (made_list sp s M). }
  apply errs_bind. { apply (errs_foldM E Q); auto. intros m s Is Qm. apply (made_list sp s M) in Is. now apply STEP. }
  intros iok' IOK'. assert (Q' : Q iok').
  { clear -Q0 IOK' STEP M. assert (SI : forall s, In s (sp_intersides sp None) -> side_of sp s) by (intros s; apply (made_list sp s M)). revert iok Q0 IOK' SI. generalize (sp_intersides sp None). induction l as [|s l IH]; intros iok Q0 H SI; cbn [foldM] in H; [now apply Ok_inv in H as <-|].
    apply bind_ok in H as (m & H1 & H). exact (IH m (proj2 (STEP iok s (SI s (or_introl eq_refl)) Q0) m H1) H (fun x Hx => SI x (or_intror Hx))). }
  apply errs_bind; [|intros; exact I]. apply (errs_foldM E (fun sc => (forall k, neat (geom_at sc k)) /\ forall k, In k (keys (sp_sheets sp)) -> In k (keys sc))); auto. clear dependent sc.
  intros sc (id & v) Ie (Nc & Kc). destruct Q' as (Q1 & Q2 & Q3). assert (Iid : In id (map is_id (sp_intersides sp None))) by (apply Q1, in_map_iff; exists (id, v); auto). apply in_map_iff in Iid as (s & <- & Is). apply (made_list sp s M) in Is.
  assert (V : is_geom1d v) by (apply (dget_nodup _ id2_eqb_ok _ _ _ Q2) in Ie; specialize (Q3 (is_id s)); rewrite Ie in Q3; exact Q3). pose proof (sheet_of_side sp M s Is) as J.
  unfold carve. cbn [fst snd]. destruct (lk_opp sp M s Is) as (_ & _ & _ & -> & _). cbn [bind]. rewrite (geom_get _ _ (Kc _ J)). cbn [bind]. split.
  - apply errs_bind; [apply e_fing|]. intros f Ff. apply errs_bind; [apply e_sub; auto; exact (n_fing _ _ _ Is V Ff)|intros; exact I].
  - intros sc' H. apply bind_ok in H as (f & Ff & H). apply bind_ok in H as (d & D & H). apply Ok_inv in H as <-. split; [|intros k Ik; apply (in_keys_dset _ string_eqb_ok); auto].
    intros k. rewrite geom_at_dset. destruct (String.eqb k (is_sheet s)); auto. exact (oc_sub _ _ _ OC _ _ _ (Nc _) (n_fing _ _ _ Is V Ff) D).
Qed.
End R.
