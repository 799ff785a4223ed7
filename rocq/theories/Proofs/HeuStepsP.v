(** * Every heuristic is a sequence of elementary steps *)
From Verif.Spec Require Import PointSet1.
From Verif.Model Require Import Heuristics.
From Verif.Proofs Require Import PyP ExtOrd DictP Geom1dP Geom1dM SheetplexP FingerP Geom2dOps BufferP SheetbuildP HeuristicsP ClusterP.
From Verif.Props Require Import Geom1dProps SheetplexProps.
From Coq Require Import String Permutation.
Open Scope Qc_scope.

(** a class of geometries that the operations of the program do not leave *)
Record op_closed (A : arr_impl) (fsqrt : Qc -> Qc) (K : geom2d -> Prop) : Prop := {
  oc_nil : K [];
  oc_part : forall g w, K g -> In w g -> K [w];
  oc_or : forall a b r, K a -> K b -> g2_or A a b = Ok r -> K r;
  oc_and : forall a b r, K a -> K b -> g2_and A a b = Ok r -> K r;
  oc_sub : forall a b r, K a -> K b -> g2_sub A a b = Ok r -> K r;
  oc_buffer : forall g a r, K g -> g2_buffer A fsqrt g a = Ok r -> K r;
  oc_fingers : forall s w g, rot_ok s -> is_geom1d w -> make_fingers01 A s w = Ok g -> K g }.
Lemma op_geom gs P r : is_op gs P r -> is_geom2d r.
Proof. now intros (G & _). Qed.
Lemma geoms_closed A fsqrt : op_closed A fsqrt (geoms_of A).
Proof.
  constructor.
  - intros _. constructor.
  - intros g w G I SA. specialize (G SA). constructor; [exact (proj1 (Forall_forall _ _) G w I)|constructor].
  - intros a b r Ga Gb H SA. exact (op_geom _ _ _ (g2_or_ok A a b r SA (Ga SA) (Gb SA) H)).
  - intros a b r Ga Gb H SA. exact (op_geom _ _ _ (g2_and_ok A a b r SA (Ga SA) (Gb SA) H)).
  - intros a b r Ga Gb H SA. exact (op_geom _ _ _ (g2_sub_ok A a b r SA (Ga SA) (Gb SA) H)).
  - intros g a r G H SA. exact (buffer_geom A fsqrt g a r SA (G SA) H).
  - intros s w g Rk W H SA. apply is_geom1d_normal in W. exact (proj1 (fingers_any A s w 0 1 g SA Rk W H)).
Qed.

Section S.
Variable A : arr_impl.
Context {Kc : geom2d -> Prop}.
Variable fsqrt fl : Qc -> Qc.
Variable sp : sheetplex.
Hypothesis M : plex_made sp.
Hypothesis OC : op_closed A fsqrt Kc.

Definition legal (sb : sbuild) : Prop := inv1 sp sb.
Lemma legal_steps sb sb' : legal sb -> ssteps A Kc sb sb' -> legal sb'.
Proof. intros L S. exact (inv1_steps A Kc sp sb sb' M L S). Qed.
Lemma legal_iok sb id k : legal sb -> iget id (sb_iok sb) = Ok k -> is_geom1d k.
Proof. intros L H. apply dgetr_ok in H. pose proof (proj2 (iv_normal sp sb L id)) as G. unfold ok_of in G. assert (E : opt (dget id2_eqb id (sb_iok sb)) = k) by now apply opt_get. now rewrite E in G. Qed.
Lemma legal_ich sb id k : legal sb -> iget id (sb_ichosen sb) = Ok k -> is_geom1d k.
Proof. intros L H. apply dgetr_ok in H. pose proof (proj1 (iv_normal sp sb L id)) as G. unfold chosen_of in G. assert (E : opt (dget id2_eqb id (sb_ichosen sb)) = k) by now apply opt_get. now rewrite E in G. Qed.
Lemma fold_steps {X} (f : sbuild -> X -> result sbuild) l : forall sb sb', (forall sb x sb', In x l -> legal sb -> f sb x = Ok sb' -> ssteps A Kc sb sb') ->
  legal sb -> foldM f l sb = Ok sb' -> ssteps A Kc sb sb'.
Proof.
  induction l as [|x l IH]; intros sb sb' F L H; cbn [foldM] in H; [apply Ok_inv in H as <-; constructor|]. apply bind_ok in H as (s1 & H1 & H).
  pose proof (F sb x s1 (or_introl eq_refl) L H1) as S1. exact (ss_trans A Kc sb s1 sb' S1 (IH s1 sb' (fun a b c I => F a b c (or_intror I)) (legal_steps _ _ L S1) H)).
Qed.
Lemma hcheck_ok st st' : hcheck A st = Ok st' -> fst st' = fst st.
Proof. unfold hcheck. intros H. apply bind_ok in H as (ci & _ & H). apply Ok_inv in H as <-. reflexivity. Qed.
Lemma one_choose sb id v t sb' : is_geom1d v -> choose_interside A sb id v t = Ok sb' -> ssteps A Kc sb sb'.
Proof. intros G H. apply ss_one. exact (st_choose A Kc sb id v t sb' G H). Qed.
Lemma one_unchoose sb id v sb' : is_geom1d v -> unchoose_interside sb id v = Ok sb' -> ssteps A Kc sb sb'.
Proof. intros G H. apply ss_one. exact (st_unchoose A Kc sb id v sb' G H). Qed.

Lemma irrelevant_steps st st' : legal (fst st) -> choose_obviously_irrelevant A fsqrt st = Ok st' -> ssteps A Kc (fst st) (fst st').
Proof.
  intros L H. unfold choose_obviously_irrelevant in H. apply bind_ok in H as ((sb & ci) & H1 & H). apply hcheck_ok in H1. cbn [fst] in H1. subst sb.
  apply bind_ok in H as (u & H1 & H). apply bind_ok in H as (sb & H2 & H). apply Ok_inv in H as <-. cbn [fst]. unfold unchoose_intersides in H2.
  refine (fold_steps _ _ _ _ _ L H2). intros s (id & v) s' I Ls Hs. cbn [fst snd] in Hs. refine (one_unchoose _ _ _ _ _ Hs).
  unfold dict_of in H1. pose proof (dict_of_in is_id (irrelevant A fsqrt (fst st)) _ _ _ H1) as D.
  assert (ND : forall l m m', NoDup (keys m) -> foldM (fun m x => v <- irrelevant A fsqrt (fst st) x ;; Ok (dset id2_eqb (is_id x) v m)) l m = Ok m' -> NoDup (keys m')).
  { clear. induction l as [|x l IH]; intros m m' N H; cbn [foldM] in H; [now apply Ok_inv in H as <-|]. apply bind_ok in H as (m1 & H1 & H). apply bind_ok in H1 as (v & _ & H1). apply Ok_inv in H1 as <-.
    eapply IH; [|exact H]. now apply (nodup_dset _ id2_eqb_ok). }
  apply (dget_nodup _ id2_eqb_ok) in I; [|eapply ND; [|exact H1]; constructor]. destruct (D id) as (_ & D2). destruct (D2 v I) as [K|(x & _ & K)]; [discriminate|].
  unfold irrelevant in K. repeat (apply bind_ok in K as (? & ? & K)).
  assert (G11 : is_geom1d x11) by exact (is_geom1d_and _ _ _ (is_geom1d_inv _ _ (is_geom1d_project _ _ _ _ H9) H10) (legal_iok _ _ _ L H) H12).
  exact (is_geom1d_inv _ _ (is_geom1d_or _ _ _ (is_geom1d_inv _ _ G11 H14) (is_geom1d_inv _ _ (legal_iok _ _ _ L H13) H15) H16) K).
Qed.
Lemma sget_in (m : dict string geom2d) k c : Kc (geom_at m k) -> sget k m = Ok c -> Kc c.
Proof. intros G H. apply dgetr_ok in H. now rewrite <- (geom_at_get _ _ _ H). Qed.
Lemma fold_in {X} (f : geom2d -> X -> result geom2d) l : (forall a x r, In x l -> Kc a -> f a x = Ok r -> Kc r) ->
  forall a r, Kc a -> foldM f l a = Ok r -> Kc r.
Proof.
  induction l as [|x l IH]; intros F a r G H; cbn [foldM] in H; [now apply Ok_inv in H as <-|]. apply bind_ok in H as (b & H1 & H).
  apply (IH (fun a x r I => F a x r (or_intror I)) b r); [|exact H]. exact (F a x b (or_introl eq_refl) G H1).
Qed.
Lemma loose_steps st st' : legal (fst st) -> remove_loose A st = Ok st' -> ssteps A Kc (fst st) (fst st').
Proof.
  intros L H. unfold remove_loose in H. apply bind_ok in H as ((sb & ci) & H1 & H). apply hcheck_ok in H1. cbn [fst] in H1. subst sb.
  apply bind_ok in H as (sb & H2 & H). apply Ok_inv in H as <-. cbn [fst]. refine (fold_steps _ _ _ _ _ L H2). intros s sh s' Ish Ls Hs. unfold remove_loose_sheet in Hs.
  apply bind_ok in Hs as (fs & _ & Hs). apply bind_ok in Hs as (c & C & Hs). apply bind_ok in Hs as (k & K & Hs). apply bind_ok in Hs as (ps & PS & Hs). apply bind_ok in Hs as (im & IM & Hs).
  apply bind_ok in Hs as (sok & SK & Hs). apply Ok_inv in Hs as <-. apply ss_one. refine (st_sok A Kc s (sh_id sh) im sok _ SK). intros _ G.
  destruct (G (sh_id sh)) as (G1 & G2). apply (sget_in _ _ _ G1) in C. apply (sget_in _ _ _ G2) in K. pose proof (oc_or _ _ _ OC _ _ _ C K PS) as GP.
  refine (fold_in _ _ _ _ _ (oc_nil _ _ _ OC) IM). intros a x r Ix Ga Hr. unfold g2_polygons in Ix. apply in_map_iff in Ix as (w & <- & Iw).
  pose proof (oc_part _ _ _ OC _ w GP Iw) as Gx.
  unfold loose in Hr. apply bind_ok in Hr as (y & _ & Hr). destruct (g2_is_empty y); [|now apply Ok_inv in Hr as <-].
  apply bind_ok in Hr as (c' & _ & Hr). apply bind_ok in Hr as (cp & _ & Hr). apply bind_ok in Hr as (u & _ & Hr). exact (oc_or _ _ _ OC _ _ _ Ga Gx Hr).
Qed.
Lemma update_iok_steps st st' : legal (fst st) -> update_intersection_ok A st = Ok st' -> ssteps A Kc (fst st) (fst st').
Proof.
  intros L H. unfold update_intersection_ok in H. apply bind_ok in H as ((sb & ci) & H1 & H). apply hcheck_ok in H1. cbn [fst] in H1. subst sb.
  apply bind_ok in H as (sb & H2 & H). apply Ok_inv in H as <-. cbn [fst]. refine (fold_steps _ _ _ _ _ L H2). intros s x s' _ Ls Hs. unfold update_iok_side in Hs.
  apply bind_ok in Hs as (ok & _ & Hs). apply bind_ok in Hs as (ok' & _ & Hs). apply bind_ok in Hs as (f & _ & Hs). apply bind_ok in Hs as (k & _ & Hs). apply bind_ok in Hs as (mf & _ & Hs).
  apply bind_ok in Hs as (p & P & Hs). apply bind_ok in Hs as (q & Q & Hs). apply bind_ok in Hs as (u & U & Hs). apply bind_ok in Hs as (v & V & Hs). apply bind_ok in Hs as (iok & I & Hs). apply Ok_inv in Hs as <-.
  apply ss_one. refine (st_iok A Kc s (is_id x) v iok _ I). exact (is_geom1d_buffer _ _ _ (is_geom1d_sub _ _ _ (is_geom1d_project _ _ _ _ P) (is_geom1d_project _ _ _ _ Q) U) V).
Qed.
Lemma sides_in id s : In s (sp_intersides sp id) -> side_of sp s.
Proof. intros H. unfold sp_intersides in H. apply filter_In in H as (H & _). apply (made_list sp s M). unfold sp_intersides. apply filter_In. auto. Qed.
Lemma on_sides_in sb id l : legal sb -> (forall s, In s l -> In s (sp_intersides sp id)) -> forall a b a' b', Kc a -> Kc b ->
  foldM (on_sides A sb) l (a, b) = Ok (a', b') -> Kc a' /\ Kc b'.
Proof.
  intros L. induction l as [|s l IH]; intros I a b a' b' Ga Gb H; cbn [foldM] in H; [apply Ok_inv in H; injection H as <- <-; auto|].
  apply bind_ok in H as ((a1 & b1) & H1 & H). refine (IH (fun x X => I x (or_intror X)) a1 b1 a' b' _ _ H); clear H IH.
  all: pose proof (made_rot _ _ M (sides_in _ _ (I s (or_introl eq_refl)))) as Hs; unfold on_sides in H1; apply bind_ok in H1 as (o & _ & H1); apply bind_ok in H1 as (k & K & H1); apply bind_ok in H1 as (f & F & H1);
    apply bind_ok in H1 as (x & X & H1); apply bind_ok in H1 as (ko & KO & H1); apply bind_ok in H1 as (kk & KK & H1); apply bind_ok in H1 as (f' & F' & H1); apply bind_ok in H1 as (y & Y & H1);
    apply Ok_inv in H1; injection H1 as <- <-; apply (legal_iok _ _ _ L) in K, KO; pose proof (is_geom1d_or _ _ _ K KO KK) as NK;
    apply (oc_fingers _ _ _ OC _ _ _ Hs K) in F; apply (oc_fingers _ _ _ OC _ _ _ Hs NK) in F'.
  - exact (oc_or _ _ _ OC _ _ _ Ga F' Y).
  - exact (oc_or _ _ _ OC _ _ _ Gb F X).
Qed.
Lemma update_sok_steps st st' : legal (fst st) -> update_sheet_ok A fsqrt st = Ok st' -> ssteps A Kc (fst st) (fst st').
Proof.
  intros L H. unfold update_sheet_ok in H. apply bind_ok in H as ((sb & ci) & H1 & H). apply hcheck_ok in H1. cbn [fst] in H1. subst sb.
  apply bind_ok in H as (sb & H2 & H). apply Ok_inv in H as <-. cbn [fst]. refine (fold_steps _ _ _ _ _ L H2). intros s sh s' _ Ls Hs. unfold update_sok_sheet in Hs.
  apply bind_ok in Hs as ((a & b) & O & Hs). apply bind_ok in Hs as (d & D & Hs). apply bind_ok in Hs as (b' & B & Hs). apply bind_ok in Hs as (c & C & Hs). apply bind_ok in Hs as (e & E & Hs).
  apply ss_one. refine (st_area A Kc _ _ _ _ _ Hs). intros _ G. rewrite (iv_plex _ _ Ls) in O.
  apply (on_sides_in s (Some (sh_id sh)) _ Ls (fun _ I => I)) in O as (Ga & Gb); try exact (oc_nil _ _ _ OC). pose proof (oc_sub _ _ _ OC _ _ _ Ga Gb D) as Gd. pose proof (oc_buffer _ _ _ OC _ _ _ Gd B) as GB.
  apply (sget_in _ _ _ (proj1 (G (sh_id sh)))) in C. exact (oc_sub _ _ _ OC _ _ _ GB C E).
Qed.
(** the last step replaces sheet_ok and touches nothing else *)
Lemma clean_frame st st' : clean_up_thin_ok_parts A fsqrt st = Ok st' -> exists sok, fst st' = with_sok (fst st) sok.
Proof. destruct st as [sb ci]. unfold clean_up_thin_ok_parts. intros H. apply bind_ok in H as (sok & _ & H). apply Ok_inv in H as <-. exists sok. reflexivity. Qed.
Lemma clean_legal st st' : legal (fst st) -> clean_up_thin_ok_parts A fsqrt st = Ok st' -> legal (fst st').
Proof. intros L H. apply clean_frame in H as (sok & ->). destruct L as [P H N D]. constructor; auto. Qed.
Lemma fold_hsteps {X} (f : hstate -> X -> result hstate) l : forall st st', (forall st x st', In x l -> legal (fst st) -> f st x = Ok st' -> ssteps A Kc (fst st) (fst st')) ->
  legal (fst st) -> foldM f l st = Ok st' -> ssteps A Kc (fst st) (fst st').
Proof.
  induction l as [|x l IH]; intros sb sb' F L H; cbn [foldM] in H; [apply Ok_inv in H as <-; constructor|]. apply bind_ok in H as (s1 & H1 & H).
  pose proof (F sb x s1 (or_introl eq_refl) L H1) as S1. exact (ss_trans A Kc _ _ _ S1 (IH s1 sb' (fun a b c I => F a b c (or_intror I)) (legal_steps _ _ L S1) H)).
Qed.
Lemma only_ok_steps st st' : legal (fst st) -> choose_the_ok_side A st = Ok st' -> ssteps A Kc (fst st) (fst st').
Proof.
  intros L H. unfold choose_the_ok_side in H. apply bind_ok in H as (st1 & H1 & H). apply hcheck_ok in H1. rewrite <- H1 in *.
  refine (fold_hsteps _ _ _ _ _ L H). intros (sb & ci) s s' _ Ls Hs. cbn [fst] in *. unfold choose_only_ok in Hs.
  apply bind_ok in Hs as (k & K & Hs). apply bind_ok in Hs as (c & C & Hs). apply bind_ok in Hs as (t & T & Hs). apply bind_ok in Hs as (o & _ & Hs). apply bind_ok in Hs as (ko & KO & Hs).
  apply bind_ok in Hs as (t2 & T2 & Hs). apply bind_ok in Hs as (co & CO & Hs). apply bind_ok in Hs as (t3 & T3 & Hs). apply bind_ok in Hs as (t4 & T4 & Hs). apply bind_ok in Hs as (t5 & T5 & Hs).
  apply bind_ok in Hs as (sm & SM & Hs). apply bind_ok in Hs as (sb1 & S1 & Hs). apply bind_ok in Hs as (sb2 & S2 & Hs). apply hcheck_ok in Hs. rewrite Hs. cbn [fst].
  assert (G3 : is_geom1d t3) by exact (is_geom1d_sub _ _ _ (is_geom1d_sub _ _ _ (is_geom1d_sub _ _ _ (legal_iok _ _ _ Ls K) (legal_ich _ _ _ Ls C) T) (legal_iok _ _ _ Ls KO) T2) (legal_ich _ _ _ Ls CO) T3).
  assert (G5 : is_geom1d t5) by exact (is_geom1d_buffer _ _ _ (is_geom1d_buffer _ _ _ G3 T4) T5).
  exact (ss_trans A Kc _ _ _ (one_choose _ _ _ _ _ G5 S1) (one_unchoose _ _ _ _ (is_geom1d_sub _ _ _ G3 G5 SM) S2)).
Qed.

(** ** Random fingers *)
Lemma alternate_geom start l : forall cur f0 f1 g0 g1, is_geom1d f0 -> is_geom1d f1 -> alternate start l cur f0 f1 = Ok (g0, g1) -> is_geom1d g0 /\ is_geom1d g1.
Proof.
  induction l as [|(a, b) l IH]; intros cur f0 f1 g0 g1 G0 G1 H; cbn [alternate] in H; [apply Ok_inv in H; apply pair_inv in H as (<- & <-); auto|].
  apply bind_ok in H as (span & S & H). apply is_geom1d_new in S. destruct cur; apply bind_ok in H as (f & F & H).
  - exact (IH _ _ _ _ _ G0 (is_geom1d_or _ _ _ G1 S F) H).
  - exact (IH _ _ _ _ _ (is_geom1d_or _ _ _ G0 S F) G1 H).
Qed.
Lemma plan_geom R mn mx on0 on1 a b k f0 f1 k' : plan_fingers fl R mn mx on0 on1 a b k = Ok (Some (f0, f1), k') -> is_geom1d f0 /\ is_geom1d f1.
Proof.
  unfold plan_fingers. intros PL. apply bind_ok in PL as ((n1 & n2) & _ & PL). destruct (n2 <? n1)%Z; [discriminate|]. apply bind_ok in PL as ((loc & k2) & _ & PL). apply bind_ok in PL as ((g0 & g1) & AL & PL).
  apply Ok_inv in PL. apply pair_inv in PL as (PL & _). apply some_inv in PL. apply pair_inv in PL as (-> & ->). exact (alternate_geom _ _ _ _ _ _ _ is_geom1d_empty is_geom1d_empty AL).
Qed.
Lemma random_steps R mn mx st st' : legal (fst st) -> single_fingers_random A fl R mn mx st = Ok st' -> ssteps A Kc (fst st) (fst st').
Proof.
  intros L H. unfold single_fingers_random in H. apply bind_ok in H as ((sb & ci) & H1 & H). apply hcheck_ok in H1. cbn [fst] in H1. subst sb.
  apply bind_ok in H as ((sb & k) & H2 & H). apply Ok_inv in H as <-. cbn [fst].
  assert (F : forall l (s : sbuild * nat) s', legal (fst s) -> foldM (fingers_inter A fl R mn mx) l s = Ok s' -> ssteps A Kc (fst s) (fst s')).
  { clear H2 L sb. induction l as [|it l IH]; intros s s' Ls H; cbn [foldM] in H; [apply Ok_inv in H as <-; constructor|]. apply bind_ok in H as (s1 & H1 & H).
    assert (S1 : ssteps A Kc (fst s) (fst s1)).
    { clear H IH. unfold fingers_inter in H1. destruct (it_sides it) as [|s0 [|s2 [|]]]; try discriminate. repeat (apply bind_ok in H1 as (? & ? & H1)). clear -H1 Ls M.
      revert s Ls H1. generalize x3 as ivs. intros ivs. induction ivs as [|i ivs IH]; intros s Ls H1; cbn [foldM] in H1; [apply Ok_inv in H1 as <-; constructor|]. apply bind_ok in H1 as (s' & H & H1).
      assert (S1 : ssteps A Kc (fst s) (fst s')).
      { clear H1 IH. destruct s as [sb kk]. unfold fingers_range in H. destruct i as [[|a|] [|b|]]; try discriminate. cbn [fst] in *.
        apply bind_ok in H as (g & G & H). apply is_geom1d_new in G. apply bind_ok in H as (on0 & _ & H). apply bind_ok in H as (on1 & _ & H). apply bind_ok in H as ((pl & k') & PL & H).
        destruct pl as [(f0 & f1)|].
        - apply bind_ok in H as (sb1 & C1 & H). apply bind_ok in H as (sb2 & C2 & H). apply Ok_inv in H as <-. cbn [fst].
          destruct (plan_geom _ _ _ _ _ _ _ _ _ _ _ PL) as (G0 & G1). exact (ss_trans A Kc _ _ _ (one_choose _ _ _ _ _ G0 C1) (one_choose _ _ _ _ _ G1 C2)).
        - apply bind_ok in H as (sb' & H & H'). apply Ok_inv in H' as <-. exact (one_choose _ _ _ _ _ G H). }
      exact (ss_trans A Kc _ _ _ S1 (IH s' (legal_steps _ _ Ls S1) H1)). }
    exact (ss_trans A Kc _ _ _ S1 (IH s1 s' (legal_steps _ _ Ls S1) H)). }
  exact (F _ (fst st, O) (sb, k) L H2).
Qed.

(** ** Clusters *)
Definition cgeom (c : cluster) : Prop := forall j g, In (j, g) c -> is_geom1d g.
Lemma cgeom_dset c j g : cgeom c -> is_geom1d g -> cgeom (dset String.eqb j g c).
Proof. intros C G k v H. apply (in_dset _ string_eqb_ok) in H as [H|(H & _)]; [apply pair_inv in H as (_ & ->); auto|exact (C k v H)]. Qed.
Lemma cgeom_get c j g : cgeom c -> gcl j c = Ok g -> is_geom1d g.
Proof. intros C H. apply dgetr_ok in H. apply (dget_in _ string_eqb_ok) in H. exact (C _ _ H). Qed.
Lemma cgeom_or c1 c2 r : cgeom c1 -> cgeom c2 -> cmap_or c1 c2 = Ok r -> cgeom r.
Proof.
  unfold cmap_or, map_or. revert c1. induction c2 as [|(k, v) c2 IH]; intros c1 C1 C2 H; cbn [foldM] in H; [now apply Ok_inv in H as <-|]. apply bind_ok in H as (c & H1 & H).
  unfold map_or_geom in H1. cbn [fst snd] in H1. apply bind_ok in H1 as (g & G & H1). apply Ok_inv in H1 as <-.
  apply (IH _ (cgeom_dset _ _ _ C1 (is_geom1d_or _ _ _ (match dget String.eqb k c1 as o return (dget String.eqb k c1 = o -> is_geom1d (match o with Some x => x | None => [] end)) with
     | Some x => fun E => C1 k x (dget_in _ string_eqb_ok _ _ _ E) | None => fun _ => is_geom1d_empty end eq_refl) (C2 k v (or_introl eq_refl)) G)) (fun j g' I => C2 j g' (or_intror I)) H).
Qed.
Definition mgeom (m : dict string cluster) : Prop := forall k c, In (k, c) m -> cgeom c.
Lemma mgeom_dset m k c : mgeom m -> cgeom c -> mgeom (dset String.eqb k c m).
Proof. intros C G j v H. apply (in_dset _ string_eqb_ok) in H as [H|(H & _)]; [apply pair_inv in H as (_ & ->); auto|exact (C j v H)]. Qed.
Lemma mgeom_get m k c : mgeom m -> cget k m = Ok c -> cgeom c.
Proof. intros C H. apply dgetr_ok in H. apply (dget_in _ string_eqb_ok) in H. exact (C _ _ H). Qed.
Lemma add_geom st i st' : mgeom (fst st) -> ia_ok i -> add_interaction sp st i = Ok st' -> mgeom (fst st').
Proof.
  intros G (I1 & I2) H. destruct st as [m n]. unfold add_interaction in H. cbn [fst] in *. apply bind_ok in H as (cm & H1 & H).
  assert (C : cgeom cm). { unfold cmap_of in H1. apply bind_ok in H1 as (s & _ & H1). apply bind_ok in H1 as (o & _ & H1). apply Ok_inv in H1 as <-. apply cgeom_dset; auto.
    intros j g [E|[]]. apply pair_inv in E as (_ & <-). auto. }
  apply bind_ok in H as (b & _ & H). destruct b as [|b0 rest]; [apply Ok_inv in H as <-; cbn [fst]; now apply mgeom_dset|].
  apply bind_ok in H as (c0 & C0 & H). apply bind_ok in H as (c1 & C1 & H). apply bind_ok in H as (m' & H2 & H). apply Ok_inv in H as <-. cbn [fst].
  pose proof (mgeom_dset m b0 c1 G (cgeom_or _ _ _ (mgeom_get _ _ _ G C0) C C1)) as G1. revert G1 H2. generalize (dset String.eqb b0 c1 m). clear -M. induction rest as [|k rest IH]; intros m G H; cbn [foldM] in H; [now apply Ok_inv in H as <-|].
  apply bind_ok in H as (m1 & H1 & H). refine (IH m1 _ H). unfold merge_into in H1. apply bind_ok in H1 as (c0 & C0 & H1). apply bind_ok in H1 as (ck & CK & H1). apply bind_ok in H1 as (c & C & H1). apply Ok_inv in H1 as <-.
  intros j d I. unfold ddel in I. apply filter_In in I as (I & _). exact (mgeom_dset _ _ _ G (cgeom_or _ _ _ (mgeom_get _ _ _ G C0) (mgeom_get _ _ _ G CK) C) j d I).
Qed.
Lemma interactions_geom sb r : find_interactions A sb = Ok r -> Forall (fun e => Forall ia_ok (snd e)) r.
Proof.
  assert (AD : forall m k i, Forall (fun e => Forall ia_ok (snd e)) m -> ia_ok i -> Forall (fun e => Forall ia_ok (snd e)) (add_ia m k i)).
  { intros m k i F I. unfold add_ia. apply Forall_forall. intros e He. apply (in_dset _ string_eqb_ok) in He as [->|(He & _)]; [|rewrite Forall_forall in F; auto]. cbn [snd].
    apply Forall_app. split; [|repeat constructor; apply I]. destruct (dget String.eqb k m) as [l|] eqn:D; [|constructor]. apply (dget_in _ string_eqb_ok) in D. rewrite Forall_forall in F. exact (F _ D). }
  assert (I2 : forall i fi l m m', Forall (fun e => Forall ia_ok (snd e)) m -> foldM (interact2 A sb i fi) l m = Ok m' -> Forall (fun e => Forall ia_ok (snd e)) m').
  { intros i fi. induction l as [|j l IH]; intros m m' F H; cbn [foldM] in H; [now apply Ok_inv in H as <-|]. apply bind_ok in H as (m1 & H1 & H). refine (IH m1 m' _ H).
    unfold interact2 in H1. apply bind_ok in H1 as (k & _ & H1). apply bind_ok in H1 as (fj & _ & H1). apply bind_ok in H1 as (d & _ & H1). destruct (g2_is_empty d); [now apply Ok_inv in H1 as <-|].
    apply bind_ok in H1 as (di & D1 & H1). apply bind_ok in H1 as (dj & D2 & H1). apply Ok_inv in H1 as <-. pose proof (is_geom1d_project _ _ _ _ D1). pose proof (is_geom1d_project _ _ _ _ D2).
    apply AD; [apply AD; auto|]; split; auto. }
  assert (IL : forall l m m', Forall (fun e => Forall ia_ok (snd e)) m -> interact_loop A sb l m = Ok m' -> Forall (fun e => Forall ia_ok (snd e)) m').
  { induction l as [|i l IH]; intros m m' F H; cbn [interact_loop] in H; [now apply Ok_inv in H as <-|]. apply bind_ok in H as (k & _ & H). apply bind_ok in H as (fi & _ & H). apply bind_ok in H as (m1 & H1 & H).
    exact (IH m1 m' (I2 _ _ _ _ _ F H1) H). }
  unfold find_interactions. generalize (sheets_of sb). intros l. assert (F0 : Forall (fun e : string * list interaction => Forall ia_ok (snd e)) []) by constructor. revert F0. generalize (@nil (string * list interaction)).
  induction l as [|sh l IH]; intros m F H; cbn [foldM] in H; [now apply Ok_inv in H as <-|]. apply bind_ok in H as (m1 & H1 & H). exact (IH m1 (IL _ _ _ F H1) H).
Qed.
Lemma clusters_geom by_inter m : Forall (fun e => Forall ia_ok (snd e)) by_inter -> find_interaction_clusters sp by_inter = Ok m -> mgeom m.
Proof.
  unfold find_interaction_clusters. intros F H. apply bind_ok in H as ((m' & n) & H & E). apply Ok_inv in E as <-. change m' with (fst (m', n)). assert (G0 : mgeom (fst (@nil (string * cluster), O))) by (intros k c []).
  revert G0 F H. generalize (@nil (string * cluster), O). induction by_inter as [|e l IH]; intros st G F H; cbn [foldM] in H; [now apply Ok_inv in H as <-|]. apply bind_ok in H as (s1 & H1 & H). inversion F as [|? ? Fe Fl]; subst.
  refine (IH s1 _ Fl H). clear -H1 G Fe. revert st G H1. induction (snd e) as [|i k IH]; intros st G H; cbn [foldM] in H; [now apply Ok_inv in H as <-|]. apply bind_ok in H as (s2 & H2 & H). inversion Fe; subst. exact (IH H4 s2 (add_geom _ _ _ G H3 H2) H).
Qed.
Lemma extra_geom sb l : forall cl c, legal sb -> cgeom cl -> find_extra sb cl l = Ok (Some c) -> cgeom c.
Proof.
  induction l as [|s l IH]; intros cl c L G H; cbn [find_extra] in H; [discriminate|].
  apply bind_ok in H as (it & _ & H). apply bind_ok in H as (dr & D & H). apply bind_ok in H as (mr & _ & H). apply bind_ok in H as (k & _ & H). apply bind_ok in H as (mr2 & _ & H). apply bind_ok in H as (mr3 & _ & H).
  destruct (rev _) as [|i r]; [exact (IH cl c L G H)|]. destruct (opt_ltb _ _); [exact (IH cl c L G H)|].
  apply bind_ok in H as (p & P & H). apply bind_ok in H as (g & GG & H). apply bind_ok in H as (x & X & H). apply Ok_inv in H. apply some_inv in H as <-.
  apply cgeom_dset; auto. exact (is_geom1d_or _ _ _ (cgeom_get _ _ _ G P) (is_geom1d_new _ _ GG) X).
Qed.
Variable ord : dict string geom1d -> dict string geom1d.
Variable sord : list string -> list string.
Hypothesis ORD : forall c, Permutation c (ord c).
Lemma decide_steps st cl st' : legal (fst st) -> cgeom cl -> decide_cluster A fsqrt ord sord st cl = Ok st' -> ssteps A Kc (fst st) (fst st').
Proof.
  intros L G H. destruct st as [sb ci]. unfold decide_cluster in H. cbn [fst] in *. apply bind_ok in H as (its & _ & H). apply bind_ok in H as (shs & _ & H). apply bind_ok in H as (off & _ & H). apply bind_ok in H as (ch & _ & H).
  destruct (nth_error shs ch) as [sh|]; [|discriminate]. destruct (nth_error off ch) as [(a & ne)|]; [|discriminate]. apply bind_ok in H as (cl' & H1 & H).
  assert (G' : cgeom cl'). { destruct ne; [|now apply Ok_inv in H1 as <-]. apply bind_ok in H1 as ([c|] & H1 & H2); [|discriminate]. apply Ok_inv in H2 as <-. exact (extra_geom _ _ _ _ L G H1). }
  clear H1. apply bind_ok in H as ((sb0 & ci0) & H1 & H). apply hcheck_ok in H1. cbn [fst] in H1. subst sb0. apply bind_ok in H as (sb1 & H1 & H). apply bind_ok in H as (sb2 & H2 & H). apply hcheck_ok in H. rewrite H. cbn [fst].
  assert (S1 : ssteps A Kc sb sb1).
  { refine (fold_steps _ _ _ _ _ L H1). intros s x s' _ Ls Hs. unfold choose_side in Hs. apply bind_ok in Hs as (c & C & Hs). apply bind_ok in Hs as (k & K & Hs). apply bind_ok in Hs as (r & R & Hs).
    exact (one_choose _ _ _ _ _ (is_geom1d_and _ _ _ (cgeom_get _ _ _ G' C) (legal_iok _ _ _ Ls K) R) Hs). }
  refine (ss_trans A Kc _ _ _ S1 _). refine (fold_steps _ _ _ _ _ (legal_steps _ _ L S1) H2). intros s (j & r) s' I Ls Hs. apply (Permutation_in _ (Permutation_sym (ORD cl'))) in I.
  unfold unchoose_others in Hs. apply bind_ok in Hs as (it & _ & Hs). refine (fold_steps _ _ _ _ _ Ls Hs). intros t x t' _ Lt Ht. cbn beta in Ht. destruct (String.eqb _ _); [apply Ok_inv in Ht as <-; constructor|].
  exact (one_unchoose _ _ _ _ (G' _ _ I) Ht).
Qed.
Lemma multi_steps st st' : legal (fst st) -> heuristic_multi_inter_single_decisions A fsqrt ord sord st = Ok st' -> ssteps A Kc (fst st) (fst st').
Proof.
  intros L H. unfold heuristic_multi_inter_single_decisions in H. apply bind_ok in H as (ia & H1 & H). apply bind_ok in H as (m & H2 & H). apply bind_ok in H as (u & _ & H).
  rewrite (iv_plex sp _ L) in H2. pose proof (clusters_geom _ _ (interactions_geom _ _ H1) H2) as G. refine (fold_hsteps _ _ _ _ _ L H). intros s c s' I Ls Hs.
  apply in_map_iff in I as ((k & c') & <- & I). exact (decide_steps _ _ _ Ls (G _ _ I) Hs).
Qed.
End S.
