(** * Sheets from a mesh *)
From Verif.Spec Require Import Plane Region.
From Verif.Model Require Import CreateSheets.
From Verif.Proofs Require Import PyP PolyP Geom2dP Geom2dOps DictP ExtOrd SheetplexP FingerP SheetbuildP.
From Coq Require Import String Permutation.
Open Scope Qc_scope.

Lemma nat_mem_spec x l : nat_mem x l = true <-> In x l.
Proof. unfold nat_mem. rewrite existsb_exists. split; [intros (y & H & E); now apply Nat.eqb_eq in E as ->|]. exists x. split; auto. apply Nat.eqb_refl. Qed.
Lemma at_ok {X} (l : list X) i x : at_ l i = Ok x <-> nth_error l i = Some x.
Proof. unfold at_. destruct (nth_error l i); split; intros H; try discriminate; injection H as ->; reflexivity. Qed.

Section P.
Context (fl vec sect : Type) (sord : list nat -> list nat) (SO : forall l, Permutation l (sord l)).
Notation mesh := (mesh fl vec sect).
Notation all_facets := (all_facets fl vec).

(** ** find_all_facets *)
Lemma left_in (m : mesh) t : In t (triangles_left fl vec sect m) <-> (t < m_ntri fl vec sect m)%nat /\ ~ In t (List.concat (m_facets fl vec sect m)).
Proof.
  unfold triangles_left. generalize (m_facets fl vec sect m) as fs. intros fs.
  assert (H : forall l, In t (fold_left (fun left facet => filter (fun t => negb (nat_mem t facet)) left) fs l) <-> In t l /\ ~ In t (List.concat fs)).
  { induction fs as [|f fs IH]; intros l; cbn [fold_left List.concat]; [tauto|]. rewrite IH, filter_In, in_app_iff.
    destruct (nat_mem t f) eqn:E; cbn [negb]; [apply nat_mem_spec in E; intuition discriminate|].
    assert (~ In t f) by (intros X; apply nat_mem_spec in X; congruence). tauto. }
  rewrite H, in_seq. intuition lia.
Qed.
Lemma left_nodup (m : mesh) : NoDup (triangles_left fl vec sect m).
Proof.
  unfold triangles_left. generalize (m_facets fl vec sect m) as fs. intros fs.
  assert (H : forall l, NoDup l -> NoDup (fold_left (fun left facet => filter (fun t => negb (nat_mem t facet)) left) fs l)).
  { induction fs as [|f fs IH]; intros l N; cbn [fold_left]; auto. apply IH. now apply NoDup_filter. }
  apply H, seq_NoDup.
Qed.
Lemma add_all (m : mesh) l : forall af : all_facets,
  fold_left (add_triangle fl vec sect m) l af =
  mkFacets fl vec (af_facets _ _ af ++ map (fun t => [t]) l) (af_normals _ _ af ++ map (m_face_normal _ _ _ m) l)
    (af_origins _ _ af ++ map (fun t => fst (fst (m_triangle _ _ _ m t))) l) (af_areas _ _ af ++ map (m_area_face _ _ _ m) l)
    (af_boundaries _ _ af ++ map (fun t => let '(a, b, c) := m_face _ _ _ m t in [(a, b); (b, c); (c, a)]) l).
Proof.
  induction l as [|t l IH]; intros [f n o a b]; cbn [fold_left map]; [now rewrite !app_nil_r|].
  rewrite IH. unfold add_triangle. destruct (m_face _ _ _ m t) as [[x y] z], (m_triangle _ _ _ m t) as [[p q] r]. cbn. now rewrite <- !app_assoc.
Qed.
Lemma concat_singles (l : list nat) : List.concat (map (fun t => [t]) l) = l.
Proof. induction l as [|x l IH]; cbn; congruence. Qed.
Lemma all_triangles (m : mesh) : NoDup (List.concat (m_facets _ _ _ m)) -> (forall t, In t (List.concat (m_facets _ _ _ m)) -> (t < m_ntri _ _ _ m)%nat) ->
  Permutation (List.concat (m_facets _ _ _ m ++ map (fun t => [t]) (sord (triangles_left _ _ _ m)))) (seq 0 (m_ntri _ _ _ m)).
Proof.
  intros N B. rewrite concat_app, concat_singles. apply NoDup_Permutation.
  - apply nodup_app; auto; [apply (Permutation_NoDup (SO _)), left_nodup|]. intros t I J. apply (Permutation_in _ (Permutation_sym (SO _))) in J. now apply left_in in J.
  - apply seq_NoDup.
  - intros t. rewrite in_app_iff, in_seq. split.
    + intros [I|I]; [apply B in I; lia|]. apply (Permutation_in _ (Permutation_sym (SO _))) in I. apply left_in in I. lia.
    + intros (_ & L). destruct (in_dec Nat.eq_dec t (List.concat (m_facets _ _ _ m))) as [I|I]; auto. right. apply (Permutation_in _ (SO _)). apply left_in. split; auto.
Qed.

(** ** The greedy loop *)
Lemma remove_perm x l : NoDup l -> In x l -> Permutation l (x :: remove_nat x l) /\ NoDup (remove_nat x l).
Proof.
  intros N I. assert (N' : NoDup (remove_nat x l)) by now apply NoDup_filter. split; auto. apply NoDup_Permutation; auto.
  - constructor; auto. unfold remove_nat. rewrite filter_In, Nat.eqb_refl. intros (_ & H). discriminate.
  - intros y. unfold remove_nat. cbn [In]. rewrite filter_In. destruct (Nat.eqb_spec x y) as [->|E]; cbn [negb]; intuition.
Qed.
Lemma dset_new {V} k (v : V) m : ~ In k (keys m) -> dset String.eqb k v m = m ++ [(k, v)].
Proof.
  induction m as [|[j w] m IH]; intros N; cbn [dset]; [reflexivity|]. destruct (String.eqb_spec k j) as [->|E]; [exfalso; apply N; now left|].
  cbn. f_equal. apply IH. intros I. apply N. now right.
Qed.
Definition group_facets (g : groups) : list nat := gr_same g ++ gr_opposed g ++ gr_within g.

Context (A : arr_impl) (orient : shpoly -> shpoly) (rot : Type) (fneg fabs : fl -> fl) (fadd fsub : fl -> fl -> fl) (flt fle : fl -> fl -> bool)
  (vneg : vec -> vec) (vsub : vec -> vec -> vec) (vnorm : vec -> fl) (vdot : vec -> vec -> fl) (linspace : fl -> fl -> nat -> list fl)
  (section_shape : sect -> shape) (section_rot : sect -> rot) (project : rot -> vec * vec * vec -> result (list point)).
Context (th nt ot : fl).
Notation status := (facet_status fl vec sect fneg fabs fadd fsub flt fle vneg vsub vnorm vdot th nt ot).
Notation sort1 := (sort_facet fl vec sect fneg fabs fadd fsub flt fle vneg vsub vnorm vdot th nt ot).
Notation one := (create_one A orient fl vec sect rot fneg fabs fadd fsub flt fle vneg vsub vnorm vdot linspace section_shape section_rot project sord th nt ot).
Notation support := (face_support A fl vec sect rot project).
Notation csheet := (csheet fl vec).
Notation cstate := (cstate fl vec).

Lemma sort_loop m af facet n o l : forall g g', foldM (sort1 m af facet n o) l g = Ok g' -> NoDup l -> (forall f, In f l -> In f (gr_todo g)) -> NoDup (gr_todo g) ->
  exists s p w, gr_same g' = gr_same g ++ s /\ gr_opposed g' = gr_opposed g ++ p /\ gr_within g' = gr_within g ++ w /\
    Permutation (gr_todo g) (s ++ p ++ w ++ gr_todo g') /\ NoDup (gr_todo g') /\
    (forall f, In f s -> status m af n o f = Ok Same) /\ (forall f, In f p -> status m af n o f = Ok Opposed) /\ (forall f, In f w -> status m af n o f = Ok Within) /\
    (forall f, In f l -> In f (gr_todo g') -> status m af n o f = Ok Other).
Proof.
  induction l as [|f l IH]; intros g g' H N I NT; cbn [foldM] in H.
  - apply Ok_inv in H as <-. exists [], [], []. rewrite !app_nil_r. cbn. intuition.
  - apply bind_ok in H as (g1 & H1 & H). unfold sort_facet in H1. apply bind_ok in H1 as (u & _ & H1). apply bind_ok in H1 as (st & ST & H1). apply Ok_inv in H1.
    apply NoDup_cons_iff in N as (Nf & N).
    destruct (remove_perm f (gr_todo g) NT (I f (or_introl eq_refl))) as (RP & RN).
    assert (I' : forall x, In x l -> In x (remove_nat f (gr_todo g))).
    { intros x X. unfold remove_nat. apply filter_In. split; [apply I; now right|]. destruct (Nat.eqb_spec f x) as [->|]; [contradiction|reflexivity]. }
    assert (Nr : forall x, In x (remove_nat f (gr_todo g)) -> x <> f).
    { intros x X. unfold remove_nat in X. apply filter_In in X as (_ & X). intros ->. now rewrite Nat.eqb_refl in X. }
    destruct st; subst g1; (destruct (IH _ _ H N) as (s & p & w & E1 & E2 & E3 & P & ND & S1 & S2 & S3 & S4); cbn [gr_todo gr_same gr_opposed gr_within] in *; auto; try solve [intros; apply I; now right]).
    + exists (f :: s), p, w. rewrite E1, E2, E3, <- !app_assoc. cbn. repeat split; auto.
      * rewrite RP at 1. now constructor.
      * intros x [<-|X]; auto.
      * intros x [<-|X] T; auto. exfalso. apply (Nr f); auto. apply (Permutation_in _ (Permutation_sym P)). rewrite !in_app_iff. auto.
    + exists s, (f :: p), w. rewrite E1, E2, E3, <- !app_assoc. cbn. repeat split; auto.
      * rewrite RP at 1. rewrite P. apply Permutation_middle.
      * intros x [<-|X]; auto.
      * intros x [<-|X] T; auto. exfalso. apply (Nr f); auto. apply (Permutation_in _ (Permutation_sym P)). rewrite !in_app_iff. auto.
    + exists s, p, (f :: w). rewrite E1, E2, E3, <- !app_assoc. cbn. repeat split; auto.
      * rewrite RP at 1. rewrite P, !(app_assoc s p). apply Permutation_middle.
      * intros x [<-|X]; auto.
      * intros x [<-|X] T; auto. exfalso. apply (Nr f); auto. apply (Permutation_in _ (Permutation_sym P)). rewrite !in_app_iff. auto.
    + exists s, p, w. repeat split; auto. intros x [<-|X] T; auto.
Qed.

Definition heights (o : fl) : list fl := [fadd o ot; fsub (fsub o th) ot] ++ linspace (fadd (fsub o th) ot) (fsub o ot) 3.
(** what is known of a sheet *)
Record sheet_made (m : mesh) (af : all_facets) (k : string) (c : csheet) : Prop := {
  sm_id : sh_id (cs_sheet _ _ c) = k;
  sm_leader : exists f r, gr_same (cs_groups _ _ c) = f :: r /\ facet_plane fl vec vdot af f = Ok (cs_normal _ _ c, cs_offset _ _ c) /\
      forall x, In x r -> status m af (cs_normal _ _ c) (cs_offset _ _ c) x = Ok Same;
  sm_opposed : gr_opposed (cs_groups _ _ c) <> [] /\ forall x, In x (gr_opposed (cs_groups _ _ c)) -> status m af (cs_normal _ _ c) (cs_offset _ _ c) x = Ok Opposed;
  sm_within : forall x, In x (gr_within (cs_groups _ _ c)) -> status m af (cs_normal _ _ c) (cs_offset _ _ c) x = Ok Within;
  sm_slices : exists s ss, map Some (s :: ss) = skipn 2 (m_section _ _ _ m (cs_normal _ _ c) (heights (cs_offset _ _ c))) /\
      mapM (section_geom orient sect section_shape) (s :: ss) = Ok (cs_slices _ _ c) /\
      support m af (section_rot s) (gr_same (cs_groups _ _ c)) = Ok (sh_face0 (cs_sheet _ _ c)) /\
      support m af (section_rot s) (gr_opposed (cs_groups _ _ c)) = Ok (sh_face1 (cs_sheet _ _ c));
  sm_max : reduce (g2_or A) (cs_slices _ _ c) = Ok (sh_slices_max (cs_sheet _ _ c)) }.
Lemma need_sections l r : mapM (need_section sect) l = Ok r -> map Some r = l.
Proof.
  intros H. apply mapM_ok in H. induction H as [|x y l r E _ IH]; [reflexivity|]. cbn. rewrite IH. destruct x as [s|]; [|discriminate E]. apply Ok_inv in E. now subst.
Qed.
Definition allowed (only : option (list string)) (k : string) : bool := match only with Some l => str_mem k l | None => true end.
Definition used (st : cstate) : list nat :=
  List.concat (map (fun e => group_facets (cs_groups _ _ (snd e))) (c_sheets _ _ st)) ++ List.concat (map group_facets (c_dropped _ _ st)).
Record cinv (only : option (list string)) (m : mesh) (af : all_facets) (all done : list nat) (st : cstate) : Prop := {
  ci_perm : Permutation all (used st ++ c_todo _ _ st);
  ci_nodup : NoDup (c_todo _ _ st);
  ci_done : forall x, In x done -> ~ In x (c_todo _ _ st);
  ci_keys : keys (c_sheets _ _ st) = filter (allowed only) (map sheet_name (seq 0 (c_idx _ _ st)));
  ci_made : forall k c, In (k, c) (c_sheets _ _ st) -> sheet_made m af k c;
  ci_first : forall k c, In (k, c) (c_sheets _ _ st) -> exists l1 f l2 r, done = l1 ++ f :: l2 /\ gr_same (cs_groups _ _ c) = f :: r /\ forall x, In x (group_facets (cs_groups _ _ c)) -> ~ In x l1;
  ci_drop : forall g, In g (c_dropped _ _ st) -> gr_opposed g = [] \/ (exists i, (i < c_idx _ _ st)%nat /\ allowed only (sheet_name i) = false);
  ci_count : only = None -> forall g, In g (c_dropped _ _ st) -> gr_opposed g = [] }.

Lemma one_inv only m af all done st facet st' : cinv only m af all done st -> one only m af st facet = Ok st' -> cinv only m af all (done ++ [facet]) st'.
Proof.
  intros C H. unfold create_one in H. destruct (nat_mem facet (c_todo _ _ st)) eqn:E; cbn [negb] in H.
  2:{ apply Ok_inv in H as <-. destruct C as [C1 C2 C3 C4 C5 C6 C7 C8]. constructor; auto.
      - intros x X. apply in_app_iff in X as [X|[<-|[]]]; auto. intros T. apply nat_mem_spec in T. congruence.
      - intros k c I. destruct (C6 k c I) as (l1 & f & l2 & r & -> & F). exists l1, f, (l2 ++ [facet]), r. rewrite <- app_assoc. auto. }
  apply nat_mem_spec in E. apply bind_ok in H as ([n o] & PL & H). apply bind_ok in H as (u & _ & H). apply bind_ok in H as (sls & NS & H).
  apply bind_ok in H as (s0 & S0 & H). apply bind_ok in H as (slices & SL & H). apply bind_ok in H as (gr & GR & H).
  destruct (remove_perm facet _ (ci_nodup _ _ _ _ _ _ C) E) as (RP & RN).
  assert (FN : ~ In facet (remove_nat facet (c_todo _ _ st))). { unfold remove_nat. rewrite filter_In, Nat.eqb_refl. intros (_ & X). discriminate. }
  apply sort_loop in GR as (s & p & w & E1 & E2 & E3 & P & ND & G1 & G2 & G3 & _); cbn [gr_todo gr_same gr_opposed gr_within app] in *; auto.
  2:{ now apply (Permutation_NoDup (SO _)). } 2:{ intros x X. now apply (Permutation_in _ (Permutation_sym (SO _))) in X. }
  assert (PT : Permutation (c_todo _ _ st) (group_facets gr ++ gr_todo gr)).
  { rewrite RP at 1. unfold group_facets. rewrite E1, E2, E3. cbn. constructor. rewrite P. now rewrite <- !app_assoc. }
  assert (DN : forall x, In x (done ++ [facet]) -> ~ In x (gr_todo gr)).
  { intros x X T. apply in_app_iff in X as [X|[<-|[]]].
    - apply (ci_done _ _ _ _ _ _ C x X). apply (Permutation_in _ (Permutation_sym PT)). apply in_app_iff. auto.
    - apply FN. apply (Permutation_in _ (Permutation_sym P)). rewrite !in_app_iff. auto. }
  assert (FS : forall k c, In (k, c) (c_sheets _ _ st) -> exists l1 f l2 r, done ++ [facet] = l1 ++ f :: l2 /\ gr_same (cs_groups _ _ c) = f :: r /\ forall x, In x (group_facets (cs_groups _ _ c)) -> ~ In x l1).
  { intros k c I. destruct (ci_first _ _ _ _ _ _ C k c I) as (l1 & f & l2 & r & -> & F). exists l1, f, (l2 ++ [facet]), r. rewrite <- app_assoc. auto. }
  destruct (gr_opposed gr) as [|x0 xs] eqn:OP.
  { apply Ok_inv in H as <-. destruct C as [C1 C2 C3 C4 C5 C6 C7 C8]. constructor; cbn [c_todo c_sheets c_idx c_dropped]; auto.
    - unfold used in *. cbn [c_sheets c_dropped map List.concat]. rewrite C1, PT. rewrite <- !app_assoc. apply Permutation_app_head. rewrite !app_assoc. apply Permutation_app_tail, Permutation_app_comm.
    - intros g [<-|I]; auto.
    - intros On g [<-|I]; auto. }
  apply bind_ok in H as (f0 & F0 & H). apply bind_ok in H as (f1 & F1 & H). apply bind_ok in H as (smax & SX & H). apply bind_ok in H as (smin & _ & H).
  assert (AL : match only with Some l => negb (str_mem (sheet_name (c_idx _ _ st)) l) | None => false end = negb (allowed only (sheet_name (c_idx _ _ st)))) by (destruct only; reflexivity).
  rewrite AL in H. clear AL. destruct (allowed only (sheet_name (c_idx _ _ st))) eqn:AL; cbn [negb] in H.
  2:{ apply Ok_inv in H as <-. destruct C as [C1 C2 C3 C4 C5 C6 C7 C8]. constructor; cbn [c_todo c_sheets c_idx c_dropped]; auto.
    - unfold used in *. cbn [c_sheets c_dropped map List.concat]. rewrite C1, PT. rewrite <- !app_assoc. apply Permutation_app_head. rewrite !app_assoc. apply Permutation_app_tail, Permutation_app_comm.
    - rewrite C4, seq_S, map_app, filter_app. cbn [map filter plus]. rewrite AL. now rewrite app_nil_r.
    - intros g [<-|I]; [right; exists (c_idx _ _ st); split; auto|]. destruct (C7 g I) as [X|(i & X & Y)]; auto. right. exists i. split; auto.
    - intros -> g [<-|I]; [discriminate AL|]. auto. }
  apply bind_ok in H as (both & _ & H). apply Ok_inv in H as <-.
  assert (NK : ~ In (sheet_name (c_idx _ _ st)) (keys (c_sheets _ _ st))).
  { rewrite (ci_keys _ _ _ _ _ _ C). rewrite filter_In, in_map_iff. intros ((i & X & Y) & _). apply sheet_name_inj in X as ->. apply in_seq in Y. lia. }
  rewrite dset_new by exact NK. destruct C as [C1 C2 C3 C4 C5 C6 C7 C8]. constructor; cbn [c_todo c_sheets c_idx c_dropped]; auto.
  - unfold used in *. cbn [c_sheets c_dropped]. rewrite map_app, concat_app. cbn [map List.concat snd cs_groups]. rewrite app_nil_r. rewrite C1, PT.
    rewrite <- !app_assoc. apply Permutation_app_head. rewrite !app_assoc. apply Permutation_app_tail, Permutation_app_comm.
  - unfold keys. rewrite map_app. fold (keys (c_sheets _ _ st)). rewrite C4, seq_S, map_app, filter_app. cbn [map filter plus fst]. now rewrite AL.
  - intros k c I. apply in_app_iff in I as [I|[I|[]]]; auto. apply pair_inv in I as (<- & <-). constructor; cbn [cs_sheet cs_groups cs_normal cs_offset cs_slices sh_id sh_face0 sh_face1 sh_slices_max]; auto.
    + exists facet, s. auto.
    + rewrite OP. split; [discriminate|]. intros x X. apply G2. rewrite <- E2. exact X.
    + rewrite E3. auto.
    + destruct sls as [|s1 sls]; [discriminate S0|]. apply Ok_inv in S0 as <-. exists s1, sls. split; [now apply need_sections|]. split; auto. split; auto. now rewrite OP.
  - intros k c I. apply in_app_iff in I as [I|[I|[]]]; [eauto|]. apply pair_inv in I as (<- & <-). exists done, facet, [], s. cbn [cs_groups]. split; auto. split; auto.
    intros x X D. apply (C3 x D). apply (Permutation_in _ (Permutation_sym PT)). apply in_app_iff. auto.
  - intros g I. destruct (C7 g I) as [X|(i & X & Y)]; auto. right. exists i. split; auto.
Qed.
Lemma loop_inv only m af all l : forall done st st', cinv only m af all done st -> foldM (one only m af) l st = Ok st' -> cinv only m af all (done ++ l) st'.
Proof.
  induction l as [|f l IH]; intros done st st' C H; cbn [foldM] in H; [apply Ok_inv in H as <-; now rewrite app_nil_r|].
  apply bind_ok in H as (st1 & H1 & H). apply (one_inv _ _ _ _ _ _ _ _ C) in H1. apply (IH _ _ _ H1) in H. now rewrite <- app_assoc in H.
Qed.
End P.

(** ** Unions one by one *)
Lemma or_step A gs g p r : arr_sound A -> is_op gs (some_in gs) g -> is_geom2d p -> g2_or A g p = Ok r -> is_op (gs ++ [p]) (some_in (gs ++ [p])) r.
Proof.
  intros SA G Gp H. apply g2_or_ok in H; auto; [|apply G].
  assert (H' : is_op [g; p] (some_in [g; p]) r).
  { eapply is_op_iff; [|exact H]. intros q _. cbn. unfold some_in. cbn. split.
    - intros [X|X]; [exists g|exists p]; auto.
    - intros (x & [<-|[<-|[]]] & X); auto. }
  replace (gs ++ [p]) with (List.concat [gs; [p]]) by reflexivity. apply (union_step _ [g; p]); auto. constructor; auto. constructor; [|constructor]. now apply is_op_one.
Qed.
Lemma or_fold {X} A (mk : X -> result geom2d) l : arr_sound A -> (forall x p, In x l -> mk x = Ok p -> is_geom2d p) ->
  forall gs g r, is_op gs (some_in gs) g -> foldM (fun g x => p <- mk x ;; g2_or A g p) l g = Ok r ->
  exists ps, mapM mk l = Ok ps /\ is_op (gs ++ ps) (some_in (gs ++ ps)) r.
Proof.
  intros SA. induction l as [|x l IH]; intros G gs g r O H; cbn [foldM mapM] in *.
  - apply Ok_inv in H as <-. exists []. rewrite app_nil_r. auto.
  - apply bind_ok in H as (g1 & H1 & H). apply bind_ok in H1 as (p & P & H1). apply (or_step _ gs) in H1; auto; [|apply (G x p); auto; now left].
    destruct (IH (fun x p I => G x p (or_intror I)) _ _ _ H1 H) as (ps & M & O'). exists (p :: ps). rewrite P. cbn [bind]. rewrite M. cbn [bind]. rewrite <- app_assoc in O'. auto.
Qed.
Lemma reduce_or A l r : arr_sound A -> Forall is_geom2d l -> reduce (g2_or A) l = Ok r -> is_op l (some_in l) r.
Proof.
  intros SA F H. destruct F as [|g l G F]; cbn [reduce] in H; [discriminate|].
  destruct (or_fold A (@Ok geom2d) l SA) with (gs := [g]) (g := g) (r := r) as (ps & M & O).
  - intros x p I E. apply Ok_inv in E as <-. rewrite Forall_forall in F. auto.
  - now apply is_op_one.
  - exact H.
  - replace ps with l in O; auto. clear -M. apply mapM_ok in M. induction M as [|x y l ps E _ IH]; auto. apply Ok_inv in E as <-. now f_equal.
Qed.
Lemma mapM_app {X Y} (f : X -> result Y) l1 l2 r1 r2 : mapM f l1 = Ok r1 -> mapM f l2 = Ok r2 -> mapM f (l1 ++ l2) = Ok (r1 ++ r2).
Proof. intros H1 H2. apply mapM_ok in H1, H2. apply PyP.mapM_ok. now apply Forall2_app. Qed.

Section Support.
Context (A : arr_impl) (SA : arr_sound A) (fl vec sect rot : Type) (project : rot -> vec * vec * vec -> result (list point)).
Definition tri_poly (m : mesh fl vec sect) (r : rot) (t : nat) : result geom2d := verts <- project r (m_triangle _ _ _ m t) ;; polygon_q true verts.
Lemma tri_geom m r t p : tri_poly m r t = Ok p -> is_geom2d p.
Proof. intros H. apply bind_ok in H as (v & _ & H). now apply polygon_q_ok in H. Qed.
Lemma add_tri_eq m r g t : add_tri A fl vec sect rot project m r g t = (p <- tri_poly m r t ;; g2_or A g p).
Proof. unfold add_tri, tri_poly. destruct (project r (m_triangle _ _ _ m t)); reflexivity. Qed.
Lemma foldM_ext {X S} (f g : S -> X -> result S) l : (forall s x, f s x = g s x) -> forall s, foldM f l s = foldM g l s.
Proof. intros E. induction l as [|x l IH]; intros s; cbn [foldM]; [reflexivity|]. rewrite E. destruct (g s x); cbn [bind]; auto. Qed.
Lemma support_ok m af r fs : forall gs g res, is_op gs (some_in gs) g ->
  foldM (fun g f => ts <- at_ (af_facets fl vec af) f ;; foldM (add_tri A fl vec sect rot project m r) ts g) fs g = Ok res ->
  exists tss ps, mapM (at_ (af_facets fl vec af)) fs = Ok tss /\ mapM (tri_poly m r) (List.concat tss) = Ok ps /\ is_op (gs ++ ps) (some_in (gs ++ ps)) res.
Proof.
  induction fs as [|f fs IH]; intros gs g res O H; cbn [foldM mapM] in *.
  - apply Ok_inv in H as <-. exists [], []. rewrite app_nil_r. auto.
  - apply bind_ok in H as (g1 & H1 & H). apply bind_ok in H1 as (ts & T & H1). rewrite (foldM_ext _ _ ts (add_tri_eq m r)) in H1.
    apply (or_fold A _ ts SA) with (gs := gs) in H1 as (p1 & M1 & O1); auto; [|intros x p _; apply tri_geom].
    destruct (IH _ _ _ O1 H) as (tss & ps & M2 & M3 & O2). exists (ts :: tss), (p1 ++ ps). rewrite T. cbn [bind]. rewrite M2. cbn [bind List.concat]. split; auto.
    split; [now apply mapM_app|]. now rewrite app_assoc.
Qed.
End Support.

(** ** from_shapely *)
Lemma fsp_ok orient sh g : from_shapely_polygon orient sh = Ok g ->
  exists ext ints, sh_points (sp_ext (orient sh)) = Ok ext /\ Forall2 (fun h ps => sh_points h = Ok ps) (sp_ints (orient sh)) ints /\
    g = [mkSpwh ext (map (@rev point) ints)] /\ is_geom2d g.
Proof.
  unfold from_shapely_polygon. intros H. apply bind_ok in H as (ext & E & H). apply bind_ok in H as (hs & M & H). apply bind_ok in H as (s & S & H). apply bind_ok in H as (a & _ & H). apply bind_ok in H as (u & _ & H).
  apply Ok_inv in H as <-.
  assert (X : exists ints, Forall2 (fun h ps => sh_points h = Ok ps) (sp_ints (orient sh)) ints /\ hs = map (@rev point) ints).
  { apply mapM_ok in M. clear -M. induction M as [|h x l l' B _ IH]; [exists []; split; [constructor|reflexivity]|]. destruct IH as (i & F & ->).
    apply bind_ok in B as (ps & P & B). apply Ok_inv in B as <-. exists (ps :: i). split; [now constructor|reflexivity]. }
  destruct X as (ints & F & ->). exists ext, ints. split; auto. split; auto. pose proof S as S'. apply SPWH_ok in S' as (R & Hh & ->). split; auto. constructor; [|constructor]. exact S.
Qed.
Lemma fs_geom orient sh g : from_shapely orient sh = Ok g -> is_geom2d g.
Proof.
  assert (P : forall p g, from_shapely_polygon orient p = Ok g -> is_geom2d g). { intros p g' H. now apply fsp_ok in H as (? & ? & _ & _ & _ & X). }
  assert (CC : forall l, Forall is_geom2d l -> is_geom2d (List.concat l)). { intros l F. unfold is_geom2d. induction F as [|x l G F IH]; [constructor|]. cbn. apply Forall_app. auto. }
  destruct sh as [p|l|l|]; cbn [from_shapely]; intros H.
  - eauto.
  - apply bind_ok in H as (gs & M & H). apply Ok_inv in H as <-. apply CC. apply mapM_ok in M. clear -M P. induction M; constructor; eauto.
  - apply bind_ok in H as (gs & M & H). apply Ok_inv in H as <-. apply CC. apply mapM_ok in M. clear -M P. induction M as [|o g l l' H M IH]; constructor; auto. destruct o; [eauto|discriminate H].
  - discriminate.
Qed.
Lemma slices_geoms orient sect shp (l : list sect) r : mapM (section_geom orient sect shp) l = Ok r -> Forall is_geom2d r.
Proof. intros H. apply mapM_ok in H. induction H as [|x y l r E _ IH]; constructor; auto. exact (fs_geom _ _ _ E). Qed.
