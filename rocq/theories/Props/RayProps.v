(** * Ray queries: C124 *)
From Verif.Model Require Import SegmentTree CellMerger Arrangement2d Aabb RaySlow.
From Verif.Spec Require Import Plane Subdivision.
From Verif.Proofs Require Import PyP PolyP WindingP NearP DictP SweepOrd PlanarP SubdivP ArrVertexP ArrGraphP ArrSampleP ArrInitP ArrRayP ArrSoundP ArrTotalQ.
From Verif.Props Require Import Primitive2dProps Frangle2dProps SegmentTreeProps Scan2dProps AabbProps Arrangement2dProps.
From Coq Require Import Permutation Sorted.

(** ** sorting *)
Lemma sorted_unique {A} (ltb : A -> A -> bool) : (forall a b, ltb a b = false -> ltb b a = false -> a = b) -> forall l l', StronglySorted (fun a b => ltb b a = false) l ->
  StronglySorted (fun a b => ltb b a = false) l' -> Permutation l l' -> l = l'.
Proof.
  intros AS. induction l as [|a l IH]; intros l' S S' P; [symmetry; apply Permutation_nil; exact P|]. destruct l' as [|b l']; [symmetry in P; apply Permutation_nil in P; discriminate|].
  inversion S as [|? ? S1 F1]; subst. inversion S' as [|? ? S2 F2]; subst. rewrite Forall_forall in F1, F2. assert (a = b) as <-.
  { assert (Ia : In a (b :: l')) by (apply (Permutation_in _ P); now left). assert (Ib : In b (a :: l)) by (apply (Permutation_in _ (Permutation_sym P)); now left).
    destruct Ia as [E|Ia]; [auto|]. destruct Ib as [E|Ib]; [auto|]. apply AS; auto. }
  f_equal. apply IH; auto. exact (Permutation_cons_inv P).
Qed.
Lemma hit_lt (a b : Qc * segment) : hit_ltb a b = true <-> fst a < fst b \/ (fst a = fst b /\ slt (snd a) (snd b)).
Proof.
  unfold hit_ltb. destruct (qeqb_spec (fst a) (fst b)) as [E|N].
  - destruct (seg_ltb_spec (snd a) (snd b)) as [S|S]; split; try discriminate; auto. intros [X|(_ & X)]; [exfalso; qlra|contradiction].
  - destruct (qltb_spec (fst a) (fst b)) as [S|S]; split; try discriminate; auto. intros [X|(X & _)]; contradiction.
Qed.
Lemma hit_asym a b : hit_ltb a b = true -> hit_ltb b a = false.
Proof.
  intros L. apply hit_lt in L. apply not_true_is_false. intros M. apply hit_lt in M. destruct L as [L|(L & L')], M as [M|(M & M')]; try (exfalso; clear -L M; qlra). exact (slt_irrefl _ (slt_trans _ _ _ L' M')).
Qed.
Lemma hit_total a b : hit_ltb a b = false -> hit_ltb b a = false -> a = b.
Proof.
  intros L M. assert (L' : ~ (fst a < fst b \/ (fst a = fst b /\ slt (snd a) (snd b)))) by (rewrite <- hit_lt, L; discriminate). assert (M' : ~ (fst b < fst a \/ (fst b = fst a /\ slt (snd b) (snd a)))) by (rewrite <- hit_lt, M; discriminate).
  destruct (qeqb_spec (fst a) (fst b)) as [E|N]; [|exfalso; destruct (qc_not_eq _ _ N); tauto]. destruct (slt_total (snd a) (snd b)) as [S|[S|S]]; [exfalso; tauto| |exfalso; symmetry in E; tauto]. destruct a, b. cbn [fst snd] in *. congruence.
Qed.
Lemma hit_sort l l' : Permutation l l' -> sort_by hit_ltb l = sort_by hit_ltb l'.
Proof.
  assert (S : forall x, StronglySorted (fun a b => hit_ltb b a = false) (sort_by hit_ltb x)).
  { intros x. apply sort_by_sorted; [exact hit_asym|]. intros a b c X Y. apply not_true_is_false. intros Z. apply hit_lt in Z.
    assert (X' : ~ (fst b < fst a \/ (fst b = fst a /\ slt (snd b) (snd a)))) by (rewrite <- hit_lt, X; discriminate). assert (Y' : ~ (fst c < fst b \/ (fst c = fst b /\ slt (snd c) (snd b)))) by (rewrite <- hit_lt, Y; discriminate).
    assert (LAB : fst a <= fst b) by (destruct (qltb_spec (fst b) (fst a)); [tauto|qlra]). assert (LBC : fst b <= fst c) by (destruct (qltb_spec (fst c) (fst b)); [tauto|qlra]).
    destruct Z as [Z|(Z & Z')]; [clear -Z LAB LBC; qlra|]. assert (E1 : fst b = fst a) by (clear -Z LAB LBC; qlra). assert (E2 : fst c = fst b) by congruence.
    destruct (slt_total (snd b) (snd a)) as [W|[W|W]]; [tauto| |]; [rewrite <- W in Z'; tauto|]. apply Y'. right. split; auto. exact (slt_trans _ _ _ Z' W). }
  intros P. apply (sorted_unique hit_ltb hit_total); auto. now rewrite !sort_by_perm.
Qed.

(** ** which half-edges count *)
(** [x] counts as a hit of the half-edge [e] by a ray in the direction [v]: it lies on [e], and if it is an end of [e] then it is
    the start of an edge that is clockwise from the ray or the end of another one *)
Definition half_open_hit (v : point) (e : segment) (x : point) : Prop :=
  strictly_on e x \/ (x = fst e /\ cross v (dir e) < 0) \/ (x = snd e /\ 0 < cross v (dir e)).
Definition is_hit (keep_all : bool) (v : point) (e : segment) (x : point) : Prop := if keep_all then on_seg e x else half_open_hit v e x.

Section Rays.
Variables (hes : list segment) (gv : point).
Hypothesis RV : forall e, In e hes -> In (rev_seg e) hes.
Hypothesis NE : forall e, In e hes -> fst e <> snd e.
Hypothesis GV : gv <> (0, 0).
Hypothesis GN : forall e, In e hes -> cross gv (dir e) <> 0.
Hypothesis ND : NoDup hes.
Let normal := general_normal gv.
Definition counts (keep : bool) (v : point) (e : segment) (te : Qc) : bool :=
  if keep then qleb 0 te && qleb te 1 else if qltb 0 te && qltb te 1 then true else if qeqb te 0 then qltb (cross v (dir e)) 0 else if qeqb te 1 then negb (qltb (cross v (dir e)) 0) else false.
Lemma edge_test e p v f : In e hes -> along_gv gv v -> vector_frangle v = Ok f -> exists te t, at_t e te = step p v t /\ (forall s u, at_t e s = step p v u -> s = te /\ u = t) /\
  forall keep c, 0 < c -> ray_halfedge_test e (p, padd p (pscale c v)) f keep c = Ok (if counts keep v e te then [(t, e)] else []).
Proof.
  intros I V F. destruct (along_gv_cross hes gv GV GN v V) as (_ & VN & CE). pose proof (CE e I) as CN.
  assert (AT : forall c u, at_t (p, padd p (pscale c v)) u = step p v (u * c)) by (intros c u; unfold padd, pscale; apply pteq; vec; ring).
  assert (LI : forall c, 0 < c -> exists q te tr, segment_segment_general_intersection e (p, padd p (pscale c v)) = Ok (q, te, tr) /\ at_t e te = step p v (tr * c) /\ forall t u, at_t e t = step p v u -> t = te /\ u = tr * c).
  { intros c CP. destruct (line_intersection_exact e (p, padd p (pscale c v))) as (_ & X). destruct X as (q & te & tr & E & Q1 & Q2 & U).
    { intros Z. apply CN. unfold sdir in Z. change (vsub (snd e) (fst e)) with (dir e) in Z. cbn [fst snd] in Z.
      assert (W : c * cross (dir e) v = 0). { rewrite <- Z. unfold padd, pscale. vec. ring. }
      apply Qcmult_integral in W as [W|W]; [exfalso; qlra|auto]. }
    exists q, te, tr. split; auto. split; [rewrite <- AT; congruence|]. intros t u W.
    assert (C0 : c <> 0) by (intros Z; qlra). pose proof (qdiv_mul u c C0) as QD. rewrite <- QD, <- AT in W. apply U in W as (W1 & W2).
    split; auto. now rewrite <- W2. }
  destruct (LI 1 ltac:(qlra)) as (q1 & te & tr1 & _ & A1 & U1). exists te, (tr1 * 1). split; [exact A1|]. split; [exact U1|]. intros keep c CP.
  destruct (LI c CP) as (q & te' & tr & E & A & U). destruct (U1 _ _ A) as (-> & ET). unfold ray_halfedge_test. rewrite E. cbn [bind]. unfold counts. destruct keep; [rewrite ET; reflexivity|].
  destruct (qltb 0 te && qltb te 1); [cbn [bind]; rewrite ET; reflexivity|].
  assert (KE : exists k, he_key e = Ok k /\ vector_frangle (dir e) = Ok k).
  { unfold he_key. destruct (frangle_ok (dir e)) as (k & k' & FK & _); [|exists k; auto]. intros Z. apply (NE e I). pose proof (f_equal fst Z). pose proof (f_equal snd Z). unfold dir, vsub in *. cbn [fst snd] in *. apply pteq; qlra. }
  destruct KE as (k & KE & KF). assert (CN' : cross v (dir e) <> 0) by (intros Z; apply CN; transitivity (- cross v (dir e)); [vec; ring|rewrite Z; ring]).
  destruct (ahead gv v (dir e) f k F KF CN') as (Z1 & Z2 & Z3). cbv zeta in Z1, Z2, Z3. rewrite KE. cbn [bind]. rewrite Z1, Z2. cbn [negb andb passert bind]. rewrite ET.
  assert (EQ : qltb (qmod (k - f) MAX_FRANGLE) FRANGLE_180 = qltb (cross v (dir e)) 0).
  { apply eq_true_iff_eq. rewrite Z3. destruct (qltb_spec (cross v (dir e)) 0); split; auto; try discriminate; contradiction. }
  rewrite EQ. reflexivity.
Qed.
Lemma counts_iff keep v e te x : fst e <> snd e -> cross v (dir e) <> 0 -> x = at_t e te -> (counts keep v e te = true <-> is_hit keep v e x).
Proof.
  intros NEe CN ->. assert (INJ : forall s, at_t e s = at_t e te -> s = te).
  { intros s X. destruct (qeqb_spec s te) as [|NS]; auto. exfalso. assert (D : forall k, at_t e k = step (fst e) (dir e) k) by reflexivity. rewrite !D in X. pose proof (f_equal fst X) as Xx. pose proof (f_equal snd X) as Xy. unfold step in Xx, Xy. vec.
    assert (P1 : (s - te) * (fst (snd e) - fst (fst e)) = 0) by (clear -Xx; qlra). assert (P2 : (s - te) * (snd (snd e) - snd (fst e)) = 0) by (clear -Xy; qlra).
    apply Qcmult_integral in P1 as [P1|P1]; [apply NS; clear -P1; qlra|]. apply Qcmult_integral in P2 as [P2|P2]; [apply NS; clear -P2; qlra|]. apply NEe. apply pteq; [clear -P1; qlra|clear -P2; qlra]. }
  assert (E0 : at_t e 0 = fst e) by (apply pteq; vec; ring). assert (E1 : at_t e 1 = snd e) by (apply pteq; vec; ring).
  unfold counts, is_hit. destruct keep.
  - split.
    + intros B. apply andb_true_iff in B as (B1 & B2). destruct (qleb_spec 0 te); [|discriminate]. destruct (qleb_spec te 1); [|discriminate]. exists te. auto.
    + intros (s & S0 & S1 & S). symmetry in S. apply INJ in S as ->. destruct (qleb_spec 0 te); [|contradiction]. destruct (qleb_spec te 1); [reflexivity|contradiction].
  - unfold half_open_hit. split.
    + destruct (qltb_spec 0 te) as [T0|T0], (qltb_spec te 1) as [T1|T1]; cbn [andb]; [left; exists te; auto|..].
      all: destruct (qeqb_spec te 0) as [->|Z0]; [rewrite E0; destruct (qltb_spec (cross v (dir e)) 0); [auto|discriminate]|].
      all: destruct (qeqb_spec te 1) as [->|Z1]; [rewrite E1; destruct (qltb_spec (cross v (dir e)) 0) as [|NN]; [discriminate|destruct (qc_not_eq _ _ CN); [contradiction|auto]]|discriminate].
    + intros [(s & S0 & S1 & S)|[(S & C)|(S & C)]].
      * symmetry in S. apply INJ in S as ->. destruct (qltb_spec 0 te); [|contradiction]. destruct (qltb_spec te 1); [reflexivity|contradiction].
      * rewrite <- E0 in S. symmetry in S. apply INJ in S as <-. destruct (qltb_spec 0 0); [exfalso; qlra|]. cbn [andb]. destruct (qeqb_spec 0 0); [|contradiction]. destruct (qltb_spec (cross v (dir e)) 0); [reflexivity|contradiction].
      * rewrite <- E1 in S. symmetry in S. apply INJ in S as <-. destruct (qltb_spec 1 1); [exfalso; qlra|]. rewrite andb_false_r. destruct (qeqb_spec 1 0); [exfalso; qlra|]. destruct (qeqb_spec 1 1); [|contradiction]. destruct (qltb_spec (cross v (dir e)) 0); [exfalso; qlra|reflexivity].
Qed.
Lemma hit_on keep v e x : is_hit keep v e x -> on_seg e x.
Proof.
  unfold is_hit, half_open_hit. destruct keep; [auto|]. intros [(t & T0 & T1 & T)|[(-> & _)|(-> & _)]]; [exists t; split; [qlra|]; split; [qlra|auto]| |].
  - exists 0. split; [qlra|]. split; [qlra|]. apply pteq; vec; ring.
  - exists 1. split; [qlra|]. split; [qlra|]. apply pteq; vec; ring.
Qed.
Lemma mapM_of {A B} (f : A -> result B) (g : A -> B) l : (forall x, In x l -> f x = Ok (g x)) -> mapM f l = Ok (map g l).
Proof. induction l as [|a l IH]; intros H; [reflexivity|]. cbn [mapM map]. rewrite (H a (or_introl eq_refl)). cbn [bind]. rewrite IH by (intros x X; apply H; now right). reflexivity. Qed.
Lemma flat_filter {A B} (g : A -> list B) l : concat (map g l) = concat (map g (filter (fun x => match g x with [] => false | _ => true end) l)).
Proof. induction l as [|a l IH]; [reflexivity|]. cbn [map concat filter]. destruct (g a) as [|b r] eqn:E; [exact IH|]. cbn [map concat]. rewrite E, IH. reflexivity. Qed.

Lemma queries_agree tree box p v keep : init_gstree normal hes = Ok tree -> wide_box box p -> along_gv gv v ->
  exists hits, ray_query_general gv box normal tree p v keep = Ok hits /\ ray_query_slow hes p v keep = Ok hits /\
    StronglySorted (fun a b => fst a <= fst b) hits /\ NoDup (map snd hits) /\ forall t e, In (t, e) hits <-> In e hes /\ is_hit keep v e (step p v t).
Proof.
  intros T B V. destruct (ray_line hes gv RV NE GV GN tree box p v keep T B V) as (f & c & found & F & CP & Q & FD & FN & _). specialize (FN ND).
  destruct (along_gv_cross hes gv GV GN v V) as (CG & VN & CE).
  set (tst := fun e => ray_halfedge_test e (p, padd p (pscale 1 v)) f keep 1). set (g := fun e => match tst e with Ok h => h | Err _ => [] end).
  assert (SPEC : forall e, In e hes -> ray_halfedge_test e (p, padd p (pscale c v)) f keep c = Ok (g e) /\ tst e = Ok (g e) /\ (g e = [] \/ exists t, g e = [(t, e)]) /\ forall t e', In (t, e') (g e) <-> e' = e /\ is_hit keep v e (step p v t)).
  { intros e I. destruct (edge_test e p v f I V F) as (te & t & A & U & TST). unfold g, tst. rewrite (TST keep 1 ltac:(qlra)), (TST keep c CP). split; [reflexivity|]. split; [reflexivity|].
    assert (CN' : cross v (dir e) <> 0) by (intros Z; apply (CE e I); transitivity (- cross v (dir e)); [vec; ring|rewrite Z; ring]).
    split; [destruct (counts keep v e te); eauto|]. intros u e'. split.
    - destruct (counts keep v e te) eqn:C; [|intros []]. intros [X|[]]. apply pair_inv in X as (<- & <-). split; auto. rewrite <- A. apply (counts_iff keep v e te _ (NE e I) CN' eq_refl). exact C.
    - intros (-> & H). pose proof (hit_on keep v e _ H) as (s & _ & _ & S). symmetry in S. destruct (U _ _ S) as (-> & ->). rewrite <- S in H. apply (counts_iff keep v e te _ (NE e I) CN' eq_refl) in H. rewrite H. now left. }
  assert (SLOW : ray_query_slow hes p v keep = Ok (sort_by hit_ltb (concat (map g hes)))).
  { unfold ray_query_slow. rewrite F. cbn [bind]. assert (RS : padd p v = padd p (pscale 1 v)) by (unfold padd, pscale; apply pteq; cbn [fst snd]; ring). rewrite RS.
    fold tst. change (fun e => ray_halfedge_test e (p, padd p (pscale 1 v)) f keep 1) with tst. rewrite (mapM_of tst g hes) by (intros e I; apply (SPEC e I)). reflexivity. }
  assert (FAST : ray_query_general gv box normal tree p v keep = Ok (sort_by hit_ltb (concat (map g found)))).
  { unfold ray_query_general. assert (OR : (pt_eqb v gv || pt_eqb (- fst v, - snd v) gv)%bool = true).
    { destruct V as [-> | ->]; apply orb_true_iff; [left|right]; (match goal with |- pt_eqb ?a ?b = true => destruct (pt_eqb_ok a b) as [|NN]; [reflexivity|exfalso; apply NN] end); [reflexivity|]. apply pteq; cbn [fst snd]; ring. }
    rewrite OR. unfold normal in *. rewrite Q. rewrite (mapM_of _ g found); [reflexivity|]. intros e I. apply FD in I as (I & _). apply (SPEC e I). }
  assert (PERM : Permutation (concat (map g found)) (concat (map g hes))).
  { rewrite (flat_filter g found), (flat_filter g hes). assert (P : Permutation (filter (fun x => match g x with [] => false | _ => true end) found) (filter (fun x => match g x with [] => false | _ => true end) hes)).
    { apply NoDup_Permutation; [now apply NoDup_filter|now apply NoDup_filter|]. intros e. rewrite !filter_In, FD. split; [tauto|]. intros (I & H). split; [|exact H]. split; [exact I|].
      destruct (SPEC e I) as (_ & _ & K & HH). destruct K as [K|(t & K)]; [rewrite K in H; discriminate|]. assert (X : In (t, e) (g e)) by (rewrite K; now left). apply HH in X as (_ & X). apply hit_on in X.
      exists (step p v t). split; [exact X|]. transitivity (cross gv p + t * cross gv v); [vec; ring|]. rewrite CG. ring. }
    rewrite <- !flat_map_concat_map. apply Permutation_flat_map. exact P. }
  exists (sort_by hit_ltb (concat (map g hes))). split; [rewrite FAST; now rewrite (hit_sort _ _ PERM)|]. split; [exact SLOW|]. split; [apply hits_sorted|]. split.
  - apply (Permutation_NoDup (l := map snd (concat (map g hes)))); [apply Permutation_map; symmetry; apply sort_by_perm|].
    clear -SPEC ND. assert (SUB : forall l, incl l hes -> NoDup l -> NoDup (map snd (concat (map g l))) /\ forall e, In e (map snd (concat (map g l))) -> In e l).
    { induction l as [|a l IH]; intros IC N; [split; [constructor|intros e []]|]. inversion N as [|? ? N1 N2]; subst. destruct (IH (fun x X => IC x (or_intror X)) N2) as (IH1 & IH2).
      destruct (SPEC a (IC a (or_introl eq_refl))) as (_ & _ & K & _). cbn [map concat]. destruct K as [K|(t & K)]; rewrite K; cbn [app map snd].
      - split; [exact IH1|]. intros e X. right. auto.
      - split; [constructor; auto|]. intros e [X|X]; [left; auto|right; auto]. }
    exact (proj1 (SUB hes (fun x X => X) ND)).
  - intros t e. rewrite sort_by_in, in_concat. split.
    + intros (h & X & Y). apply in_map_iff in X as (e0 & <- & I). destruct (SPEC e0 I) as (_ & _ & _ & HH). apply HH in Y as (-> & Y). auto.
    + intros (I & H). exists (g e). split; [now apply in_map|]. apply (SPEC e I). auto.
Qed.
End Rays.

(** ** C124: the query that uses the segment tree gives what looking at every half-edge gives, and both give exactly the hits, in order.
    [l] are the points that self.aabb has been extended by: the vertices and possibly more; [p] is a point of this box *)
Theorem ray_queries : forall orc sid a, Forall nondeg sid -> sid <> [] -> SegmentArrangement orc sid = Ok a ->
  exists tree, init_gstree (general_normal (a_general a)) (a_half_edges a) = Ok tree /\
  forall l p v keep, incl (keys (a_vertices a)) l ->
    (exists q r, In q l /\ In r l /\ fst q <= fst p /\ fst p <= fst r) -> (exists q r, In q l /\ In r l /\ snd q <= snd p /\ snd p <= snd r) ->
    v = a_general a \/ v = (- fst (a_general a), - snd (a_general a)) ->
  exists hits, ray_query_general (a_general a) (from_points l) (general_normal (a_general a)) tree p v keep = Ok hits /\ ray_query_slow (a_half_edges a) p v keep = Ok hits /\
    StronglySorted (fun x y => fst x <= fst y) hits /\ NoDup (map snd hits) /\
    forall t e, In (t, e) hits <-> In e (a_half_edges a) /\ is_hit keep v e (fst p + t * fst v, snd p + t * snd v).
Proof.
  intros orc sid a F NS H. pose proof (arrangement_ok orc sid a F H) as AO. pose proof (ao_graph _ _ AO) as G. destruct (ao_gv _ _ AO) as (GV & GA).
  assert (GN : forall e, In e (a_half_edges a) -> cross (a_general a) (dir e) <> 0) by (intros e I; exact (proj1 (GA e I))).
  destruct (tree_ok (a_half_edges a) (a_general a) (bt_rv _ _ _ G) (bt_ne _ _ _ G) GN) as (tree & T & _). exists tree. split; [exact T|].
  intros l p v keep IL X Y V.
  assert (W : wide_box (from_points l) p).
  { destruct sid as [|s sid]; [contradiction|]. assert (OS : on_seg s (fst s)) by (exists 0; split; [qlra|]; split; [qlra|]; apply pteq; vec; ring).
    destruct (go_cover _ _ _ G s _ (or_introl eq_refl) OS) as (e & I & _). destruct (bt_vert _ _ _ G e I) as (V1 & V2).
    apply (box_of_points l (fst e) (snd e)); auto; [apply IL; exact (proj2 (go_all _ _ _ G _) V1)|apply IL; exact (proj2 (go_all _ _ _ G _) V2)|exact (bt_ne _ _ _ G e I)]. }
  destruct (queries_agree (a_half_edges a) (a_general a) (bt_rv _ _ _ G) (bt_ne _ _ _ G) GV GN (go_nd _ _ _ G) tree (from_points l) p v keep T W V) as (hits & Q1 & Q2 & Q3 & Q4 & Q5).
  exists hits. do 4 (split; [assumption|]). exact Q5.
Qed.
Print Assumptions ray_queries.

(** a square; the fast and the slow query from a point inside give the same two edges, each in the direction that the half-open rule keeps;
    keep_all gives both directions *)
Module RayEx.
Definition sq : list segment := [((0, 0), (zq 4, 0)); ((zq 4, 0), (zq 4, zq 4)); ((zq 4, zq 4), (0, zq 4)); ((0, zq 4), (0, 0))].
Definition both_queries (p : point) (k : Qc) (keep : bool) :=
  a <- SegmentArrangement (fun _ _ => O) sq ;;
  tree <- init_gstree (general_normal (a_general a)) (a_half_edges a) ;;
  let v := (k * fst (a_general a), k * snd (a_general a)) in
  f <- ray_query_general (a_general a) (from_points (keys (a_vertices a))) (general_normal (a_general a)) tree p v keep ;;
  s <- ray_query_slow (a_half_edges a) p v keep ;;
  Ok (map (fun h => (this (fst h))) f, map (fun h => this (fst h)) s).
End RayEx.
Example ray_ex : RayEx.both_queries (zq 1, zq 2) 1 true = Ok ([-1; -1; 2; 2]%Q, [-1; -1; 2; 2]%Q) /\
  RayEx.both_queries (0, zq 4) (- (1)) true = Ok ([-4; -4; -4; -4; 0; 0; 0; 0]%Q, [-4; -4; -4; -4; 0; 0; 0; 0]%Q) /\
  RayEx.both_queries (0, zq 3) 1 false = Ok ([0; 0; 3; 3]%Q, [0; 0; 3; 3]%Q).
Proof. vm_compute. repeat split; reflexivity. Qed.
(** that [p] lies in the box is needed: from far away the fast query's ray can end inside the box, which it takes for an error *)
Theorem ray_query_far_refuted : exists a tree p hits, SegmentArrangement (fun _ _ => O) RayEx.sq = Ok a /\ init_gstree (general_normal (a_general a)) (a_half_edges a) = Ok tree /\
  ray_query_slow (a_half_edges a) p (a_general a) true = Ok hits /\ hits <> [] /\
  ray_query_general (a_general a) (from_points (keys (a_vertices a))) (general_normal (a_general a)) tree p (a_general a) true = Err AssertionError.
Proof.
  assert (E : (a <- SegmentArrangement (fun _ _ => O) RayEx.sq ;; tree <- init_gstree (general_normal (a_general a)) (a_half_edges a) ;; hits <- ray_query_slow (a_half_edges a) (zq (-78), zq 82) (a_general a) true ;;
     Ok (List.length hits, match ray_query_general (a_general a) (from_points (keys (a_vertices a))) (general_normal (a_general a)) tree (zq (-78), zq 82) (a_general a) true with Err AssertionError => true | _ => false end)) = Ok (8%nat, true)) by (vm_compute; reflexivity).
  apply bind_ok in E as (a & E1 & E). apply bind_ok in E as (tree & E2 & E). apply bind_ok in E as (hits & E3 & E). injection E as E4 E5.
  exists a, tree, (zq (-78), zq 82), hits. split; [exact E1|]. split; [exact E2|]. split; [exact E3|]. split; [intros ->; discriminate E4|].
  destruct (ray_query_general _ _ _ _ _ _ _) as [r|[]]; try discriminate E5. reflexivity.
Qed.
