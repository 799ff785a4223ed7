(** * Which exceptions the geometric operations can raise *)
From Verif.Spec Require Import Plane Region PointSet1 Fingers Crisp.
From Verif.Model Require Import SegmentTree CellMerger Arrangement2d Geom2d Sheetplex Sheetbuild Heuristics.
From Verif.Proofs Require Import PyP PolyP ExtOrd DictP Geom1dP Geom1dM Geom2dP Geom2dOps ArrSoundP SheetplexP FingerP SheetbuildP CreateP HeuStepsP CrispP CrispQ CoverP AngleP RibbonP RibbonR OctagonP WindingR SimplifyP BufferP BufSharpP BufSharpQ RunSharpP.
From Verif.Props Require Import Geom1dProps Primitive2dProps SheetplexProps Geom2dProps SetOpsProps AreaProps CrispProps ArrTotalProps BufferProps BufferExactProps BufferSharpProps.
From Coq Require Import String.
Open Scope Qc_scope.

(** a failed assertion; TypeError if its message cannot be made (Model/Sheetbuild.v, check_side) *)
Definition check_error (e : exn) : Prop := e = AssertionError \/ e = TypeError.
Definition errs {X} (E : exn -> Prop) (r : result X) : Prop := match r with Ok _ => True | Err e => E e end.
Lemma errs_ok {X} E (x : X) : errs E (Ok x). Proof. exact I. Qed.
Lemma errs_bind {X Y} E (r : result X) (k : X -> result Y) : errs E r -> (forall x, r = Ok x -> errs E (k x)) -> errs E (bind r k).
Proof. intros H K. destruct r as [x|e]; cbn [bind]; [now apply K|exact H]. Qed.
Lemma errs_mapM {X Y} E (f : X -> result Y) l : (forall x, In x l -> errs E (f x)) -> errs E (mapM f l).
Proof.
  induction l as [|a l IH]; intros H; cbn [mapM]; [exact I|]. apply errs_bind; [apply H; now left|]. intros x _.
  apply errs_bind; [apply IH; intros; apply H; now right|]. intros; exact I.
Qed.
Lemma errs_foldM {X S} E (Q : S -> Prop) (f : S -> X -> result S) l : (forall s x, In x l -> Q s -> errs E (f s x) /\ forall s', f s x = Ok s' -> Q s') ->
  forall s, Q s -> errs E (foldM f l s).
Proof.
  induction l as [|a l IH]; intros H s Qs; cbn [foldM]; [exact I|]. destruct (H s a (or_introl eq_refl) Qs) as (H1 & H2).
  apply errs_bind; auto. intros x Ex. apply IH; auto. intros; apply H; auto. now right.
Qed.
Lemma errs_weaken {X} (E F : exn -> Prop) (r : result X) : (forall e, E e -> F e) -> errs E r -> errs F r.
Proof. destruct r; cbn; auto. Qed.
Lemma errs_is {X} E (r : result X) x : r = Ok x -> errs E r.
Proof. intros ->. exact I. Qed.

Section E.
Variable E : exn -> Prop.
Hypothesis EA : E AssertionError.
Lemma errs_only {X} (r : result X) : only_asserts r -> errs E r.
Proof. destruct r as [x|e]; cbn; auto. now intros ->. Qed.
Lemma errs_passert b : errs E (passert b).
Proof. destruct b; cbn; auto. Qed.
Lemma errs_frangle v : errs E (vector_frangle v).
Proof. destruct v as [x y]. unfold vector_frangle. apply errs_bind; [apply errs_passert|intros; exact I]. Qed.
Lemma errs_area l : l <> [] -> errs E (simple_polygon_area l).
Proof. destruct l; [tauto|intros; exact I]. Qed.
Lemma errs_dups l : errs E (check_no_dups l).
Proof. apply errs_passert. Qed.
Lemma errs_spwh o : o <> [] -> errs E (Simple_Polygon_With_Holes o []).
Proof.
  intros N. unfold Simple_Polygon_With_Holes. apply errs_bind; [apply errs_dups|intros u _]. apply errs_bind; [now apply errs_area|intros a _].
  apply errs_bind; [apply errs_passert|intros; exact I].
Qed.
Lemma errs_single o : o <> [] -> errs E (single o).
Proof. intros N. unfold single. apply errs_bind; [now apply errs_spwh|intros; exact I]. Qed.
Lemma errs_g2_area g : is_geom2d g -> errs E (g2_area g).
Proof. intros G. rewrite g2_area_ok by auto. exact I. Qed.
Lemma errs_polygon l : l <> [] -> errs E (polygon_q true l).
Proof.
  intros N. unfold polygon_q. apply errs_bind; [now apply errs_area|intros a _]. set (l' := if qltb a 0 then rev l else l).
  assert (N' : l' <> []). { unfold l'. destruct (qltb a 0); auto. intros H. apply (f_equal (@rev point)) in H. rewrite rev_involutive in H. auto. }
  apply errs_bind; [now apply errs_spwh|]. intros s S. apply SPWH_ok in S as (R & H & ->). apply errs_bind.
  - apply errs_g2_area. constructor; [|constructor]. apply spwh_ok_iff. cbn [outer holes]. auto.
  - intros b _. apply errs_bind; [apply errs_passert|intros; exact I].
Qed.
Lemma errs_starts es : forall i d, errs E (edge_starts i es d).
Proof.
  induction es as [|[v0 v1] es IH]; intros i d; cbn [edge_starts]; [exact I|]. apply errs_bind; [apply errs_frangle|intros fr _]. apply errs_bind; [apply errs_passert|intros u _].
  destruct (existsb _ d); apply IH.
Qed.
Lemma fold_some fr (d : list (Qc * nat)) : forall b, (b <> None \/ exists e, In e d /\ - (zq 8) <= fst e /\ fst e <= fr) ->
  fold_left (fun b e => if qleb (- (zq 8)) (fst e) && qleb (fst e) fr then better e b else b) d b <> None.
Proof.
  induction d as [|e d IH]; intros b H; cbn [fold_left]; [destruct H as [H|(e & [] & _)]; auto|]. apply IH.
  destruct H as [H|(e' & [<-|I] & H1 & H2)].
  - left. destruct (_ && _); auto. unfold better. destruct b as [b|]; [|tauto]. destruct (qltb _ _); discriminate.
  - left. destruct (qleb_spec (- (zq 8)) (fst e)); [|tauto]. destruct (qleb_spec (fst e) fr); [|tauto]. cbn. unfold better. destruct b as [b|]; [destruct (qltb _ _)|]; discriminate.
  - right. exists e'. auto.
Qed.
Lemma find_total es D n fr : es <> [] -> edge_starts 0 es [] = Ok D -> 0 <= fr -> exists i, find_vertex_on n D fr = Ok i.
Proof.
  intros N DE F0. destruct es as [|[v0 v1] es]; [tauto|]. pose proof DE as DE'. cbn [edge_starts] in DE'. apply bind_ok in DE' as (f & Ff & _).
  destruct (edge_starts_ok _ _ _ _ DE) as (_ & E2 & _ & E4); [intros ? []|intros ? []|].
  pose proof (frangle_range _ _ Ff) as (Q0 & Q1). assert (X : In f (map fst D)) by (apply (E4 v0 v1); [now left|exact Ff]). destruct (E2 _ X Q0 Q1) as (_ & X2).
  apply in_map_iff in X2 as (e & Ee & He). unfold find_vertex_on.
  pose proof (fold_some fr D None) as K. destruct (fold_left _ D None) as [(k & i)|]; [eauto|]. exfalso. apply K; [|reflexivity]. right. exists e. rewrite Ee. split; auto. split; qlra.
Qed.
Lemma errs_ribbon sp cp sg : errs E (minkowski_ribbon_simple_convex sp cp sg).
Proof.
  unfold minkowski_ribbon_simple_convex. apply errs_bind; [apply errs_passert|intros u U]. apply passert_ok in U. apply errs_bind; [apply errs_passert|intros u' _].
  apply errs_bind; [apply errs_starts|intros D DE]. apply errs_bind; [|intros; exact I]. apply errs_mapM. intros ((vp & v) & vn) _. unfold ribbon_part.
  assert (NE : edges_iter cp <> []). { intros H. apply (f_equal (@List.length segment)) in H. rewrite edges_iter_length in H. cbn in H. apply Nat.ltb_lt in U. lia. }
  apply errs_bind; [apply errs_frangle|intros pf PF]. apply errs_bind; [apply errs_frangle|intros nf' NF].
  destruct (find_total _ _ (List.length cp) pf NE DE (proj1 (frangle_range _ _ PF))) as (i & ->). destruct (find_total _ _ (List.length cp) nf' NE DE (proj1 (frangle_range _ _ NF))) as (j & ->). cbn [bind].
  match goal with |- errs E (let '(_, _) := ?x in _) => destruct x as (idxs & others) end.
  match goal with |- errs E (let '(_, _) := ?x in _) => destruct x as (idxs' & others') end.
  match goal with |- errs E (bind (simplify_degeneracies ?v) _) => destruct (simplify_degeneracies_ok v) as (r & -> & _) end. exact I.
Qed.

(** ** set operations *)
Variable orc : list segment -> nat -> nat -> nat.
Let A := segment_arrangement orc.
Lemma errs_arr gs op : Forall neat gs -> errs E (arrangement_op A gs op).
Proof. intros F. apply neat_both in F as (F1 & F2). apply errs_only. now apply arr_only. Qed.
Lemma errs_slice gs : Forall neat gs -> errs E (union_slice A gs).
Proof. intros F. destruct gs as [|g [|h gs]]; cbn [union_slice]; try exact I; now apply errs_arr. Qed.
Lemma errs_tree gs : Forall neat gs -> errs E (union_tree A gs).
Proof.
  unfold union_tree. enough (G : forall f l, (List.length l <= f)%nat -> Forall neat l -> errs E (union_tree_loop A f l)) by (intros; apply G; auto).
  induction f as [|f IH]; intros [|g [|h l]] L F; try exact I; [cbn in L; lia|].
  set (m := g :: h :: l) in *. change (union_tree_loop A (S f) m) with
      (nxt <- mapM (union_slice A) (chunks (List.length m) m) ;; union_tree_loop A f nxt).
  assert (FC : forall c, In c (chunks (List.length m) m) -> Forall neat c).
  { intros c C. apply Forall_forall. intros x X. rewrite Forall_forall in F. apply F. eapply chunks_in; eauto. }
  apply errs_bind; [apply errs_mapM; intros c C; apply errs_slice; now apply FC|]. intros nxt EE. apply mapM_ok in EE. apply IH.
  - apply F2_length in EE. rewrite <- EE. assert (2 <= List.length m)%nat by (cbn; lia). pose proof (chunks_shrink m). lia.
  - clear -FC EE. revert FC. induction EE as [|c r cs rs R EE IHE]; intros FC; constructor.
    + exact (proj1 (slice_neat orc c r (FC c (or_introl eq_refl)) R)).
    + apply IHE. intros; apply FC; now right.
Qed.
Lemma errs_union gs : Forall neat gs -> errs E (g2_union A gs).
Proof. intros F. unfold g2_union. destruct (UNION_N <? _)%nat; [now apply errs_tree|now apply errs_arr]. Qed.
Lemma neat2 a b : neat a -> neat b -> Forall neat [a; b].
Proof. auto. Qed.
Lemma errs_or a b : neat a -> neat b -> errs E (g2_or A a b).
Proof. intros Na Nb. unfold g2_or. destruct (g2_is_empty a); [exact I|]. destruct (g2_is_empty b); [exact I|]. apply errs_arr. auto. Qed.
Lemma errs_and a b : neat a -> neat b -> errs E (g2_and A a b).
Proof. intros Na Nb. apply errs_arr. auto. Qed.
Lemma errs_sub a b : neat a -> neat b -> errs E (g2_sub A a b).
Proof. intros Na Nb. unfold g2_sub. destruct (g2_is_empty b); [exact I|]. apply errs_arr. auto. Qed.
Lemma errs_finger s f0 f1 i : errs E (finger_polygon s f0 f1 i).
Proof. destruct i as [[|a|] [|b|]]; cbn [finger_polygon]; [exact EA|exact EA|exact EA|exact EA| |exact EA|exact EA|exact EA|exact EA]. apply errs_polygon. discriminate. Qed.
Lemma errs_fingers s w : errs E (make_fingers01 A s w).
Proof.
  unfold make_fingers01, make_fingers. apply errs_bind; [apply errs_mapM; intros; apply errs_finger|]. intros gs H. apply errs_union.
  apply mapM_ok in H. induction H as [|i x l l' H L IH]; constructor; auto. exact (finger_neat _ _ _ _ _ H).
Qed.
Lemma errs_assert_area g q : is_geom2d g -> errs E (assert_area g q).
Proof. intros G. unfold assert_area, area_lt. rewrite g2_area_ok by auto. cbn [bind]. apply errs_passert. Qed.

(** ** buffers *)
Section Oct.
Variables a b : Qc.
Hypothesis B0 : 0 < b.
Hypothesis AB : b < a.
Hypothesis A2 : a < zq 2 * b.
Lemma errs_mink depth : forall g sign, neat g -> locate_point_polygon_winding_number (oct a b) (0, 0) = Ok 1%Z -> sign = 1 \/ sign = - (1) ->
  (2 <= depth \/ 1 <= depth /\ flat_map holes g = [])%nat -> errs E (minkowski_convex_op A depth g (oct a b) sign).
Proof.
  induction depth as [|depth IH]; intros g sign (G & C) L Sg DP; [lia|].
  cbn [minkowski_convex_op]. apply errs_bind; [apply errs_passert|intros u _]. rewrite L. cbn [bind].
  change (negb (1 =? 1)%Z) with false. cbn iota. cbn [bind].
  assert (RO : forall r, ring_of g r -> r <> []) by (intros r H; exact (proj1 (proj1 (is_geom2d_rings g) G r H))).
  apply errs_bind.
  - apply errs_mapM. intros s Is. assert (No : outer s <> []) by (apply RO; exists s; auto).
    pose proof (proj1 (Forall_forall _ _) G s Is) as Gs. change (map (fun p => padd p (0, 0))) with (map (fun p : point => padd p (0, 0))).
    rewrite transformed_shift0 by auto. cbn [bind]. apply errs_bind; [now apply errs_single|]. intros p P. apply errs_bind; [apply errs_ribbon|].
    intros simples S. destruct (pieces_clean a b B0 AB A2 sign _ _ Sg No S) as (NS & FS). apply errs_bind; [|intros; exact I].
    apply errs_mapM. intros e Ie. rewrite Forall_forall in FS. destruct (FS e Ie) as (_ & Ne). unfold reorient. apply errs_bind; [apply errs_bind; [now apply errs_area|intros; exact I]|].
    intros e' E'. apply bind_ok in E' as (ar & _ & E'). apply Ok_inv in E' as <-. rewrite shift0. apply errs_single. destruct (qltb ar 0); auto.
    intros H. apply (f_equal (@rev point)) in H. rewrite rev_involutive in H. auto.
  - intros parts EP. apply errs_bind.
    + apply errs_mapM. intros h Hh. apply in_flat_map in Hh as (s & Hs & Hh). apply errs_bind; [apply errs_single, RO; exists s; auto|]. intros x X.
      pose proof (single_geom _ _ X) as G1. apply single_ok in X as (-> & _). destruct (clean_part _ s C Hs) as (_ & Qx). rewrite Forall_forall in Qx.
      apply IH; auto; [split; [exact G1|now apply single_clean, Qx]|destruct Sg as [->| ->]; [right|left]; qlra|]. right. split; [|reflexivity]. destruct DP as [DP|(_ & DP)]; [lia|].
      exfalso. assert (Z : In h (flat_map holes g)) by (apply in_flat_map; eauto). rewrite DP in Z. destruct Z.
    + intros hneg EH. apply PyP.mapM_ok in EP. apply PyP.mapM_ok in EH.
      assert (FP : Forall (fun pe => neat (fst pe) /\ Forall neat (snd pe)) parts).
      { clear -EP G C Sg B0 AB A2. revert G C. induction EP as [|s pe g parts H EP IHp]; intros G C; constructor.
        - inversion G; subst. destruct (clean_part _ s C ltac:(now left)) as (Co & _).
          apply bind_ok in H as (t & T & H). apply bind_ok in H as (o & O & H). apply bind_ok in H as (simples & S & H). apply bind_ok in H as (ext & X & H).
          injection H as <-. rewrite transformed_shift0 in T by auto. injection T as <-. pose proof (single_geom _ _ O) as Go. apply single_ok in O as (-> & RO). cbn [fst snd].
          split; [split; [auto|now apply single_clean]|]. apply PyP.mapM_ok in X. destruct (pieces_clean a b B0 AB A2 sign _ _ Sg (proj1 RO) S) as (NS & FS).
          clear -X FS. induction X as [|e x l m H X IHe]; constructor; [|inversion FS; auto]. apply bind_ok in H as (e' & E' & H). pose proof (single_geom _ _ H) as Gx. rewrite shift0 in H. apply single_ok in H as (-> & _).
          assert (Ce : clean e') by (unfold reorient in E'; apply bind_ok in E' as (ar & _ & E'); injection E' as <-; inversion FS as [|? ? (Q & _)]; destruct (qltb ar 0); [now apply clean_rev|auto]).
          split; [exact Gx|now apply single_clean].
        - apply IHp; [inversion G; auto|]. intros x (s' & Hs & Q). apply C. exists s'. split; [now right|auto]. }
      assert (NH : Forall neat hneg).
      { assert (CH : Forall clean (flat_map holes g)). { apply Forall_forall. intros h Hh. apply in_flat_map in Hh as (s & Hs & Hh). destruct (clean_part _ s C Hs) as (_ & Qx). rewrite Forall_forall in Qx. auto. }
        clear -EH L Sg CH B0 AB A2. induction EH as [|h m hs ms H EH IHh]; constructor; [|inversion CH; auto]. apply bind_ok in H as (x & Ex & H).
        pose proof (single_geom _ _ Ex) as G1. apply single_ok in Ex as (-> & RO). inversion CH.
        apply sharp_neat. apply (mink_sharp a b B0 AB A2 orc depth [mkSpwh h []] (- sign) m); auto; [split; [auto|now apply single_clean]|destruct Sg as [->| ->]; [right|left]; qlra]. }
      assert (N1 : Forall neat (map fst parts)) by (clear -FP; induction FP as [|pe ps (P1 & P2) FP IHp]; constructor; auto).
      assert (N2 : Forall neat (flat_map snd parts)) by (clear -FP; induction FP as [|pe ps (P1 & P2) FP IHp]; [constructor|cbn [flat_map]; apply Forall_app; auto]).
      assert (N3 : Forall neat (flat_map (fun pe => fst pe :: snd pe) parts)) by (clear -FP; induction FP as [|pe ps (P1 & P2) FP IHp]; [constructor|cbn [flat_map]; apply Forall_app; split; [constructor; auto|auto]]).
      assert (NP : Forall neat (if qltb 0 sign then flat_map (fun pe => fst pe :: snd pe) parts else map fst parts)) by (destruct (qltb 0 sign); auto).
      assert (NN : Forall neat ((if qltb 0 sign then [] else flat_map snd parts) ++ hneg)) by (apply Forall_app; split; auto; destruct (qltb 0 sign); auto).
      apply errs_bind; [now apply errs_tree|]. intros gpos U1. apply errs_bind; [now apply errs_tree|]. intros gneg U2.
      apply errs_sub; [exact (proj1 (tree_neat orc _ _ _ NP U1))|exact (proj1 (tree_neat orc _ _ _ NN U2))].
Qed.
End Oct.
Lemma oct_setup fsqrt q : 0 < fsqrt 1 -> fsqrt 1 < fsqrt (zq 2) -> fsqrt (zq 2) < zq 2 * fsqrt 1 -> q <> 0 ->
  exists a b, 0 < b /\ b < a /\ a < zq 2 * b /\ locate_point_polygon_winding_number (oct a b) (0, 0) = Ok 1%Z /\ buffer_of_size fsqrt (qabs q) = oct a b.
Proof.
  intros F1 F2 F3 Nq. change (zq 2) with (1 + 1) in F2, F3.
  assert (Pq : 0 < qabs q) by (unfold qabs; destruct (qleb_spec 0 q), (qc_not_eq _ _ Nq); qlra).
  assert (F2p : 0 < fsqrt (zq 2)) by (change (zq 2) with (1 + 1); qlra).
  destruct (buffer_octagon fsqrt (qabs q) Pq F1 F2p) as (a & b & Pa & Pb & Ea & Eb & EO). change (zq 2) with (1 + 1) in Eb. exists a, b.
  fold (oct a b) in EO. split; auto.
  assert (AB : b < a). { destruct (qltb_spec b a); auto. exfalso. assert (0 < (fsqrt (1 + 1) - fsqrt 1) * a) by (apply mpp; qlra). assert (0 <= fsqrt (1 + 1) * (b - a)) by (apply mnn; qlra). qlra. }
  assert (A2 : a < zq 2 * b). { change (zq 2) with (1 + 1). destruct (qltb_spec a ((1 + 1) * b)); auto. exfalso. change (zq 2) with (1 + 1) in F3. assert (0 < ((1 + 1) * fsqrt 1 - fsqrt (1 + 1)) * b) by (apply mpp; qlra). assert (0 <= fsqrt 1 * (a - (1 + 1) * b)) by (apply mnn; qlra). qlra. }
  pose proof (buffer_origin fsqrt (qabs q) Pq F1 F2p) as L. rewrite EO in L. auto.
Qed.
Definition exact_num (v : pynum) : Prop := exists q, FractionFromExact v = Ok q.
Lemma errs_buffer fsqrt g v : 0 < fsqrt 1 -> fsqrt 1 < fsqrt (zq 2) -> fsqrt (zq 2) < zq 2 * fsqrt 1 -> neat g -> exact_num v -> errs E (g2_buffer A fsqrt g v).
Proof.
  intros F1 F2 F3 N (q & V). unfold g2_buffer. rewrite V. cbn [bind]. destruct (match pval v with Some (Fin a) => qeqb a 0 | _ => false end) eqn:Z; [exact I|].
  assert (Nq : q <> 0). { intros ->. destruct v; cbn in V, Z; try discriminate; apply Ok_inv in V; rewrite V in Z; now destruct (qeqb_spec 0 0). }
  destruct (oct_setup fsqrt q F1 F2 F3 Nq) as (a & b & B0 & AB & A2 & L & ->). apply errs_mink; auto. destruct (qltb 0 q); auto.
Qed.

(** ** one dimension *)
Lemma errs_new a b : errs E (Geom1D [[NMpq a; NMpq b]]).
Proof.
  unfold Geom1D. change (sort_by pylist_ltb [[NMpq a; NMpq b]]) with [[NMpq a; NMpq b]]. cbn [mapM conv_interval].
  apply errs_bind; [|intros; exact I]. apply errs_bind; [|intros; exact I]. apply errs_bind; [apply errs_passert|intros; exact I].
Qed.
Lemma errs_g_or a b : is_geom1d a -> is_geom1d b -> errs E (g_or a b).
Proof. intros H1 H2. apply is_geom1d_normal in H1, H2. rewrite g_or_ok by auto. exact I. Qed.
Lemma errs_g_and a b : is_geom1d a -> is_geom1d b -> errs E (g_and a b).
Proof. intros H1 H2. apply is_geom1d_normal in H1, H2. rewrite g_and_ok by auto. exact I. Qed.
Lemma errs_g_sub a b : is_geom1d a -> is_geom1d b -> errs E (g_sub a b).
Proof. intros H1 H2. apply is_geom1d_normal in H1, H2. rewrite g_sub_ok by auto. exact I. Qed.
Lemma errs_g_xor a b : is_geom1d a -> is_geom1d b -> errs E (g_xor a b).
Proof. intros H1 H2. apply is_geom1d_normal in H1, H2. rewrite g_xor_ok by auto. exact I. Qed.
Lemma errs_g_invert a : is_geom1d a -> errs E (g_invert a).
Proof. intros H1. apply is_geom1d_normal in H1. rewrite g_invert_ok by auto. exact I. Qed.
Lemma errs_buffer_q a q : errs E (buffer_q a q).
Proof. rewrite buffer_q_ok. exact I. Qed.
Lemma errs_project s g : is_geom2d g -> errs E (is_project_to_1d s g).
Proof.
  intros G. unfold is_project_to_1d, project_to_1d. apply errs_bind; [exact I|]. intros res0 R0. apply (errs_foldM E is_geom1d).
  - intros s0 x Ix Qs. pose proof (proj1 (Forall_forall _ _) G x Ix) as Gx. apply spwh_ok_iff in Gx as (RO & _). destruct (outer x) as [|p l] eqn:O; [now destruct RO|]. cbn [map min_max]. cbn [bind]. split.
    + apply errs_bind; [apply errs_new|]. intros iv IV. apply errs_g_or; auto. exact (is_geom1d_new _ _ IV).
    + intros s' H. apply bind_ok in H as (iv & IV & H). exact (is_geom1d_or _ _ _ Qs (is_geom1d_new _ _ IV) H).
  - change g_empty with (@Ok geom1d []) in R0. apply Ok_inv in R0 as <-. exact is_geom1d_empty.
Qed.
End E.
