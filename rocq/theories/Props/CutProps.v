(** * The cut lines of the results: C106, C107, C108. *)
From Verif.Spec Require Import Plane Region Crisp Jordan Cut.
From Verif.Model Require Import SegmentTree CellMerger Arrangement2d Geom2d Sheetplex Sheetbuild Heuristics Canned Writer.
From Verif.Proofs Require Import PyP PolyP WindingP WindingQ WindingR PlanarP DictP NearP Geom2dP Geom2dOps ArrSoundP FingerP SheetplexP SheetbuildP CreateP HeuristicsP HeuStepsP AreaP CrispP CrispQ JordanP JordanQ BufSharpP BufSharpQ RunSharpP CutP CutQ.
From Verif.Props Require Import AabbProps Primitive2dProps SheetplexProps Geom2dProps CannedProps CrispProps JordanProps RunSharpProps WriterProps.
From Coq Require Import String Permutation.
Open Scope Qc_scope.

(** ** C106 *)
(** a proper geometry whose lines meet in end points only and separate material from waste *)
Definition fine (g : geom2d) : Prop := is_geom2d g /\ cuttable g.
Lemma fine_nil : fine [].
Proof. split; [apply sharp_nil|apply cuttable_nil]. Qed.
Lemma fine_neat g : fine g -> neat g.
Proof. intros (G & C). apply sharp_neat. now apply cuttable_sharp. Qed.
Lemma fine_op orc gs op r : Forall is_geom2d gs -> Forall clean_geom gs -> op (map (fun _ => false) gs) = false -> arrangement_op (segment_arrangement orc) gs op = Ok r -> fine r.
Proof. intros F C O H. split; [apply (arrangement_sound orc gs op r F O H)|exact (arrangement_cut orc gs op r F C O H)]. Qed.
Theorem results_cuttable : forall orc fsqrt, root_ok fsqrt -> let A := segment_arrangement orc in
  (forall pts g, simple_polygon pts -> polygon (mpq_points pts) true = Ok g -> fine g) /\
  (forall a b r, is_geom2d a -> clean_geom a -> is_geom2d b -> clean_geom b -> g2_and A a b = Ok r -> fine r) /\
  (forall a b r, fine a -> fine b -> g2_or A a b = Ok r -> fine r) /\
  (forall a b r, fine a -> is_geom2d b -> clean_geom b -> g2_sub A a b = Ok r -> fine r) /\
  (forall gs r, Forall fine gs -> g2_union A gs = Ok r -> fine r) /\
  (forall g a q r, is_geom2d g -> clean_geom g -> pval a = Some (Fin q) -> q <> 0 -> g2_buffer A fsqrt g a = Ok r -> fine r) /\
  (forall g a r, fine g -> g2_buffer A fsqrt g a = Ok r -> fine r) /\
  (forall g, fine g -> sharp g).
Proof.
  intros orc fsqrt (F1 & F2 & F3) A. split; [|split; [|split; [|split; [|split; [|split; [|split]]]]]].
  - intros pts g J H. destruct (simple_polygons pts J) as (g' & r & E & G & R & _ & _ & _ & S & _). assert (g' = g) by congruence. subst g' g. split; [apply S|].
    assert (JR : simple_polygon r) by (rewrite R; destruct (qltb _ _); [now apply simple_rev|assumption]). apply simple_cuttable; auto.
    destruct S as (G & _). unfold is_geom2d in G. destruct (proj1 (is_geom2d_rings _) G r) as (_ & X & _); [exists (mkSpwh r []); cbn; auto|exact X].
  - intros a b r Ga Ca Gb Cb H. exact (and_made orc fine (fine_op orc) a b r (conj Ga Ca) (conj Gb Cb) H).
  - intros a b r Fa Fb H. exact (or_made orc fine fine_neat (fine_op orc) a b r Fa Fb H).
  - intros a b r Fa Gb Cb H. exact (sub_made orc fine fine_neat (fine_op orc) a b r Fa (conj Gb Cb) H).
  - intros gs r F H. exact (union_made orc fine fine_neat (fine_op orc) gs r F H).
  - intros g a q r G C V N H. exact (buffer_op orc fsqrt F1 F2 F3 fine fine_nil (fine_op orc) g a q r (conj G C) V N H).
  - intros g a r F H. exact (buffer_made orc fsqrt F1 F2 F3 fine fine_nil fine_neat (fine_op orc) g a r F H).
  - intros g (G & C). now apply cuttable_sharp.
Qed.
Print Assumptions results_cuttable.

(** ** C107 *)
Section Result.
Variable orc : list segment -> nat -> nat -> nat.
Variable fsqrt fl : Qc -> Qc.
Variable R : rng.
Variable mn mx : Qc.
Variable ord : dict string geom1d -> dict string geom1d.
Variable sord : list string -> list string.
Variable pord : dict string geom2d -> dict string geom2d.
Let A := segment_arrangement orc.
Lemma run_fine show rof sp rad ci ok sb h : root_ok fsqrt -> plex_made sp -> plex_clean sp -> (forall c, Permutation c (ord c)) ->
  canned_1 A fsqrt fl R mn mx ord sord show rof sp rad ci = Ok (mkCanned ok sb h) -> state_in fine sb /\ NoDup (keys (sb_schosen sb)).
Proof.
  intros (F1 & F2 & F3) M PC O H. pose proof (plex_clean_neat sp PC) as PN. pose proof (neat_closed orc fsqrt F1 F2 F3) as OC.
  destruct (canned_reaches A fsqrt fl R mn mx ord sord neat _ _ _ _ _ _ _ _ OC M O H) as (sb0 & sb1 & C & SS & sok & E & Q). pose proof (proj1 (create_inv1 _ _ _ _ _ M C)) as L.
  pose proof (ssteps_made orc fine fine_neat (fine_op orc) sp sb0 sb1 M PN L (create_made orc fsqrt F1 F2 F3 fine fine_nil fine_neat (fine_op orc) sp rad sb0 PN C) SS) as S1. split.
  - destruct Q as [->|(c1 & c2 & Q)].
    + subst sb. destruct sb1. exact S1.
    + exact (clean_up_made orc fsqrt F1 F2 F3 fine fine_nil fine_neat (fine_op orc) sb1 c1 sb c2 S1 Q).
  - subst sb. cbn [with_sok sb_schosen]. assert (N0 : NoDup (keys (sb_schosen sb0))).
    { apply create_parts in C as (sc0 & iok & E1 & _ & _ & _ & _ & E5 & _).
      assert (D : forall l m m', NoDup (keys m) -> foldM (fun m x => v <- init_chosen A fsqrt x ;; Ok (dset String.eqb (sh_id x) v m)) l m = Ok m' -> NoDup (keys m')).
      { induction l as [|x l IH]; intros m m' N X; cbn [foldM] in X; [now apply Ok_inv in X as <-|]. apply bind_ok in X as (m1 & X1 & X). apply bind_ok in X1 as (v & _ & X1). apply Ok_inv in X1 as <-. eapply IH; [|exact X]. now apply (nodup_dset _ string_eqb_ok). }
      assert (N : NoDup (keys sc0)) by (apply (D _ [] _ (NoDup_nil _) E1)). clear -E5 N. revert E5 N. generalize (sb_schosen sb0), sc0. induction (sb_iok sb0) as [|e l IH]; intros m' m X N; cbn [foldM] in X; [now apply Ok_inv in X as <-|].
      apply bind_ok in X as (m1 & X1 & X). apply (IH m' m1 X). unfold carve in X1. apply bind_ok in X1 as (s & _ & X1). apply bind_ok in X1 as (c & _ & X1). apply bind_ok in X1 as (f & _ & X1). apply bind_ok in X1 as (d & _ & X1). apply Ok_inv in X1 as <-. now apply (nodup_dset _ string_eqb_ok). }
    clear -SS N0. induction SS as [|x y z T IH U]; auto. specialize (IH N0). destruct U as [sb id v t sb' V X|sb id v sb' V X|sb id v iok V X|sb k a so GA X]; auto.
    + apply choose_inv in X as (s & o & [_ _ _ _ _ (E1 & E2) _ _ _]). destruct t; [now rewrite E1|]. destruct (E2 eq_refl) as (f & k & x0 & r & _ & _ & _ & _ & ->). now apply (nodup_dset _ string_eqb_ok).
    + apply unchoose_inv in X as (s & [_ _ _ E4 E5 _ _]). now rewrite E4.
Qed.
Theorem result_cuttable : forall show rof sp rad ci ok sb h, root_ok fsqrt -> plex_made sp -> plex_clean sp -> (forall c, Permutation c (ord c)) ->
  canned_1 A fsqrt fl R mn mx ord sord show rof sp rad ci = Ok (mkCanned ok sb h) ->
  forall k g, dget String.eqb k (sb_schosen sb) = Some g \/ dget String.eqb k (sb_sok sb) = Some g -> is_geom2d g /\ cuttable g.
Proof.
  intros show rof sp rad ci ok sb h RO M PC O H k g D. pose proof (proj1 (run_fine _ _ _ _ _ _ _ _ RO M PC O H) k) as S. destruct D as [D|D]; rewrite <- (geom_at_get _ _ _ D); apply S.
Qed.
End Result.
Print Assumptions result_cuttable.

(** ** C108 *)
(** segment [i] of polyline [j] of sheet [k] of the drawing, with finite ends *)
Definition drawn_line (out : list (string * list polyline)) (k j i : nat) (e : segment) : Prop := exists name pls pl,
  nth_error out k = Some (name, pls) /\ nth_error pls j = Some pl /\ nth_error pl i = Some (nv (fst e)) /\ nth_error pl (S i) = Some (nv (snd e)).
Definition finite_drawing (out : list (string * list polyline)) : Prop := forall name pls pl v, In (name, pls) out -> In pl pls -> In v pl -> exists p, v = nv p.

Lemma nth_combine {X Y} (l : list X) : forall (m : list Y) i x y, nth_error l i = Some x -> nth_error m i = Some y -> nth_error (combine l m) i = Some (x, y).
Proof. induction l as [|a l IH]; intros [|b m] [|i] x y; cbn; try discriminate; [|apply IH]. intros E1 E2. apply some_inv in E1, E2. congruence. Qed.
Lemma close_pairs r i a b : nth_error (close r) i = Some a -> nth_error (close r) (S i) = Some b -> nth_error (cyclic_pairs r) i = Some (a, b).
Proof.
  destruct r as [|p r]; [destruct i; discriminate|]. cbn [close cyclic_pairs]. intros E1 E2. change ((p :: r) ++ [p]) with (p :: (r ++ [p])) in E2. cbn [nth_error] in E2.
  assert (L : (i < List.length (p :: r))%nat) by (assert (K : nth_error (r ++ [p]) i <> None) by congruence; apply nth_error_Some in K; rewrite app_length in K; cbn in *; lia).
  rewrite nth_error_app1 in E1 by auto. now apply nth_combine.
Qed.
Lemma close_map (f : point -> point) r : close (map f r) = map f (close r).
Proof. destruct r; [reflexivity|]. cbn [close map]. rewrite map_app. reflexivity. Qed.
Lemma nv_inj p q : nv p = nv q -> p = q.
Proof. destruct p, q. unfold nv. cbn. congruence. Qed.
Definition unshift (dx dy : Qc) (p : point) : point := (fst p - dx, snd p - dy).
Lemma shift_un dx dy p q : shift dx dy p = q -> p = unshift dx dy q.
Proof. intros <-. unfold shift, unshift. destruct p. cbn. f_equal; ring. Qed.
Lemma un_at dx dy a b t : unshift dx dy (at_t (a, b) t) = at_t (unshift dx dy a, unshift dx dy b) t.
Proof. unfold unshift, at_t. destruct a, b. vec. f_equal; ring. Qed.
Lemma line_cut dx dy g j i a b : (exists pl, nth_error (finite (map (fun r => close (map (shift dx dy) r)) (rings g))) j = Some pl /\ nth_error pl i = Some (nv a) /\ nth_error pl (S i) = Some (nv b)) ->
  cut g j i (unshift dx dy a, unshift dx dy b).
Proof.
  intros (pl & E & E1 & E2). unfold finite in E. rewrite map_map in E.
  change rings with outlines in E. destruct (nth_error (outlines g) j) as [r|] eqn:R; [|rewrite nth_error_map, R in E; discriminate]. rewrite nth_error_map, R in E. apply some_inv in E as <-. exists r. split; auto.
  rewrite close_map in E1, E2. rewrite map_map in E1, E2. rewrite nth_error_map in E1, E2. destruct (nth_error (close r) i) as [p|] eqn:P1; [|discriminate]. destruct (nth_error (close r) (S i)) as [q|] eqn:P2; [|discriminate].
  apply some_inv, nv_inj, shift_un in E1, E2. subst p q. now apply close_pairs.
Qed.
Lemma cut_bd g j i e x : cut g j i e -> on_seg e x -> on_bd g x.
Proof.
  intros (r & R & E) O. apply nth_error_In in R, E. unfold outlines in R. apply in_flat_map in R as (s & S & R). exists r. split; [exists s; split; auto; destruct R as [<-|R]; auto|]. apply on_boundary_iff. exists e. auto.
Qed.
(** no line, of a hole or not, reaches beyond the corners of the outer rings *)
Lemma bd_range g x (d : point) : sharp g -> d <> (0, 0) -> on_bd g x -> exists p, In p (outer_pts g) /\ dot x d <= dot p d.
Proof.
  intros (G & C & _) D B.
  assert (K : forall l : list point, (exists p, In p l /\ dot x d <= dot p d) \/ exists eps, 0 < eps /\ forall p, In p l -> dot p d <= dot x d - eps).
  { induction l as [|p l [(q & I & L)|(e & E & H)]]; [right; exists 1; split; [qlra|intros p []]|left; exists q; cbn; auto|].
    destruct (qleb_spec (dot x d) (dot p d)) as [L|L]; [left; exists p; cbn; auto|right]. destruct (qmin_spec e (dot x d - dot p d)) as (M1 & M2 & M3). exists (qmin e (dot x d - dot p d)).
    split; [apply M3; auto; qlra|]. intros q [<-|I]; [qlra|]. specialize (H q I). qlra. }
  destruct (K (outer_pts g)) as [H|(e & E & H)]; auto. exfalso. destruct (lin_near (fst d) (snd d) e E) as (eps & P & N).
  destruct (C x eps B P) as ((q & Nq & Bq & s & Hs & I & _) & _). specialize (N x q Nq). apply qabs_lt in N as (N1 & N2).
  assert (RO : ring_of g (outer s)) by (exists s; auto). destruct (proj1 (is_geom2d_rings g) G _ RO) as (NE & _).
  destruct (in_ring_range (outer s) q d NE D) as (_ & (v & V & L)); auto; [intros X; apply Bq; exists (outer s); auto|].
  specialize (H v (proj2 (in_flat_map _ _ _) (ex_intro _ s (conj Hs V)))). unfold dot, Geom2d.dot in *. clear -H L N1. qlra.
Qed.
Lemma placed_offsets x l out : placed x l out -> exists off : nat -> Qc * Qc, forall k name g, nth_error l k = Some (name, g) ->
  nth_error out k = Some (drawn (fst (off k)) (snd (off k)) name g) /\ (forall p, In p (outer_pts g) -> x + zq 3 <= fst (shift (fst (off k)) (snd (off k)) p)) /\
  forall k' name' g' p q, (k < k')%nat -> nth_error l k' = Some (name', g') -> In p (outer_pts g) -> In q (outer_pts g') ->
    fst (shift (fst (off k)) (snd (off k)) p) + zq 3 <= fst (shift (fst (off k')) (snd (off k')) q).
Proof.
  intros P. assert (T : 0 < zq 3) by reflexivity. induction P as [|x name g dx dy right l out M1 M2 M3 P (off & IH)]; [exists (fun _ => (0, 0)); intros [|k]; discriminate|].
  exists (fun k => match k with O => (dx, dy) | S k => off k end). intros [|k] nm gg E; cbn [nth_error] in E.
  - apply some_inv, pair_inv in E as (<- & <-). split; [reflexivity|]. split; [intros p Hp; apply (proj2 M1); now apply in_map|].
    intros [|k'] nm' g' p q L E' Hp Hq; [lia|]. cbn [nth_error] in E'. destruct (IH k' nm' g' E') as (_ & H & _). specialize (H q Hq). pose proof (proj2 M3 _ (in_map (shift dx dy) _ _ Hp)) as X. cbn [fst snd]. qlra.
  - destruct (IH k nm gg E) as (H1 & H2 & H3). split; [exact H1|]. split.
    + intros p Hp. specialize (H2 p Hp). pose proof M3 as ((q & Q1 & Q2) & _). pose proof (proj2 M1 q Q1) as Q3. rewrite Q2 in Q3. qlra.
    + intros [|k'] nm' g' p q L E' Hp Hq; [lia|]. cbn [nth_error] in E'. exact (H3 k' nm' g' p q ltac:(lia) E' Hp Hq).
Qed.
Lemma placed_len x l out : placed x l out -> List.length l = List.length out.
Proof. induction 1; cbn; auto. Qed.
Theorem dxf_no_crossing : forall geoms, Forall (fun e => is_geom2d (snd e) /\ cuttable (snd e) /\ snd e <> []) geoms ->
  finite_drawing (write_dxf geoms) /\
  forall k j i e k' j' i' e' x, drawn_line (write_dxf geoms) k j i e -> drawn_line (write_dxf geoms) k' j' i' e' -> between_ends e x -> on_seg e' x -> k = k' /\ j = j' /\ i = i'.
Proof.
  intros geoms F. assert (F' : Forall (fun e => outer_pts (snd e) <> []) geoms).
  { eapply Forall_impl; [|exact F]. intros (n & g) (G & _ & N). cbn [snd] in *. destruct g as [|s g]; [congruence|]. destruct (proj1 (is_geom2d_rings _) G (outer s)) as (NE & _); [exists s; cbn; auto|].
    unfold outer_pts. cbn [flat_map]. intros X. apply app_eq_nil in X as (X & _). auto. }
  destruct (dxf_placement geoms F') as (out & -> & P). split.
  { intros name pls pl v I1 I2 I3. apply in_map_iff in I1 as (o & E & _). apply pair_inv in E as (_ & <-). unfold finite in I2. apply in_map_iff in I2 as (l & <- & _). apply in_map_iff in I3 as (p & <- & _). eauto. }
  destruct (placed_offsets _ _ _ P) as (off & OF).
  assert (LN : forall k j i e, drawn_line (map (fun e => (fst e, finite (snd e))) out) k j i e -> exists name g, nth_error geoms k = Some (name, g) /\
    cut g j i (unshift (fst (off k)) (snd (off k)) (fst e), unshift (fst (off k)) (snd (off k)) (snd e)) /\ is_geom2d g /\ cuttable g).
  { intros k j i e (name & pls & pl & E & E1 & E2 & E3). rewrite nth_error_map in E. destruct (nth_error out k) as [o|] eqn:EO; [|discriminate]. apply some_inv, pair_inv in E as (<- & <-).
    destruct (nth_error geoms k) as [(nm & g)|] eqn:EG; [|apply nth_error_None in EG; rewrite (placed_len _ _ _ P) in EG; apply nth_error_None in EG; congruence].
    exists nm, g. split; auto. destruct (OF k nm g EG) as (EO' & _). rewrite EO in EO'. apply some_inv in EO' as ->. cbn [drawn snd] in E1. split; [apply line_cut; eauto|].
    rewrite Forall_forall in F. specialize (F _ (nth_error_In _ _ EG)). cbn [snd] in F. tauto. }
  assert (OT : forall e x, between_ends e x -> on_seg e x) by (intros e x (t & T0 & T1 & ->); exists t; split; [qlra|split; [qlra|reflexivity]]).
  assert (US : forall dx dy (e : segment) x, on_seg e x -> on_seg (unshift dx dy (fst e), unshift dx dy (snd e)) (unshift dx dy x)) by (intros dx dy (a, b) x (t & T0 & T1 & ->); exists t; split; [auto|split; [auto|apply un_at]]).
  assert (AP : forall k j i e k' j' i' e' x, drawn_line (map (fun e => (fst e, finite (snd e))) out) k j i e -> drawn_line (map (fun e => (fst e, finite (snd e))) out) k' j' i' e' -> on_seg e x -> on_seg e' x -> (k < k')%nat -> False).
  { intros k j i e k' j' i' e' x D D' O O' L. apply LN in D as (n & g & E1 & E3 & G & C), D' as (n' & g' & E1' & E3' & G' & C').
    destruct (bd_range g _ (1, 0) (cuttable_sharp g G C) ltac:(discriminate) (cut_bd _ _ _ _ _ E3 (US _ _ _ _ O))) as (p & Hp & Lp).
    destruct (bd_range g' _ (- (1), 0) (cuttable_sharp g' G' C') ltac:(discriminate) (cut_bd _ _ _ _ _ E3' (US _ _ _ _ O'))) as (q & Hq & Lq).
    destruct (OF k n g E1) as (_ & _ & H). specialize (H k' n' g' p q L E1' Hp Hq). assert (T : 0 < zq 3) by reflexivity. unfold dot, shift, unshift in *. cbn [fst snd] in *. clear -H Lp Lq T. qlra. }
  intros k j i e k' j' i' e' x D D' B O. destruct (Nat.lt_trichotomy k k') as [L|[<-|L]].
  - destruct (AP _ _ _ _ _ _ _ _ x D D' (OT _ _ B) O L).
  - split; auto. apply LN in D as (n & g & E1 & E3 & G & C), D' as (n' & g' & E1' & E3' & _). assert (g' = g) by congruence. subst g'.
    apply (proj1 C _ _ _ _ _ _ (unshift (fst (off k)) (snd (off k)) x) E3 E3'); [|now apply US]. destruct e as [a b], B as (t & T0 & T1 & ->). exists t. split; [auto|split; [auto|apply un_at]].
  - destruct (AP _ _ _ _ _ _ _ _ x D' D O (OT _ _ B) L).
Qed.
Print Assumptions dxf_no_crossing.

(** what the command line tool writes, unless a sheet is empty (see C62) *)
Theorem cli_no_crossing : forall orc fsqrt fl R mn mx ord sord pord sp rad dil out, root_ok fsqrt -> plex_made sp -> plex_clean sp ->
  (forall c, Permutation c (ord c)) -> (forall m, Permutation m (pord m)) ->
  main (segment_arrangement orc) fsqrt fl R mn mx ord sord pord (Ok sp) rad dil = Ok out -> (forall name pls, In (name, pls) out -> pls <> []) ->
  finite_drawing out /\
  forall k j i e k' j' i' e' x, drawn_line out k j i e -> drawn_line out k' j' i' e' -> between_ends e x -> on_seg e' x -> k = k' /\ j = j' /\ i = i'.
Proof.
  intros orc fsqrt fl R mn mx ord sord pord sp rad dil out RO M PC O PO H NE.
  destruct (cli_writes_only_checked _ _ _ _ _ _ _ _ _ _ _ _ _ H) as (sp' & sb & h & dl & E & _ & C & D & ->). apply Ok_inv in E as <-.
  destruct (run_fine _ _ _ _ _ _ _ _ _ _ _ _ _ _ _ _ RO M PC O C) as (S & ND). apply dxf_no_crossing. apply Forall_forall. intros (name & g) I.
  assert (N : g <> []).
  { intros ->. apply In_nth_error in I as (k & I). assert (K : forall l x k, nth_error l k = Some (name, []) -> exists nm, nth_error (place x l) k = Some (nm, [])).
    { clear. induction l as [|(a, b) l IH]; intros x [|k] X; try discriminate; cbn [nth_error place] in *; [apply some_inv, pair_inv in X as (-> & ->); exists name; reflexivity|apply IH; auto]. }
    destruct (K dl (Some 0) k I) as (nm & X). apply nth_error_In in X. exact (NE _ _ X eq_refl). }
  apply mapM_ok in D. apply In_nth_error in I as (k & I).
  assert (X : exists e, In e (pord (sb_schosen sb)) /\ dilate (segment_arrangement orc) fsqrt dil e = Ok (name, g)).
  { clear -D I. revert k I. induction D as [|a b l l' E D IH]; intros [|k] I; try discriminate; cbn [nth_error] in I; [apply some_inv in I as ->; exists a; cbn; auto|]. destruct (IH k I) as (e & J & K). exists e. cbn; auto. }
  destruct X as ((nm & g0) & J & K). unfold dilate in K. apply bind_ok in K as (g' & B & K). apply Ok_inv, pair_inv in K as (_ & <-). cbn [snd] in *.
  apply (Permutation_in _ (Permutation_sym (PO _))) in J. apply (dget_nodup _ string_eqb_ok _ _ _ ND) in J. assert (F0 : fine g0) by (rewrite <- (geom_at_get _ _ _ J); apply S).
  destruct (results_cuttable orc fsqrt RO) as (_ & _ & _ & _ & _ & _ & HB & _). destruct (HB g0 dil g' F0 B). auto.
Qed.
Print Assumptions cli_no_crossing.

(** ** Examples: a dart; two copies drawn side by side; without the hypothesis lines do cross *)
Section Ex.
Let P (x y : Z) : point := (zq x, zq y).
Let dart : list point := [P 0 0; P 2 2; P 0 8; P 8 0].
Example cut_ex : exists g, polygon (mpq_points dart) true = Ok g /\ fine g /\ g <> [] /\
  exists e e', drawn_line (write_dxf [("a", g); ("b", g)]%string) 0 0 1 e /\ drawn_line (write_dxf [("a", g); ("b", g)]%string) 1 0 3 e'.
Proof.
  assert (J : simple_polygon dart) by (apply simpleb_ok; vm_compute; reflexivity). destruct (simple_polygons dart J) as (g & r & E & G & R & _). exists g. split; auto.
  split; [exact (proj1 (results_cuttable (fun _ _ _ => 0%nat) (fun q => if qeqb q 1 then 1 else qq 41 29) ltac:(repeat split; vm_compute; reflexivity)) dart g J E)|]. split; [rewrite G; discriminate|].
  assert (r = dart) as -> by (rewrite R; vm_compute; reflexivity). subst g. exists (P 5 2, P 3 8), (P 22 0, P 14 0). split; do 3 eexists; (split; [vm_compute; reflexivity|split; [vm_compute; reflexivity|split; vm_compute; reflexivity]]).
Qed.
Example bow_tie_crosses : ~ no_crossing [mkSpwh [P 0 0; P 4 4; P 4 0; P 0 4] []].
Proof.
  intros N. destruct (N 0%nat 0%nat (P 0 0, P 4 4) 0%nat 2%nat (P 4 0, P 0 4) (P 2 2)) as (_ & X); [eexists; split; reflexivity|eexists; split; reflexivity| | |discriminate].
  - exists (qq 1 2). split; [vm_compute; reflexivity|]. split; [vm_compute; reflexivity|]. vm_compute. reflexivity.
  - exists (qq 1 2). split; [vm_compute; discriminate|]. split; [vm_compute; discriminate|]. vm_compute. reflexivity.
Qed.
End Ex.
