(** Ray queries with the half-open rule for the ends of half-edges: they count how often a ring goes around. *)
From Verif.Model Require Import SegmentTree CellMerger Arrangement2d Aabb.
From Verif.Spec Require Import Plane.
From Verif.Proofs Require Import PyP PolyP WindingP WindingQ WindingR NearP DictP SweepOrd PlanarP SubdivP ArrVertexP ArrGraphP ArrSampleP AreaP FlatP CoverP AngleP.
From Verif.Props Require Import Primitive2dProps Frangle2dProps SegmentTreeProps Scan2dProps AabbProps LocateProps TransformProps.

Section Half.
Variables (hes : list segment) (gv : point).
Hypothesis RV : forall e, In e hes -> In (rev_seg e) hes.
Hypothesis NE : forall e, In e hes -> fst e <> snd e.
Hypothesis GV : gv <> (0, 0).
Hypothesis GN : forall e, In e hes -> cross gv (dir e) <> 0.
Let normal := general_normal gv.

(** the ends of [e] are at different sides of the line through [p], where the line itself belongs to the left side *)
Definition kept (p : point) (e : segment) : bool := xorb (qltb (cross gv (fst e)) (cross gv p)) (qltb (cross gv (snd e)) (cross gv p)).
Lemma line_param p e s t : at_t e s = step p gv t -> cross gv (fst e) - cross gv p = - (s * cross gv (dir e)) /\ cross gv (snd e) - cross gv p = (1 - s) * cross gv (dir e).
Proof.
  intros H. assert (C : cross gv (at_t e s) = cross gv p) by (rewrite H; vec; ring).
  assert (E : cross gv (at_t e s) = cross gv (fst e) + s * cross gv (dir e)) by (vec; ring). assert (F : cross gv (snd e) = cross gv (fst e) + cross gv (dir e)) by (vec; ring).
  split; qlra.
Qed.
Lemma neg_mul x k : 0 < k -> (x * k < 0 <-> x < 0).
Proof.
  intros K. split; intros H.
  - destruct (qltb_spec x 0) as [L|L]; auto. exfalso. assert (0 <= x * k) by (apply mnn; qlra). qlra.
  - assert (0 < - x * k) by (apply mpp; qlra). qlra.
Qed.
Lemma kept_iff p e s t : cross gv (dir e) <> 0 -> at_t e s = step p gv t ->
  (kept p e = true <-> (0 < s /\ s < 1) \/ (s = 0 /\ cross gv (dir e) < 0) \/ (s = 1 /\ 0 < cross gv (dir e))).
Proof.
  intros N H. destruct (line_param p e s t H) as (A & B). set (d := cross gv (dir e)) in *. clearbody d. unfold kept.
  set (a := cross gv (fst e)) in *. set (b := cross gv (snd e)) in *. set (c := cross gv p) in *. clearbody a b c. clear H.
  destruct (qc_not_eq _ _ N) as [D|D].
  - assert (KA : a < c <-> s < 0) by (rewrite <- (neg_mul s (- d)) by qlra; split; intros; qlra).
    assert (KB : b < c <-> s - 1 < 0) by (rewrite <- (neg_mul (s - 1) (- d)) by qlra; split; intros; qlra).
    destruct (qltb_spec a c) as [L1|L1], (qltb_spec b c) as [L2|L2]; cbn [xorb]; rewrite ?KA, ?KB in *; clear KA KB A B.
    + split; [discriminate|]. intros [(X & Y)|[(X & Y)|(X & Y)]]; exfalso; qlra.
    + exfalso; qlra.
    + split; auto. intros _. destruct (qltb_spec 0 s); [left; split; qlra|right; left; split; [qlra|auto]].
    + split; [discriminate|]. intros [(X & Y)|[(X & Y)|(X & Y)]]; exfalso; qlra.
  - assert (KA : a < c <-> - s < 0) by (rewrite <- (neg_mul (- s) d) by qlra; split; intros; qlra).
    assert (KB : b < c <-> 1 - s < 0) by (rewrite <- (neg_mul (1 - s) d) by qlra; split; intros; qlra).
    destruct (qltb_spec a c) as [L1|L1], (qltb_spec b c) as [L2|L2]; cbn [xorb]; rewrite ?KA, ?KB in *; clear KA KB A B.
    + split; [discriminate|]. intros [(X & Y)|[(X & Y)|(X & Y)]]; exfalso; qlra.
    + split; auto. intros _. destruct (qltb_spec s 1); [left; split; qlra|right; right; split; [qlra|auto]].
    + exfalso; qlra.
    + split; [discriminate|]. intros [(X & Y)|[(X & Y)|(X & Y)]]; exfalso; qlra.
Qed.

(** the rule for the ends uses the frangles of the half-edge and of the ray *)
Lemma ahead u v f k : vector_frangle u = Ok f -> vector_frangle v = Ok k -> cross u v <> 0 ->
  let d := qmod (k - f) MAX_FRANGLE in qeqb d 0 = false /\ qeqb d FRANGLE_180 = false /\ (qltb d FRANGLE_180 = true <-> cross u v < 0).
Proof.
  intros U V N d. destruct (qmod_spec (k - f) MAX_FRANGLE) as (n & E & L1 & L2); [vm_compute; reflexivity|]. fold d in E, L1, L2.
  pose proof (proj1 frangle_clockwise u v f k U V) as C1. pose proof (proj1 frangle_clockwise v u k f V U) as C2.
  assert (X : cross v u = - cross u v) by (vec; ring). rewrite X in C2. clear X.
  assert (W : forall a b : Qc, 0 <= a -> 0 <= b -> a < zq 8 -> b < zq 8 -> (exists j : Z, a = b + zq 8 * zq j) -> a = b).
  { intros a b A0 B0 A8 B8 (j & J). destruct (Z.eq_dec j 0) as [->|NJ]; [rewrite J; replace (zq 0) with 0 by reflexivity; ring|]. exfalso.
    assert (zq j <= - (1) \/ 1 <= zq j) as [Y|Y].
    { destruct (Z_lt_le_dec j 0); [left|right].
      - replace (- (1)) with (zq (-1)) by (apply Qc_is_canon; reflexivity). apply zq_le. lia.
      - replace 1 with (zq 1) by reflexivity. apply zq_le. lia. }
    - set (z := zq j) in *. clearbody z. qlra.
    - set (z := zq j) in *. clearbody z. qlra. }
  unfold MAX_FRANGLE, FRANGLE_180 in *. destruct (qc_not_eq _ _ N) as [C|C].
  - destruct (proj1 C1 C) as (d' & D0 & D1 & (m & M)). assert (DD : d = d').
    { apply W; try qlra. exists (m - n)%Z. rewrite zq_sub. qlra. }
    clearbody d. subst d'. destruct (qeqb_spec d 0); [exfalso; qlra|]. destruct (qeqb_spec d (zq 4)); [exfalso; qlra|]. destruct (qltb_spec d (zq 4)); [|contradiction]. tauto.
  - destruct (proj1 C2) as (d' & D0 & D1 & (m & M)); [qlra|]. assert (DD : d = zq 8 - d').
    { apply W; try qlra. exists (- m - n - 1)%Z. rewrite !zq_sub, zq_opp. replace (zq 1) with 1 by reflexivity. qlra. }
    clearbody d. destruct (qeqb_spec d 0); [exfalso; qlra|]. destruct (qeqb_spec d (zq 4)); [exfalso; qlra|]. destruct (qltb_spec d (zq 4)); [exfalso; qlra|].
    split; auto. split; auto. split; [discriminate|]. intros; exfalso; qlra.
Qed.
Lemma ray_query_half tree box p : init_gstree normal hes = Ok tree -> wide_box box p -> NoDup hes ->
  exists inters, ray_query box normal tree p gv false = Ok inters /\ NoDup (map snd inters) /\
    forall t e, In (t, e) inters <-> In e hes /\ kept p e = true /\ exists s, at_t e s = step p gv t.
Proof.
  intros T B N. destruct (ray_line hes gv RV NE GV GN tree box p gv false T B (or_introl eq_refl)) as (f & c & found & F & CP & Q & FD & FN & HIT). unfold normal. rewrite Q.
  set (ray := (p, padd p (pscale c gv))) in *.
  assert (EACH : forall e, In e hes -> exists h, ray_halfedge_test e ray f false c = Ok h /\
    (exists t, (exists s, at_t e s = step p gv t) /\ h = if kept p e then [(t, e)] else [])).
  { intros e I. destruct (HIT e I) as (q & te & tr & E & AT & U). unfold ray_halfedge_test. rewrite E. cbn [bind].
    pose proof (kept_iff p e te (tr * c) (GN e I) AT) as K.
    assert (KE : exists k, he_key e = Ok k /\ vector_frangle (dir e) = Ok k).
    { unfold he_key. destruct (frangle_ok (dir e)) as (k & k' & FK & _); [|exists k; auto]. intros Z. apply (NE e I). pose proof (f_equal fst Z). pose proof (f_equal snd Z). unfold dir, vsub in *. cbn [fst snd] in *. apply pteq; qlra. }
    destruct KE as (k & KE & KF). destruct (ahead gv (dir e) f k F KF (GN e I)) as (A1 & A2 & A3). cbv zeta in A1, A2, A3.
    destruct (qltb_spec 0 te) as [T0|T0], (qltb_spec te 1) as [T1|T1]; cbn [andb bind].
    1:{ rewrite (proj2 K) by auto. eexists. split; [reflexivity|]. exists (tr * c). split; eauto. }
    all: rewrite KE; cbn [bind]; rewrite A1, A2; cbn [negb andb passert bind]; eexists; (split; [reflexivity|]); exists (tr * c); (split; [eauto|]).
    all: assert (EQ : (if qeqb te 0 then qltb (qmod (k - f) MAX_FRANGLE) FRANGLE_180 else if qeqb te 1 then negb (qltb (qmod (k - f) MAX_FRANGLE) FRANGLE_180) else false) = kept p e); [|now rewrite EQ].
    all: apply eq_true_iff_eq; rewrite K; clear K; destruct (qeqb_spec te 0) as [Z0|Z0]; [|destruct (qeqb_spec te 1) as [Z1|Z1]].
    all: try (rewrite A3; clear A3 U; split; [intros Y; right; left; split; auto|intros [(Y1 & Y2)|[(Y1 & Y2)|(Y1 & Y2)]]; auto; exfalso; qlra]).
    all: try (rewrite negb_true_iff; split; [intros Y; right; right; split; [auto|]; destruct (qc_not_eq _ _ (GN e I)) as [W|W]; auto; apply A3 in W; congruence|intros [(Y1 & Y2)|[(Y1 & Y2)|(Y1 & Y2)]]; [exfalso; qlra|contradiction|]; apply not_true_is_false; rewrite A3; intros W; clear -W Y2; qlra]).
    all: split; [discriminate|]; intros [(Y1 & Y2)|[(Y1 & Y2)|(Y1 & Y2)]]; [exfalso; clear -T0 T1 Y1 Y2; qlra|contradiction|contradiction]. }
  destruct (mapM_every (fun e => ray_halfedge_test e ray f false c) found) as (hs & H).
  { intros e I. apply FD in I as (I & _). destruct (EACH e I) as (h & E & _). eauto. }
  rewrite H. cbn [bind]. eexists. split; [reflexivity|]. apply mapM_ok in H. specialize (FN N).
  assert (KS : forall e, In e hes -> kept p e = true -> spans gv e p).
  { intros e I K. destruct (HIT e I) as (q & te & tr & _ & AT & _). apply (kept_iff p e te (tr * c) (GN e I) AT) in K.
    exists (at_t e te). split; [exists te; split; [|split; [|auto]]; destruct K as [(K1 & K2)|[(K1 & K2)|(K1 & K2)]]; rewrite ?K1; qlra|]. rewrite AT. vec. ring. }
  assert (MEM : forall t e, In (t, e) (concat hs) <-> In e hes /\ kept p e = true /\ exists s, at_t e s = step p gv t).
  { intros t e. rewrite in_concat. split.
    + intros (h & I & J). assert (X : exists e0, In e0 found /\ ray_halfedge_test e0 ray f false c = Ok h).
      { clear -H I. induction H as [|a b r1 r2 H1 H2 IH]; [destruct I|]. destruct I as [<-|I]; [exists a; split; [now left|auto]|].
        destruct (IH I) as (e0 & A & B). exists e0. split; auto. now right. }
      destruct X as (e0 & X1 & X2). apply FD in X1 as (X1 & _). destruct (EACH e0 X1) as (h' & E & (t0 & S0 & HH)). rewrite X2 in E. injection E as <-.
      destruct (kept p e0) eqn:K; rewrite HH in J; [|destruct J]. destruct J as [J|[]]. apply pair_inv in J as (<- & <-). auto.
    + intros (I & K & s & AT). destruct (EACH e I) as (h & E & (t0 & (s0 & S0) & HH)). rewrite K in HH.
      assert (EF : In e found) by (apply FD; auto).
      assert (t = t0) as ->. { destruct (HIT e I) as (q & te & tr & _ & _ & U). destruct (U _ _ AT) as (_ & ->). destruct (U _ _ S0) as (_ & ->). auto. }
      exists h. split; [|rewrite HH; now left]. clear -H E EF. induction H as [|a b r1 r2 H1 H2 IH]; [destruct EF|].
      destruct EF as [->|EF]; [left; congruence|right; auto]. }
  split; [|intros t e; rewrite sort_by_in; apply MEM].
  apply (Permutation_NoDup (l := map snd (concat hs))); [apply Permutation_map; symmetry; apply sort_by_perm|].
  assert (FI : forall e, In e found -> In e hes) by (intros e I; now apply FD in I). clear FD MEM KS Q. induction H as [|a b r1 r2 H1 H2 IH]; [constructor|].
  cbn [concat]. rewrite map_app. inversion FN as [|? ? N1 N2]; subst. specialize (IH N2 ltac:(intros e I; apply FI; now right)).
  destruct (EACH a (FI a (or_introl eq_refl))) as (h & E & (t & _ & HH)). rewrite H1 in E. injection E as <-. destruct (kept p a); subst b; [|exact IH].
  cbn [map app snd]. constructor; auto. intros X. apply N1. apply in_map_iff in X as ([t' e'] & Y & X). cbn [snd] in Y. subst e'. apply in_concat in X as (h & X1 & X2).
  clear -H2 X1 X2 EACH FI. assert (FI' : forall e, In e r1 -> In e hes) by (intros e I; apply FI; now right). clear FI. induction H2 as [|x y r1 r2 HX H2 IH]; [destruct X1|].
  destruct X1 as [->|X1]; [left|right; apply IH; auto; intros e I; apply FI'; now right].
  destruct (EACH x (FI' x (or_introl eq_refl))) as (h' & E & (t2 & _ & HH)). rewrite HX in E. injection E as <-. rewrite HH in X2. destruct (kept p x); [|destruct X2]. destruct X2 as [X2|[]]. apply pair_inv in X2 as (_ & X2). auto.
Qed.

(** ** how often a ring goes around a point, from the hits in front of it *)
Let A := aff (mkAff (- fst gv) (- snd gv) (snd gv) (- fst gv) 0 0).
Lemma A_det : 0 < det (mkAff (- fst gv) (- snd gv) (snd gv) (- fst gv) 0 0).
Proof.
  unfold det. cbn [m11 m12 m21 m22]. replace (- fst gv * - fst gv - - snd gv * snd gv) with (Plane.dot gv gv) by (unfold Plane.dot; ring). now apply dot_self_pos.
Qed.
Lemma A_above p v : above (A p) (A v) = qltb (cross gv v) (cross gv p).
Proof.
  unfold above. assert (X : forall x, snd (A x) = - cross gv x) by (intros x; unfold A, aff; cbn [fst snd m21 m22 t2]; unfold cross; ring). rewrite !X.
  destruct (qltb_spec (- cross gv p) (- cross gv v)), (qltb_spec (cross gv v) (cross gv p)); auto; exfalso; qlra.
Qed.
Definition lift (p : point) (e : segment) : Z := ((if qltb (cross gv (snd e)) (cross gv p) then 1 else 0) - (if qltb (cross gv (fst e)) (cross gv p) then 1 else 0))%Z.
Lemma A_wsum r p : r <> [] -> ~ on_boundary r p -> wsum p r = zsum (fun e => delta (A p) (A (fst e), A (snd e))) (edges_iter r).
Proof.
  intros N B. set (m := mkAff (- fst gv) (- snd gv) (snd gv) (- fst gv) 0 0) in *. pose proof A_det as D. fold m in D. assert (DN : det m <> 0) by (intros Z; rewrite Z in D; exact (Qclt_not_eq _ _ D eq_refl)).
  destruct (locate_winding r p N B) as (w & W & _ & _). pose proof (aff_winding m DN r p w W) as W'. rewrite sgn_pos in W' by auto. rewrite Z.mul_1_l in W'.
  assert (B' : ~ on_boundary (map A r) (A p)) by (unfold A; rewrite aff_bd; auto).
  apply wind_wsum in W; auto. apply wind_wsum in W'; [|destruct r; [congruence|discriminate]|auto].
  unfold wsum in W' at 1. change edges_iter with cyclic_pairs in W'. fold A in W'. change (aff m) with A in W'. unfold A in W'. rewrite aff_pairs, zsum_map in W'. fold A in W'. rewrite W, <- W'. reflexivity.
Qed.
Lemma ray_parity r p tt : r <> [] -> ~ on_boundary r p -> (forall e, In e (edges_iter r) -> cross gv (dir e) <> 0 /\ exists s, at_t e s = step p gv (tt e)) ->
  exists k, wsum p r = (2 * Z.of_nat (length (filter (fun e => kept p e && qltb 0 (tt e)) (edges_iter r))) + 4 * k)%Z.
Proof.
  intros N B H. rewrite (A_wsum r p N B).
  assert (LZ : zsum (lift p) (edges_iter r) = 0%Z).
  { unfold lift. rewrite <- (zsum_perm _ _ _ (pedges_perm r)). rewrite (pedges_tele_z (fun v => if qltb (cross gv v) (cross gv p) then 1 else 0)%Z r). lia. }
  assert (EACH : forall e, In e (edges_iter r) -> exists k, (delta (A p) (A (fst e), A (snd e)) + lift p e = 2 * (if kept p e && qltb 0 (tt e) then 1 else 0) + 4 * k)%Z).
  { intros e I. destruct (H e I) as (C & s & AT). assert (T0 : kept p e = true -> tt e <> 0).
    { intros K Z. apply B. apply on_boundary_iff. exists e. split; auto. apply (kept_iff p e s _ C AT) in K. exists s. rewrite Z in AT.
      split; [destruct K as [(K1 & K2)|[(K1 & K2)|(K1 & K2)]]; qlra|]. split; [destruct K as [(K1 & K2)|[(K1 & K2)|(K1 & K2)]]; qlra|]. rewrite AT. apply pteq; vec; ring. }
    unfold delta. cbn [fst snd]. rewrite !A_above. change (xorb (qltb (cross gv (fst e)) (cross gv p)) (qltb (cross gv (snd e)) (cross gv p))) with (kept p e).
    assert (O : orient (A (fst e)) (A (snd e)) (A p) = det (mkAff (- fst gv) (- snd gv) (snd gv) (- fst gv) 0 0) * (tt e * cross gv (dir e))).
    { unfold A. rewrite aff_orient. f_equal. unfold orient. fold (dir e). assert (P : vsub p (fst e) = vsub (vscale s (dir e)) (vscale (tt e) gv)).
      { pose proof (f_equal fst AT) as X. pose proof (f_equal snd AT) as Y. unfold at_t, step, dir, vadd, vscale, vsub in *. cbn [fst snd] in *. apply pteq; cbn [fst snd]; qlra. }
      rewrite P. vec. ring. }
    rewrite O. pose proof A_det as D. set (dt := det _) in *. clearbody dt. clear O. unfold lift.
    assert (S : cross gv (snd e) = cross gv (fst e) + cross gv (dir e)) by (vec; ring). unfold kept in *.
    destruct (qltb_spec (cross gv (fst e)) (cross gv p)) as [L1|L1], (qltb_spec (cross gv (snd e)) (cross gv p)) as [L2|L2]; cbn [xorb] in *; cbn [andb].
    - exists 0%Z. lia.
    - assert (0 < cross gv (dir e)) as CP by qlra. set (c := cross gv (dir e)) in *. clearbody c. destruct (qc_not_eq _ _ (T0 eq_refl)) as [T|T].
      + destruct (qltb_spec 0 (tt e)); [exfalso; qlra|]. assert (0 < - tt e * c) by (apply mpp; qlra). assert (0 < dt * (- tt e * c)) by (apply mpp; qlra). rewrite sgn_neg by qlra. exists 0%Z. lia.
      + destruct (qltb_spec 0 (tt e)); [|contradiction]. assert (0 < tt e * c) by (apply mpp; qlra). assert (0 < dt * (tt e * c)) by (apply mpp; qlra). rewrite sgn_pos by qlra. exists (-1)%Z. lia.
    - assert (cross gv (dir e) < 0) as CP by qlra. set (c := cross gv (dir e)) in *. clearbody c. destruct (qc_not_eq _ _ (T0 eq_refl)) as [T|T].
      + destruct (qltb_spec 0 (tt e)); [exfalso; qlra|]. assert (0 < - tt e * - c) by (apply mpp; qlra). assert (0 < dt * (- tt e * - c)) by (apply mpp; qlra). rewrite sgn_pos by qlra. exists 0%Z. lia.
      + destruct (qltb_spec 0 (tt e)); [|contradiction]. assert (0 < tt e * - c) by (apply mpp; qlra). assert (0 < dt * (tt e * - c)) by (apply mpp; qlra). rewrite sgn_neg by qlra. exists 0%Z. lia.
    - exists 0%Z. lia. }
  assert (SUM : forall l, incl l (edges_iter r) -> exists k, (zsum (fun e => delta (A p) (A (fst e), A (snd e))) l + zsum (lift p) l = 2 * Z.of_nat (length (filter (fun e => kept p e && qltb 0 (tt e)) l)) + 4 * k)%Z).
  { induction l as [|e l IH]; intros IN; [exists 0%Z; reflexivity|]. destruct IH as (k & K); [intros x X; apply IN; now right|]. destruct (EACH e) as (j & J); [apply IN; now left|].
    exists (j + k)%Z. set (F := fun e : segment => delta (A p) (A (fst e), A (snd e))) in *. change (zsum F (e :: l)) with (F e + zsum F l)%Z. change (zsum (lift p) (e :: l)) with (lift p e + zsum (lift p) l)%Z. change (delta (A p) (A (fst e), A (snd e))) with (F e) in J. cbn [filter]. destruct (kept p e && qltb 0 (tt e)); cbn [length]; rewrite ?Nat2Z.inj_succ; lia. }
  destruct (SUM (edges_iter r) (incl_refl _)) as (k & K). exists k. rewrite LZ in K. lia.
Qed.
End Half.
