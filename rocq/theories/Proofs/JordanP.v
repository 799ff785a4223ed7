(** The Jordan curve theorem for simple polygons. *)
From Verif.Model Require Import SegmentTree CellMerger Arrangement2d Aabb Geom2d.
From Verif.Spec Require Import Plane Subdivision Region Area Crisp Jordan Simple.
From Verif.Proofs Require Import PyP PolyP WindingP WindingQ WindingR NearP DictP SweepOrd SweepL PlanarP SubdivP MergerQ ArrVertexP ArrGraphP
  ArrInitP ArrTraceP ArrSampleP Geom2dP Geom2dOps ArrSoundP AreaP LevelP PolyCellsP FlatP JumpP CoverP CrispP NestP ArrTotalP ArrRayP ArrTotalQ RibbonR.
From Verif.Props Require Import Primitive2dProps Frangle2dProps Scan2dProps LocateProps.

Local Notation side := NestP.side.

(** ** every point sees an edge or infinity *)
Section See.
Variable E : list segment.
Hypothesis SY : forall e, In e E -> In (rev_e e) E.
Hypothesis ND : forall e, In e E -> fst e <> snd e.
Hypothesis PL : planar E.
Definition same (p q : point) : Prop := forall T, movable E T -> T p -> T q.
Lemma same_move z : movable E (same z).
Proof. intros p q F S T TM Z. exact (TM p q F (S T TM Z)). Qed.
Lemma same_sym p q : same p q -> same q p.
Proof. intros S. apply (S (fun x => same x p)); [|intros T TM H; exact H]. intros x y F H T TM Y. apply H; auto. apply (TM y); auto. now apply free_sym. Qed.
Definition at_side (p : point) (e : segment) : Prop := forall T, movable E T -> T p -> RT T e.
Lemma sees_some p M : (forall z z', M < fst z -> M < fst z' -> free E z z') -> off E p ->
  (exists e, In e E /\ at_side p e) \/ (forall z, M < fst z -> same p z).
Proof.
  intros FR O. apply (escape E SY (fun p => (exists e, In e E /\ at_side p e) \/ (forall z, M < fst z -> same p z))).
  - intros x y F [(e & I & A)|A]; [left|right].
    + exists e. split; auto. intros T TM H. apply A; auto. apply (TM y); auto. now apply free_sym.
    + intros z Z T TM H. apply A; auto. apply (TM y); auto. now apply free_sym.
  - intros e I. destruct (strip E ND PL e I) as (k & K & OK). set (z0 := step (at_t e (qq 1 2)) (perp e) k) in *.
    assert (R : RT (same z0) e).
    { apply (strip_RT E ND PL); auto; [apply same_move|]. exists k. split; auto. split; auto. intros T TM H. exact H. }
    eapply RT_imp; [|exact R]. intros z S. left. exists e. split; auto. intros T TM H. apply (strip_RT E ND PL); auto. exists k. split; auto. split; auto. exact (same_sym _ _ S T TM H).
  - exists M. intros z Z _. right. intros z' Z' T TM H. apply (TM z); auto.
  - exact O.
Qed.
End See.

Section Jordan.
Variable r : list point.
Hypothesis J : simple_polygon r.
Let E := sym (edges_iter r).
Lemma j_ne : r <> []. Proof. destruct J as (_ & L & _). destruct r; [cbn in L; lia|discriminate]. Qed.
Lemma j_meet e f x : In e (edges_iter r) -> In f (edges_iter r) -> e <> f -> on_seg e x -> on_seg f x -> (x = fst e /\ x = snd f) \/ (x = snd e /\ x = fst f).
Proof. intros I F. apply J; now apply is_edge_iter. Qed.
Lemma nthp_inj i j : (0 <= i < Z.of_nat (length r))%Z -> (0 <= j < Z.of_nat (length r))%Z -> nthp r i = nthp r j -> i = j.
Proof.
  intros I H X. unfold nthp in X. rewrite !Z.mod_small in X by lia. destruct J as (N & _). rewrite NoDup_nth in N. specialize (N (Z.to_nat i) (Z.to_nat j) ltac:(lia) ltac:(lia) X). lia.
Qed.
Lemma j_nd e : In e (edges_iter r) -> fst e <> snd e.
Proof.
  intros I. apply edges_iff in I as (i & ->); [|apply j_ne]. cbn [fst snd]. destruct J as (_ & L & _). set (n := Z.of_nat (length r)).
  assert (N : (3 <= n)%Z) by (unfold n; lia). intros X.
  pose proof (Z.mod_pos_bound i n ltac:(lia)) as B. destruct (Z.eq_dec (i mod n) (n - 1)) as [Q|Q].
  - assert (A1 : nthp r i = nthp r (n - 1)) by (unfold nthp; fold n; rewrite Q, (Z.mod_small (n - 1)) by lia; reflexivity).
    assert (A2 : nthp r (i + 1) = nthp r 0). { unfold nthp. fold n. rewrite <- Z.add_mod_idemp_l, Q by lia. replace (n - 1 + 1)%Z with n by lia. now rewrite Z.mod_same, Z.mod_0_l by lia. }
    rewrite A1, A2 in X. apply nthp_inj in X; fold n; lia.
  - assert (A1 : nthp r i = nthp r (i mod n)) by (unfold nthp; fold n; now rewrite Z.mod_mod by lia).
    assert (A2 : nthp r (i + 1) = nthp r (i mod n + 1)) by (unfold nthp; fold n; now rewrite Z.add_mod_idemp_l by lia).
    rewrite A1, A2 in X. apply nthp_inj in X; fold n; lia.
Qed.
Lemma E_nd e : In e E -> fst e <> snd e.
Proof. intros I. apply sym_in in I as [I|I]; apply j_nd in I; auto. Qed.
Lemma E_sy e : In e E -> In (rev_e e) E. Proof. apply sym_sym. Qed.
Lemma E_pl : planar E.
Proof.
  assert (K : forall e f x, In e (edges_iter r) -> In f (edges_iter r) -> inner e x -> on_seg f x -> f = e).
  { intros e f x I F IX O. destruct (seg_dec f e) as [|N]; auto. exfalso. pose proof (j_nd e I) as N'.
    assert (IE : fst e <> snd e -> x <> fst e /\ x <> snd e).
    { intros _. apply (inner_end E E_nd e x); auto. apply sym_in. auto. }
    destruct (IE N') as (A & B). destruct (j_meet e f x I F) as [(C & _)|(C & _)]; auto. now apply inner_on_seg. }
  intros e f x I F IX O. apply sym_in in I. apply sym_in in F. destruct I as [I|I], F as [F|F].
  - left. eapply K; eauto.
  - right. rewrite <- (rev_rev f). f_equal. apply (K e (rev_e f) x); auto. now apply on_rev.
  - right. apply (K (rev_e e) f x); auto. now apply inner_rev.
  - left. rewrite <- (rev_rev f), <- (rev_rev e). f_equal. apply (K (rev_e e) (rev_e f) x); auto; [now apply inner_rev|now apply on_rev].
Qed.
Lemma j_nodup : NoDup (edges_iter r).
Proof. apply (NoDup_map_inv fst). rewrite iter_starts. apply J. Qed.
Lemma j_start e f : In e (edges_iter r) -> In f (edges_iter r) -> fst e = fst f -> e = f.
Proof.
  intros I F X. pose proof (proj1 J) as N. rewrite <- (iter_starts r) in N. revert N I F X. generalize (edges_iter r). induction l as [|a l IH]; intros N I F X; [destruct I|].
  cbn in N. inversion N as [|? ? N1 N2]; subst. destruct I as [->|I], F as [->|F]; auto; exfalso; apply N1; [rewrite X|rewrite <- X]; now apply in_map.
Qed.
Lemma j_end e f : In e (edges_iter r) -> In f (edges_iter r) -> snd e = snd f -> e = f.
Proof.
  intros I F X. destruct (seg_dec e f) as [|N]; auto. exfalso.
  assert (O1 : on_seg e (snd e)) by (exists 1; split; [qlra|]; split; [qlra|]; apply pteq; vec; ring).
  assert (O2 : on_seg f (snd e)) by (rewrite X; exists 1; split; [qlra|]; split; [qlra|]; apply pteq; vec; ring).
  destruct (j_meet e f (snd e) I F N O1 O2) as [(A & _)|(_ & A)]; [apply (j_nd e I); auto|]. apply (j_nd f F). congruence.
Qed.
Lemma j_once e : In e (edges_iter r) -> ~ In (rev_e e) (edges_iter r).
Proof.
  intros I F. pose proof (j_nd e I) as N. assert (NE : e <> rev_e e) by (intros X; apply N; rewrite X at 1; reflexivity).
  assert (O : on_seg e (at_t e (qq 1 2))) by apply inner_on, mid_inner. destruct (inner_end E E_nd e (at_t e (qq 1 2))) as (A & B); [apply sym_in; auto|apply mid_inner|].
  destruct (j_meet e (rev_e e) (at_t e (qq 1 2)) I F NE O) as [(C & _)|(C & _)]; auto. now apply on_rev.
Qed.
Lemma j_spike p c n k : In (p, c) (edges_iter r) -> In (c, n) (edges_iter r) -> 0 < k -> vsub n c <> vscale k (vsub p c).
Proof.
  intros I F K X. destruct (qmin_spec 1 k) as (A & B & C). assert (P : 0 < qmin 1 k) by (apply C; auto; qlra). set (t := qmin 1 k * qq 1 2).
  assert (H : qq 1 2 + qq 1 2 = 1) by (apply Qc_is_canon; reflexivity). assert (HP : 0 < qq 1 2) by (vm_compute; reflexivity).
  assert (T0 : 0 < t) by (apply mpp; auto). assert (T1 : t < 1). { unfold t. set (m := qmin 1 k) in *. clearbody m. assert (0 <= (1 - m) * qq 1 2) by (apply mnn; qlra). set (h := qq 1 2) in *. clearbody h. qlra. }
  assert (TK : t <= k). { unfold t. set (m := qmin 1 k) in *. clearbody m. assert (0 <= m * (1 - qq 1 2)) by (apply mnn; qlra). set (h := qq 1 2) in *. clearbody h. qlra. }
  set (x := step c (vsub p c) t). pose proof (j_nd _ I) as N. cbn [fst snd] in N.
  assert (O1 : inner (p, c) x) by (exists (1 - t); split; [qlra|]; split; [qlra|]; unfold x; apply pteq; vec; ring).
  assert (O2 : on_seg (c, n) x).
  { exists (t / k). assert (D : t / k * k = t) by (apply qdiv_mul; intros Z; subst k; qlra). set (u := t / k) in *. clearbody u.
    split; [destruct (qleb_spec 0 u); auto; exfalso; assert (0 < - u * k) by (apply mpp; qlra); qlra|].
    split; [destruct (qleb_spec u 1); auto; exfalso; assert (0 < (u - 1) * k) by (apply mpp; qlra); qlra|].
    change (dir (c, n)) with (vsub n c). unfold x, step. cbn [fst snd]. replace (at_t (c, n) u) with (vadd c (vscale u (vsub n c))) by reflexivity. rewrite X, <- D. apply pteq; vec; ring. }
  destruct (inner_end E E_nd (p, c) x) as (A1 & A2); auto; [apply sym_in; auto|].
  assert (NE : (p, c) <> (c, n)) by (intros Y; apply pair_inv in Y as (Y & _); congruence).
  destruct (j_meet (p, c) (c, n) x I F NE (inner_on_seg _ _ O1) O2) as [(Y & _)|(Y & _)]; auto.
Qed.
Lemma j_turn T p c n : movable E T -> In (p, c) (edges_iter r) -> In (c, n) (edges_iter r) -> RT T (p, c) -> RT T (c, n).
Proof.
  intros TM I F R. apply (turn E E_sy E_nd E_pl T TM p c n); auto; try (apply sym_in; now left).
  - intros m M. apply sym_in in M. assert (K : m = n \/ m = p).
    { destruct M as [M|M]; [left|right]; [pose proof (j_start _ _ M F eq_refl) as X|pose proof (j_end _ _ M I eq_refl) as X]; unfold rev_e in X; cbn [fst snd] in X; congruence. }
    set (u := vsub p c). set (w := vsub n c). assert (cross u u = 0 /\ cross w w = 0) as (UU & WW) by (split; vec; ring).
    destruct K as [-> | ->]; fold u w; unfold insect; rewrite ?UU, ?WW; intros [(A & B & C)|[(A & B & C)|(A & [B|B])]]; qlra.
  - intros (A & B). set (u := vsub p c) in *. set (w := vsub n c) in *. assert (UN : u <> (0, 0)).
    { unfold u. intros Z. apply (j_nd _ I). cbn [fst snd]. assert (X1 := f_equal fst Z). assert (X2 := f_equal snd Z). vec. apply pteq; qlra. }
    destruct (parallel_scale u w UN A) as (k & K). apply (j_spike p c n k I F); auto. destruct (qltb_spec 0 k); auto. exfalso.
    rewrite K in B. pose proof (dot_self_pos u UN) as D. replace (dot u (vscale k u)) with (k * dot u u) in B by (vec; ring). assert (0 <= - k * dot u u) by (apply mnn; qlra). qlra.
Qed.
Lemma j_side T e f : movable E T -> In e (edges_iter r) -> In f (edges_iter r) -> RT T e -> RT T f.
Proof.
  intros TM I F R. apply edges_iff in I as (i & ->); [|apply j_ne]. apply edges_iff in F as (j & ->); [|apply j_ne].
  assert (K : forall k : nat, RT T (nthp r (i + Z.of_nat k), nthp r (i + Z.of_nat k + 1))).
  { induction k as [|k IH]; [now rewrite Z.add_0_r|]. replace (i + Z.of_nat (S k))%Z with (i + Z.of_nat k + 1)%Z by lia.
    apply (j_turn T (nthp r (i + Z.of_nat k))); auto; apply edges_iff; try apply j_ne; [exists (i + Z.of_nat k)%Z|exists (i + Z.of_nat k + 1)%Z]; reflexivity. }
  set (n := Z.of_nat (length r)). assert (N : (0 < n)%Z) by (pose proof j_ne; unfold n; destruct r; [congruence|cbn; lia]).
  specialize (K (Z.to_nat ((j - i) mod n))). pose proof (Z.mod_pos_bound (j - i) n N) as B. rewrite Z2Nat.id in K by lia.
  assert (X : forall d, nthp r (i + (j - i) mod n + d) = nthp r (j + d)).
  { intros d. unfold nthp. fold n. f_equal. f_equal. replace (i + (j - i) mod n + d)%Z with ((j - i) mod n + (i + d))%Z by lia. rewrite Z.add_mod_idemp_l by lia. f_equal. lia. }
  specialize (X 0%Z) as X0. rewrite !Z.add_0_r in X0. rewrite X0, X in K. exact K.
Qed.
Lemma j_cellr : cellr E r.
Proof.
  constructor; [apply j_ne| |apply j_nodup| |apply j_once].
  - intros e I. apply sym_in. auto.
  - intros T e f TM I F. now apply j_side.
Qed.
End Jordan.

Lemma edges_rev_iff r e : r <> [] -> (In e (edges_iter (rev r)) <-> In (rev_e e) (edges_iter r)).
Proof.
  intros N. destruct e as [a b]. unfold rev_e. cbn [fst snd]. split; [now apply edges_rev_in|]. intros I.
  assert (N' : rev r <> []) by (intros X; apply N; rewrite <- (rev_involutive r), X; reflexivity). apply (edges_rev_in (rev r)); auto. now rewrite rev_involutive.
Qed.
Lemma simple_rev r : simple_polygon r -> simple_polygon (rev r).
Proof.
  intros J. pose proof (j_ne r J) as NE. destruct J as (N & L & M). split; [now apply NoDup_rev|]. split; [now rewrite rev_length|].
  intros e f x I F D O P. apply is_edge_iter, edges_rev_iff, is_edge_iter in I; auto. apply is_edge_iter, edges_rev_iff, is_edge_iter in F; auto.
  destruct (M (rev_e e) (rev_e f) x I F) as [X|X]; [|now apply on_rev|now apply on_rev|right|left]; cbn in *; auto. intros X. apply D. rewrite <- (rev_rev e), X. apply rev_rev.
Qed.
Lemma far_bound (E : list segment) : exists M, forall e x, In e E -> on_seg e x -> fst x <= M.
Proof.
  induction E as [|e E (M & IH)]; [exists 0; intros e x []|]. exists (qmax M (qmax (fst (fst e)) (fst (snd e)))). intros f x [<-|I] O.
  - destruct O as (t & T0 & T1 & ->). set (m := qmax (fst (fst e)) (fst (snd e))). assert (fst (fst e) <= m /\ fst (snd e) <= m) as (A & B) by (unfold m, qmax; destruct (qleb_spec (fst (fst e)) (fst (snd e))); split; qlra).
    assert (m <= qmax M m) by (unfold qmax; destruct (qleb_spec M m); qlra). eapply Qcle_trans; [|eassumption]. clearbody m. vec.
    assert (0 <= (1 - t) * (m - fst (fst e))) by (apply mnn; qlra). assert (0 <= t * (m - fst (snd e))) by (apply mnn; qlra). qlra.
  - specialize (IH f x I O). set (m := qmax (fst (fst e)) (fst (snd e))). assert (M <= qmax M m) by (unfold qmax; destruct (qleb_spec M m); qlra). qlra.
Qed.
Lemma joined_snoc r p x y : joined r p x -> (forall z, on_seg (x, y) z -> ~ on_boundary r z) -> joined r p y.
Proof.
  induction 1 as [p NB|p q z F H IH]; intros G.
  - eapply joined_go; [exact G|]. apply joined_stop. apply G. exists 1. split; [qlra|]. split; [qlra|]. apply pteq; vec; ring.
  - eapply joined_go; [exact F|]. auto.
Qed.
Section Jordan2.
Variable r : list point.
Hypothesis J : simple_polygon r.
Let E := sym (edges_iter r).
Let SY := E_sy r.
Let ND := E_nd r J.
Let PL := E_pl r J.
Lemma off_bd p : off E p <-> ~ on_boundary r p.
Proof.
  split; [apply off_sym, incl_refl|]. intros NB e I O. apply NB. apply on_boundary_iff. apply sym_in in I as [I|I]; [eauto|]. exists (rev_e e). split; auto. now apply on_rev.
Qed.
Lemma rev_side T e f : movable E T -> In e (edges_iter r) -> In f (edges_iter r) -> RT T (rev_e e) -> RT T (rev_e f).
Proof.
  intros TM I F. pose proof (j_ne r J) as NE. apply (j_side (rev r) (simple_rev r J)).
  - intros p q FR. apply TM. intros x X e' I'. apply FR; auto. apply sym_in. apply sym_in in I' as [I'|I']; [right|left]; apply edges_rev_iff; auto. now rewrite rev_rev.
  - apply edges_rev_iff; auto. now rewrite rev_rev.
  - apply edges_rev_iff; auto. now rewrite rev_rev.
Qed.
Variable n : Z.
Hypothesis V : vals E r n.
Lemma j_right e : In e (edges_iter r) -> side r e n. Proof. apply (vl_right _ _ _ V). Qed.
Lemma j_left e : In e (edges_iter r) -> side r (rev_e e) (n - 2). Proof. apply (vl_left _ _ _ V). Qed.
Lemma j_all p : off E p -> wsum p r = n \/ wsum p r = (n - 2)%Z. Proof. intros O. apply (vl_all _ _ _ V). now apply off_bd. Qed.
Lemma j_which e p m : In e E -> at_side E p e -> wsum p r = m -> side r e m.
Proof. intros I A W. apply A; auto. apply side_move. apply (vl_in _ _ _ V). Qed.
Lemma far_edge T M : (forall e x, In e E -> on_seg e x -> fst x <= M) -> movable E T -> (forall z, M < fst z -> T z) -> exists e, In e E /\ RT T e /\ side r e 0%Z.
Proof.
  intros MB TM FT. destruct (w_far r) as (M' & FAR). destruct (outermost E (fun p => T p /\ wsum p r = 0%Z)) as (e & I & R); auto.
  - intros p q F (A & B). split; [now apply (TM p)|]. rewrite <- B. symmetry. apply (sym_move (edges_iter r)); auto. apply incl_refl.
  - intros X. apply (vl_ne _ _ _ V). unfold E, sym in X. now apply app_eq_nil in X as (-> & _).
  - exists (qmax M M'). intros z Z _. assert (M <= qmax M M' /\ M' <= qmax M M') as (A & B) by (unfold qmax; destruct (qleb_spec M M'); split; qlra). split; [apply FT; qlra|apply FAR; qlra].
  - exists e. split; auto. split; eapply RT_imp; try exact R; cbn beta; tauto.
Qed.
Lemma connected p q : off E p -> off E q -> wsum p r = wsum q r -> same E p q.
Proof.
  intros OP OQ W T TM HP. destruct (far_bound E) as (M & MB).
  assert (FR : forall z z', M < fst z -> M < fst z' -> free E z z').
  { intros z z' Z Z' x (t & T0 & T1 & ->) e I O. specialize (MB e _ I O). vec. assert (0 <= (1 - t) * (fst z - M)) by (apply mnn; qlra). assert (0 <= t * (fst z' - M)) by (apply mnn; qlra).
    destruct (qltb_spec t (qq 1 2)) as [L|L].
    - assert (0 < (1 - t) * (fst z - M)). { apply mpp; [|qlra]. assert (qq 1 2 < 1) by (vm_compute; reflexivity). qlra. } qlra.
    - assert (0 < t * (fst z' - M)). { apply mpp; [|qlra]. assert (0 < qq 1 2) by (vm_compute; reflexivity). qlra. } qlra. }
  assert (FW : forall z, M < fst z -> wsum z r = 0%Z).
  { intros z Z. destruct (w_far r) as (M' & FAR). set (z' := (qmax M M' + 1, 0) : point). assert (M < fst z' /\ M' < fst z') as (A & B) by (unfold z', qmax; cbn [fst]; destruct (qleb_spec M M'); split; qlra).
    rewrite <- (FAR z' B). apply (sym_move (edges_iter r)); [apply incl_refl|]. now apply FR. }
  assert (SD : forall e, In e E -> forall m, side r e m -> (In e (edges_iter r) /\ m = n) \/ (In (rev_e e) (edges_iter r) /\ m = (n - 2)%Z)).
  { intros e I m S. pose proof I as I'. apply sym_in in I' as [I'|I'].
    - left. split; auto. exact (NestP.side_fun E ND PL r e m n I S (j_right e I')).
    - right. split; auto. refine (NestP.side_fun E ND PL r e m (n - 2) I S _). rewrite <- (rev_rev e). now apply j_left. }
  set (m := wsum p r) in *.
  (** the edges that see the component of p *)
  assert (ED : (m = n /\ forall e, In e (edges_iter r) -> RT T e) \/ (m = (n - 2)%Z /\ forall e, In e (edges_iter r) -> RT T (rev_e e))).
  { assert (X : exists e, In e E /\ RT T e /\ side r e m).
    { destruct (sees_some E SY ND PL p M FR OP) as [(e & I & A)|A].
      - exists e. split; auto. split; [now apply A|]. now apply (j_which e p).
      - assert (M0 : m = 0%Z).
        { set (z' := (M + 1, 0) : point). assert (Z : M < fst z') by (unfold z'; cbn [fst]; qlra). rewrite <- (FW z' Z). symmetry. apply (A z' Z (fun x => wsum x r = m)); auto. apply side_move. apply (vl_in _ _ _ V). }
        rewrite M0. apply (far_edge T M); auto. intros z Z. exact (A z Z T TM HP). }
    destruct X as (e & I & R & S). destruct (SD e I m S) as [(I' & ->)|(I' & ->)]; [left|right]; (split; [reflexivity|]); intros f F.
    - now apply (j_side r J T e f).
    - rewrite <- (rev_rev e) in R. now apply (rev_side T (rev_e e) f). }
  (** points with the other winding number, and those of T *)
  assert (FT : m = 0%Z -> forall z, M < fst z -> T z).
  { intros M0 z Z. destruct (far_edge (same E z) M MB) as (e & I & R & S).
    - apply same_move.
    - intros z' Z' U UM H. apply (UM z); auto.
    - assert (RTe : RT T e). { destruct (SD e I _ S) as [(I' & N)|(I' & N)], ED as [(N' & H)|(N' & H)]; auto; try (exfalso; lia). rewrite <- (rev_rev e). now apply H. }
      destruct (RT_two E ND PL _ _ e I R RTe) as (y & _ & Y1 & Y2). exact (same_sym E z y Y1 T TM Y2). }
  assert (Q : wsum q r <> m \/ T q); [|destruct Q as [Q|Q]; [congruence|exact Q]].
  apply (escape E SY (fun z => wsum z r <> m \/ T z)).
  - intros x y F [H|H]; [left; now rewrite <- (sym_move (edges_iter r) r x y (incl_refl _) F)|right; now apply (TM x)].
  - intros e I. apply sym_in in I as [I|I]; destruct ED as [(N & H)|(N & H)].
    + eapply RT_imp; [|exact (H e I)]. cbn beta. auto.
    + eapply RT_imp; [|exact (j_right e I)]. cbn beta. intros z ->. left. lia.
    + eapply RT_imp; [|rewrite <- (rev_rev e); exact (j_left _ I)]. cbn beta. intros z ->. left. lia.
    + eapply RT_imp; [|rewrite <- (rev_rev e); exact (H _ I)]. cbn beta. auto.
  - exists M. intros z Z _. destruct (Z.eq_dec m 0) as [M0|M0]; [right; now apply FT|left; rewrite FW; auto].
  - exact OQ.
Qed.
Lemma joined_iff p q : off E p -> off E q -> (joined r p q <-> wsum p r = wsum q r).
Proof.
  intros OP OQ. split.
  - intros H. clear OP OQ. induction H as [p NB|p q z F H IH]; [reflexivity|]. rewrite <- IH. now apply wsum_move.
  - intros W. apply (connected p q OP OQ W (joined r p)).
    + intros x y F H. apply (joined_snoc r p x y H). intros z Z. apply off_bd. now apply F.
    + apply joined_stop. now apply off_bd.
Qed.
End Jordan2.
