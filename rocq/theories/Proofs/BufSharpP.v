(** * Buffers have no slits: the ribbon pieces are clean rings *)
From Verif.Model Require Import SegmentTree CellMerger Arrangement2d Aabb Geom2d.
From Verif.Spec Require Import Plane Region Crisp.
From Verif.Proofs Require Import PyP PolyP WindingP WindingQ WindingR NearP Geom2dP Geom2dOps PlanarP SweepOrd SimplifyP ArrGraphP ArrSoundP ReachP AreaP FlatP JumpP CoverP AngleP RibbonP RibbonQ RibbonR CrispP CrispQ OctagonP.
From Verif.Props Require Import Frangle2dProps LocateProps Geom2dProps SetOpsProps AreaProps CrispProps.

(** a point of an edge that is no vertex and lies on no edge in another direction *)
Lemma edge_generic e p eps (V : list point) (S : list segment) : fst e <> snd e -> on_seg e p -> 0 < eps ->
  exists x, inner e x /\ near eps p x /\ (forall v, In v V -> v <> x) /\ (forall s, In s S -> on_seg s x -> cross (vsub (snd s) (fst s)) (dir e) = 0).
Proof.
  intros N O E. assert (P2 : 0 < eps * qq 1 2) by (apply mpp; [auto|vm_compute; reflexivity]). destruct (near_inner e p _ O P2) as (x0 & (t0 & T0 & T1 & EX) & NX).
  destruct (near_step _ x0 (dir e) P2) as (k & K & NK). destruct (qmin_spec k ((1 - t0) * qq 1 2)) as (M1 & M2 & M3).
  assert (H1 : 0 < (1 - t0) * qq 1 2) by (apply mpp; [qlra|vm_compute; reflexivity]). specialize (M3 K H1).
  set (d := dir e) in *. pose proof (len2_pos e N) as LP. fold d in LP. change (len2 e) with (dot d d) in LP.
  destruct (small_avoid (map (fun v => dot (vsub v x0) d / dot d d) V ++ map (fun s => - orient (fst s) (snd s) x0 / cross (vsub (snd s) (fst s)) d) S) _ M3) as (t & TP & TL & NI).
  exists (step x0 d t). split; [|split; [|split]].
  - exists (t0 + t). split; [qlra|]. split. { assert (H0 : (1 - t0) * qq 1 2 + (1 - t0) * qq 1 2 = 1 - t0) by (rewrite <- Qcmult_plus_distr_r; replace (qq 1 2 + qq 1 2) with 1 by (apply Qc_is_canon; reflexivity); ring). qlra. }
    rewrite EX. unfold d. apply pteq; vec; ring.
  - apply (near_trans eps p x0); [exact NX|]. apply NK; qlra.
  - intros v Hv EV. apply NI, in_app_iff. left. apply in_map_iff. exists v. split; auto. rewrite EV.
    replace (dot (vsub (step x0 d t) x0) d) with (t * dot d d) by (unfold dot, step, vsub, vadd, vscale; cbn [fst snd]; ring). unfold Qcdiv. rewrite <- Qcmult_assoc, Qcmult_inv_r by (intros Z; rewrite Z in LP; qlra). ring.
  - intros s Hs Os. destruct (qeqb_spec (cross (vsub (snd s) (fst s)) d) 0) as [Z|Z]; auto. exfalso. apply NI, in_app_iff. right. apply in_map_iff. exists s. split; auto.
    destruct s as [a b]. cbn [fst snd] in *. apply on_seg_iff in Os as (Os & _). unfold step in Os. rewrite orient_step in Os.
    replace (- orient a b x0) with (t * cross (vsub b a) d) by qlra. unfold Qcdiv. rewrite <- Qcmult_assoc, Qcmult_inv_r by auto. ring.
Qed.

(** a ring that never runs back along itself is clean *)
Definition forward (r : list point) : Prop :=
  (forall s, In s (edges_iter r) -> fst s <> snd s) /\
  forall s t x, In s (edges_iter r) -> In t (edges_iter r) -> on_seg s x -> on_seg t x -> ~ In x r -> cross (dir s) (dir t) = 0 -> 0 < dot (dir s) (dir t).
Lemma forward_clean r : forward r -> clean r.
Proof.
  intros (ND & FW) p eps B P. assert (NE : r <> []) by (intros ->; destruct B as (s & Hs & _); apply is_edge_iter in Hs; exact Hs). apply on_boundary_iff in B as (e & S & O).
  assert (P2 : 0 < eps * qq 1 2) by (apply mpp; [auto|vm_compute; reflexivity]). pose proof (ND e S) as NDe.
  destruct (edge_generic e p _ r (edges_iter r) NDe O P2) as (x & IX & NX & XV & XP).
  pose proof (perp_right e NDe) as PR. unfold right_of in PR. pose proof (len2_pos e NDe) as LP.
  assert (SG : forall s, In s (edges_iter r) -> on_seg s x -> cross (dir s) (perp e) < 0).
  { intros s Hs Os. pose proof (XP s Hs Os) as X. fold (dir s) in X. assert (D : 0 < dot (dir s) (dir e)). { apply (FW s e x); auto; [now apply inner_on|]. intros I. exact (XV x I eq_refl). }
    unfold perp. replace (cross (dir s) _) with (- dot (dir s) (dir e)) by (unfold cross, dot; cbn [fst snd]; ring). qlra. }
  destruct (jump r x (perp e)) as (k & K & J); [exact XV| |].
  { intros s Hs Os. specialize (SG s Hs Os). fold (dir s). intros Z. rewrite Z in SG. qlra. }
  assert (VE : forall s, In s (edges_iter r) -> x <> fst s).
  { intros s Hs X. apply is_edge_iter, is_edge_pedges, pedges_in in Hs as (H & _). apply (XV _ H). auto. }
  assert (SGN : forall u, u < 0 -> sgn u = (-1)%Z) by (intros u U; unfold sgn; destruct (qltb_spec 0 u), (qltb_spec u 0); auto; exfalso; qlra).
  assert (HS : zsum (hits x (perp e)) (edges_iter r) <> 0%Z).
  { apply (zsum_side _ _ (-1)%Z); [auto| |].
    - intros s Hs. unfold hits. destruct (hit x s) eqn:HT; auto. right. apply SGN. apply (SG s Hs). apply hit_on; auto.
    - exists e. split; auto. unfold hits. rewrite (proj2 (hit_on x e (VE e S)) (inner_on e x IX)). apply SGN, SG; auto. now apply inner_on. }
  destruct (near_step _ x (perp e) P2) as (k1 & K1 & N1). destruct (near_step _ x (vscale (- (1)) (perp e)) P2) as (k2 & K2 & N2).
  destruct (qmin_spec k1 k2) as (A1 & A2 & A3), (qmin_spec k (qmin k1 k2)) as (C1 & C2 & C3). specialize (A3 K1 K2). specialize (C3 K A3).
  set (t := qmin k (qmin k1 k2)) in *. clearbody t. destruct (J t C3 C1) as (J1 & J2 & J3). cbv zeta in J1, J2, J3.
  specialize (N1 t ltac:(qlra) ltac:(qlra)). specialize (N2 t ltac:(qlra) ltac:(qlra)).
  replace (step x (vscale (- (1)) (perp e)) t) with (vadd x (vscale (- t) (perp e))) in N2 by (apply pteq; vec; ring). change (step x (perp e) t) with (vadd x (vscale t (perp e))) in N1.
  set (q := vadd x (vscale t (perp e))) in *. set (q' := vadd x (vscale (- t) (perp e))) in *.
  destruct (locate_winding r q NE J1) as (w & W & _), (locate_winding r q' NE J2) as (w' & W' & _). exists q, q', w, w'. split; [now apply (near_trans eps p x)|]. split; [now apply (near_trans eps p x)|].
  split; auto. split; auto. split; auto. split; auto. apply wind_wsum in W; auto. apply wind_wsum in W'; auto. lia.
Qed.
(** cleanness does not notice points between their neighbours, nor the direction *)
Lemma clean_steps l l' : clean l -> wsteps l l' -> clean l'.
Proof.
  intros C W p eps B E. assert (B0 : on_boundary l p). { destruct (on_boundary_dec l p) as [X|X]; auto. destruct (wsteps_wsum p _ _ W X). tauto. }
  assert (NE' : l' <> []) by (intros ->; destruct B as (s & Hs & _); apply is_edge_iter in Hs; exact Hs).
  assert (NE : l <> []) by (intros ->; destruct B0 as (s & Hs & _); apply is_edge_iter in Hs; exact Hs).
  destruct (C p eps B0 E) as (q & q' & w & w' & N & N' & Q & Q' & Wq & Wq' & D). destruct (wsteps_wsum q _ _ W Q) as (R & EQ). destruct (wsteps_wsum q' _ _ W Q') as (R' & EQ').
  exists q, q', w, w'. do 4 (split; [auto|]). apply wind_wsum in Wq, Wq'; auto. split; [apply wind_wsum; auto; congruence|]. split; [apply wind_wsum; auto; congruence|auto].
Qed.
Lemma clean_differ r : clean r -> r <> [] -> exists p, ~ on_boundary r p /\ wsum p r <> 0%Z.
Proof.
  intros C NE. destruct r as [|v r]; [tauto|]. destruct (C v 1) as (q & q' & w & w' & _ & _ & Q & Q' & W & W' & D); [apply vertex_on_boundary; cbn; auto|qlra|].
  apply wind_wsum in W, W'; try discriminate; auto. destruct (Z.eq_dec w 0) as [->|Nw]; [exists q'|exists q]; (split; [auto|lia]).
Qed.

(** ** Fans around a corner *)
Lemma on_seg_vec s z : on_seg s z -> exists t, 0 <= t /\ t <= 1 /\ vsub z (fst s) = vscale t (dir s).
Proof. destruct s as [a b]. intros (t & T0 & T1 & ->). exists t. split; auto. split; auto. unfold at_t, dir. cbn [fst snd]. apply pteq; vec; ring. Qed.
Lemma orient_at v s z : on_seg s z -> orient v (fst s) (snd s) = cross (vsub z v) (dir s).
Proof.
  intros O. apply on_seg_vec in O as (t & _ & _ & E). replace (vsub z v) with (vadd (vsub (fst s) v) (vsub z (fst s))) by (apply pteq; vec; ring). rewrite E. unfold dir, orient. vring.
Qed.
Lemma star_forward v x y P k : (k = 1 \/ k = -1)%Z -> In v P -> x <> v -> y <> v -> ~ (exists m, 0 < m /\ vsub x v = vscale m (vsub y v)) ->
  (forall s, In s (edges_iter P) -> 0 < zq k * orient v (fst s) (snd s) \/ s = (v, x) \/ s = (y, v)) -> forward P.
Proof.
  intros K VP XV YV NR H.
  assert (ND : forall s, In s (edges_iter P) -> fst s <> snd s).
  { intros s Hs E. destruct (H s Hs) as [X|[->| ->]]; cbn [fst snd] in *; try congruence. rewrite E in X. replace (orient v (snd s) (snd s)) with 0 in X by (unfold orient; vring). qlra. }
  split; auto. intros s t z Hs Ht Os Ot NZ C. pose proof (len2_pos s (ND s Hs)) as Ls. pose proof (len2_pos t (ND t Ht)) as Lt. change (len2 s) with (dot (dir s) (dir s)) in Ls. change (len2 t) with (dot (dir t) (dir t)) in Lt.
  assert (DS : dir s <> (0, 0)) by (intros Z; rewrite Z in Ls; unfold dot in Ls; cbn [fst snd] in Ls; qlra). assert (DT : dir t <> (0, 0)) by (intros Z; rewrite Z in Lt; unfold dot in Lt; cbn [fst snd] in Lt; qlra).
  assert (C' : cross (dir t) (dir s) = 0) by (replace (cross (dir t) (dir s)) with (- cross (dir s) (dir t)) by vring; rewrite C; ring).
  assert (ZV : z <> v) by (intros ->; tauto).
  (* outer edges see v strictly on one side, spokes do not *)
  assert (SP : forall r, on_seg r z -> r = (v, x) \/ r = (y, v) -> cross (vsub z v) (dir r) = 0).
  { intros r Or R. rewrite <- (orient_at v r z Or). destruct R as [->| ->]; cbn [fst snd]; unfold orient; vring. }
  assert (MIX : forall r r', 0 < zq k * orient v (fst r) (snd r) -> on_seg r z -> cross (dir r') (dir r) = 0 -> dir r' <> (0, 0) -> cross (vsub z v) (dir r') = 0 -> False).
  { intros r r' O Or CC DR ZZ. destruct (par_of _ _ DR CC) as (m & Em). rewrite (orient_at v r z Or), Em in O. replace (cross (vsub z v) (vscale m (dir r'))) with (m * cross (vsub z v) (dir r')) in O by vring. rewrite ZZ in O. replace (zq k * (m * 0)) with 0 in O by ring. qlra. }
  destruct (H s Hs) as [S|S], (H t Ht) as [T|T].
  - rewrite (orient_at v s z Os) in S. rewrite (orient_at v t z Ot) in T. destruct (par_of _ _ DS C) as (m & Em). rewrite Em in *.
    replace (cross (vsub z v) (vscale m (dir s))) with (m * cross (vsub z v) (dir s)) in T by vring. replace (dot (dir s) (vscale m (dir s))) with (m * dot (dir s) (dir s)) by (unfold dot, vscale; cbn [fst snd]; ring).
    apply mpp; auto. destruct (qltb_spec 0 m); auto. exfalso. assert (0 <= - m * (zq k * cross (vsub z v) (dir s))) by (apply mnn; qlra). qlra.
  - exfalso. exact (MIX s t S Os C' DT (SP t Ot T)).
  - exfalso. exact (MIX t s T Ot C DS (SP s Os S)).
  - assert (XY : forall r r', on_seg r z -> on_seg r' z -> r = (v, x) -> r' = (y, v) -> False).
    { intros r r' Or Or' -> ->. apply NR. apply on_seg_vec in Or as (al & A0 & A1 & EA). apply on_seg_vec in Or' as (be & B0 & B1 & EB). unfold dir in EA, EB. cbn [fst snd] in *.
      assert (EB' : vsub z v = vscale (1 - be) (vsub y v)). { replace (vsub z v) with (vadd (vsub z y) (vsub y v)) by (apply pteq; vec; ring). rewrite EB. apply pteq; vec; ring. }
      assert (ZN : forall u, vsub z v = vscale 0 u -> False). { intros u E. apply ZV. replace z with (vadd v (vsub z v)) by (apply pteq; vec; ring). rewrite E. apply pteq; vec; ring. }
      assert (AN : al <> 0) by (intros ->; exact (ZN _ EA)). assert (BN : 1 - be <> 0) by (intros E; rewrite E in EB'; exact (ZN _ EB')).
      assert (AP : 0 < al) by (destruct (qc_not_eq _ _ AN); qlra). assert (BP : 0 < 1 - be) by (destruct (qc_not_eq _ _ BN); qlra).
      exists ((1 - be) / al). split.
      - pose proof (qdiv_mul (1 - be) al AN) as Q. destruct (qltb_spec 0 ((1 - be) / al)); auto. exfalso. assert (0 <= - ((1 - be) / al) * al) by (apply mnn; qlra). qlra.
      - transitivity (vscale (/ al) (vscale al (vsub x v))); [pose proof (Qcmult_inv_l al AN) as I; apply pteq; vec; rewrite Qcmult_assoc, I; ring|]. rewrite <- EA, EB'. unfold Qcdiv. apply pteq; vec; ring. }
    destruct S as [S|S], T as [T|T].
    + subst s t. exact Ls.
    + exfalso. exact (XY s t Os Ot S T).
    + exfalso. exact (XY t s Ot Os T S).
    + subst s t. exact Ls.
Qed.
Lemma path_forward v o w k x0 L : (k = 1 \/ k = -1)%Z -> zq k * cross o w < 0 -> last L x0 = vadd v w -> x0 <> v -> ~ (exists m, 0 < m /\ vsub x0 v = vscale m o) ->
  (forall a b, adj (x0 :: L) (a, b) -> 0 < zq k * orient v a b) -> forward ((x0 :: L) ++ [vadd (vadd v o) w; vadd v o; v]).
Proof.
  intros K X LA XV NR AD. assert (ON : vadd v o <> v). { intros E. assert (o = (0, 0)) as ->. { replace o with (vsub (vadd v o) v) by (apply pteq; vec; ring). rewrite E. apply pteq; vec; ring. } unfold cross in X. cbn [fst snd] in X. qlra. }
  apply (star_forward v x0 (vadd v o) _ k); auto.
  - apply in_app_iff. right. cbn. auto.
  - intros (m & M & E). apply NR. exists m. split; auto. rewrite E. apply pteq; vec; ring.
  - set (A := vadd (vadd v o) w). intros s Hs.
    assert (ED : edges_iter ((x0 :: L) ++ [A; vadd v o; v]) = edges_from x0 L ++ [(vadd v w, A)] ++ [(A, vadd v o); (vadd v o, v)] ++ [(v, x0)]).
    { cbn [app]. rewrite edges_iter_snoc, edges_from_app, edges_from_snoc, LA. cbn [edges_from].
      replace (last (x0 :: L ++ [A; vadd v o; v]) x0) with v; [rewrite <- !app_assoc; reflexivity|].
      change (x0 :: L ++ [A; vadd v o; v]) with ((x0 :: L) ++ [A; vadd v o] ++ [v]). now rewrite app_assoc, last_last. }
    rewrite ED in Hs. rewrite !in_app_iff in Hs. destruct Hs as [Hs|[[<-|[]]|[[<-|[<-|[]]]|[<-|[]]]]]; cbn [fst snd]; auto.
    + left. destruct s as [x y]. apply AD. now apply adj_from.
    + left. unfold A. replace (zq k * _) with (- (zq k * cross o w)) by (unfold orient; vring). qlra.
    + left. unfold A. replace (zq k * _) with (- (zq k * cross o w)) by (unfold orient; vring). qlra.
Qed.
Lemma quad_forward v o w : cross o w <> 0 -> forward [vadd v w; v; vadd v o; vadd (vadd v o) w].
Proof.
  intros X. assert (exists k, (k = 1 \/ k = -1)%Z /\ 0 < zq k * cross o w) as (k & K & KP).
  { destruct (qc_not_eq _ _ X); [exists (-1)%Z|exists 1%Z]; (split; [auto|]); [change (zq (-1)) with (- (1))|change (zq 1) with 1]; qlra. }
  assert (SH : forall u, cross o w <> 0 -> vadd v u = v -> u = (0, 0)). { intros u _ E. replace u with (vsub (vadd v u) v) by (apply pteq; vec; ring). rewrite E. apply pteq; vec; ring. }
  apply (star_forward v (vadd v o) (vadd v w) _ k); auto.
  - cbn; auto.
  - intros E. apply SH in E; auto. subst o. apply X. unfold cross. cbn [fst snd]. ring.
  - intros E. apply SH in E; auto. subst w. apply X. unfold cross. cbn [fst snd]. ring.
  - intros (m & _ & E). apply X. replace o with (vsub (vadd v o) v) by (apply pteq; vec; ring). rewrite E. vring.
  - intros s [<-|[<-|[<-|[<-|[]]]]]; cbn [fst snd]; auto.
    + left. replace (orient v (vadd v o) (vadd (vadd v o) w)) with (cross o w) by (unfold orient; vring). auto.
    + left. replace (orient v (vadd (vadd v o) w) (vadd v w)) with (cross o w) by (unfold orient; vring). auto.
Qed.
(** what the code makes of a polygon that is clean *)
Lemma piece_of P es : P <> [] -> clean P -> (vs <- simplify_degeneracies P ;; Ok (if (2 <? length vs)%nat then [vs] else [])) = Ok es -> exists e, es = [e] /\ clean e /\ e <> [].
Proof.
  intros NE C H. apply bind_ok in H as (vs & S & H). apply simplify_steps in S. destruct (clean_differ P C NE) as (p & NB & W). destruct (wsteps_wsum p _ _ S NB) as (_ & E).
  destruct (Nat.ltb_spec 2 (length vs)) as [L|L]; injection H as <-.
  - exists vs. split; auto. split; [exact (clean_steps _ _ C S)|]. intros ->. cbn in L. lia.
  - exfalso. apply W. rewrite <- E. now apply wsum_short.
Qed.

Section Poly.
Variables (cpoly : list point) (F : Z -> Qc).
Let n := length cpoly.
Let c (i : Z) := nthp cpoly i.
Hypothesis N0 : (0 < n)%nat.
Hypothesis FT : forall i, F (i + Z.of_nat n) = F i + zq 8.
Hypothesis FI : forall i, F i < F (i + 1) /\ F (i + 1) < F i + zq 4.
Hypothesis FA : forall i, ang (vsub (c (i + 1)) (c i)) (F i).
Variable D : list (Qc * nat).
Hypothesis DE : edge_starts 0 (edges_iter cpoly) [] = Ok D.
Let CE := edges_iter cpoly.
Hypothesis C1 : forall k, In k CE -> 0 < hgt k.
Hypothesis C3 : forall k j, In k CE -> In j CE -> nrm j (fst k) <= hgt j /\ nrm j (snd k) <= hgt j.
Let sp := supf cpoly D.
Let cpc i : nth (i mod n)%nat cpoly (0, 0) = c (Z.of_nat i) := cp_c cpoly i.
Lemma path_clean (s : Qc) k v vn (L : list nat) i : (k = 1 \/ k = -1)%Z -> zq k = - s -> s * s = 1 -> c (Z.of_nat i) = sp (vsub vn v) -> 0 < cross (vsub vn v) (sp (vsub vn v)) ->
  (exists L0 j, L = L0 ++ [j] /\ c (Z.of_nat j) = sp (vsub vn v)) -> (forall a b, adj L (a, b) -> 0 < - s * cross (c (Z.of_nat a)) (c (Z.of_nat b))) ->
  (exists a L', L = a :: L' /\ c (Z.of_nat a) <> (0, 0) /\ ~ exists m, 0 < m /\ vscale s (c (Z.of_nat a)) = vscale m (vsub vn v)) ->
  let verts := map (fun idx => padd v (pscale s (nth (idx mod n)%nat cpoly (0, 0)))) L in
  forall es, (vs <- simplify_degeneracies (insert_pokes s v verts ++ [padd vn (pscale s (nth (i mod n)%nat cpoly (0, 0))); vn; v]) ;; Ok (if (2 <? length vs)%nat then [vs] else [])) = Ok es ->
  exists e, es = [e] /\ clean e /\ e <> [].
Proof.
  intros K KS SS CI X (L0 & j & EL & CJ) AD (a0 & La & EL' & CA & NR) verts es HE.
  assert (EV : verts = map (fun idx => vadd v (vscale s (c (Z.of_nat idx)))) L) by (apply map_ext; intros x; rewrite cpc; reflexivity). rewrite cpc in HE. clearbody verts. subst verts.
  change (padd vn (pscale s (c (Z.of_nat i)))) with (vadd vn (vscale s (c (Z.of_nat i)))) in HE.
  set (f := fun idx => vadd v (vscale s (c (Z.of_nat idx)))) in *.
  assert (ORI : forall a b, orient v (f a) (f b) = cross (c (Z.of_nat a)) (c (Z.of_nat b))).
  { intros a b. unfold f. generalize (c (Z.of_nat a)) (c (Z.of_nat b)). intros ca cb. transitivity (s * s * cross ca cb); [unfold orient; vring|rewrite SS; ring]. }
  rewrite insert_pokes_id in HE.
  2:{ intros a b Hab. apply adj_map in Hab as (x & y & Hxy & Eq). injection Eq as -> ->. rewrite tri_area_orient. rewrite <- (orient_rot3 v (f x) (f y)), ORI. pose proof (AD _ _ Hxy). qlra. }
  set (o := vsub vn v) in *. set (w := vscale s (sp o)) in *.
  assert (VN : vn = vadd v o) by (unfold o; vring).
  destruct (map f L) as [|x0 L'] eqn:EM. { subst L. rewrite map_app in EM. destruct (map f L0); discriminate. }
  assert (LA : last L' x0 = vadd v w). { rewrite <- last_cons, <- EM, EL, map_app. cbn [map]. rewrite last_last. unfold f, w. now rewrite CJ. }
  assert (X0 : x0 = f a0) by (rewrite EL' in EM; injection EM as <- _; auto).
  eapply piece_of; [| |exact HE].
  - discriminate.
  - rewrite CI. fold w. rewrite VN. apply forward_clean, (path_forward v o w k x0 L' K).
    + unfold w. replace (zq k * cross o (vscale s (sp o))) with (zq k * s * cross o (sp o)) by vring. rewrite KS. replace (- s * s) with (- (s * s)) by ring. rewrite SS. qlra.
    + exact LA.
    + rewrite X0. unfold f. intros E. apply CA. generalize dependent (c (Z.of_nat a0)). intros u _ _ E. transitivity (vscale (s * s) u); [rewrite SS; vring|].
      transitivity (vscale s (vsub (vadd v (vscale s u)) v)); [vring|rewrite E; vring].
    + intros (m & M & E). apply NR. exists m. split; auto. rewrite <- E, X0. unfold f. generalize (c (Z.of_nat a0)). intros; vring.
    + intros x y Hxy. rewrite <- EM in Hxy. apply adj_map in Hxy as (a & b & Hab & Eq). injection Eq as -> ->. rewrite ORI, KS. now apply AD.
Qed.
Lemma quad_clean (s : Qc) v vn i : s = 1 \/ s = - (1) -> c (Z.of_nat i) = sp (vsub vn v) -> 0 < cross (vsub vn v) (sp (vsub vn v)) ->
  forall es, (vs <- simplify_degeneracies ([padd v (pscale s (nth (i mod n)%nat cpoly (0, 0)))] ++ [v; vn; padd vn (pscale s (nth (i mod n)%nat cpoly (0, 0)))]) ;; Ok (if (2 <? length vs)%nat then [vs] else [])) = Ok es ->
  exists e, es = [e] /\ clean e /\ e <> [].
Proof.
  intros S CI X es HE. rewrite cpc in HE.
  change (padd vn (pscale s (c (Z.of_nat i)))) with (vadd vn (vscale s (c (Z.of_nat i)))) in HE. change (padd v (pscale s (c (Z.of_nat i)))) with (vadd v (vscale s (c (Z.of_nat i)))) in HE.
  set (o := vsub vn v) in *. set (w := vscale s (sp o)) in *. assert (VN : vn = vadd v o) by (unfold o; vring).
  rewrite CI in *. fold w in HE. rewrite VN in HE. eapply piece_of; [| |exact HE]; [discriminate|]. apply forward_clean, quad_forward.
  unfold w. replace (cross o (vscale s (sp o))) with (s * cross o (sp o)) by vring. intros E. destruct S as [-> | ->]; qlra.
Qed.
Theorem ribbon_clean s vp v vn es : s = 1 \/ s = - (1) -> ribbon_part cpoly s D vp v vn = Ok es -> exists e, es = [e] /\ clean e /\ e <> [].
Proof.
  intros SG H. unfold ribbon_part in H. fold n in H. apply bind_ok in H as (pf & VP & H). apply bind_ok in H as (nf & VN & H).
  apply bind_ok in H as (ip & FP & H). apply bind_ok in H as (inx & FN & H). unfold MAX_FRANGLE, FRANGLE_180 in H.
  change (psub v vp) with (vsub v vp) in *. change (psub vn v) with (vsub vn v) in *.
  destruct (supf_pos cpoly F N0 FT FI FA D DE C1 C3 _ _ _ VN FN) as (X & CI). destruct (supf_pos cpoly F N0 FT FI FA D DE C1 C3 _ _ _ VP FP) as (XP & CIP). fold n c sp in X, CI, XP, CIP.
  destruct (qmod_spec (nf - pf) (zq 8)) as (m & Em & Q0 & Q1); [qlra|].
  assert (TR : cross (vsub v vp) (vsub vn v) < 0 -> qmod (nf - pf) (zq 8) < zq 4) by (apply turn_right; auto).
  assert (TL : cross (vsub vn v) (vsub v vp) < 0 -> zq 4 <= qmod (nf - pf) (zq 8)) by (apply turn_left; auto).
  set (q := qmod (nf - pf) (zq 8)) in *. clearbody q. destruct SG as [-> | ->].
  - change (qltb 0 1) with true in H. change (qltb 1 0) with false in H. destruct (qltb_spec q (zq 4)) as [T|T]; cbv iota in H.
    + destruct (find_lift cpoly F N0 FT FI FA D DE pf ip _ 0%Z VP FP) as (PA & A1 & A2 & A3 & A4 & A5). destruct (find_lift cpoly F N0 FT FI FA D DE nf inx _ (- m)%Z VN FN) as (PB & B1 & B2 & B3 & B4 & B5).
      rewrite zq_opp in *. rewrite zq_0 in *. destruct (walk cpoly F N0 FT FI FA C1 _ _ _ _ PA PB ip inx A5 B5) as (W0 & W1 & W2 & W3); auto; try qlra. rewrite B4 in W1.
      apply (path_clean 1 (-1)%Z v vn (idx_range ip inx n) inx) in H; auto.
      * intros a b Hab. pose proof (W2 _ _ Hab). replace (- (1) * cross (c (Z.of_nat a)) (c (Z.of_nat b))) with (cross (c (Z.of_nat b)) (c (Z.of_nat a))) by (unfold cross; ring). auto.
      * destruct W0 as (L' & W0). exists ip, L'. split; auto. unfold c. rewrite CIP. split.
        -- intros E. rewrite E in XP. unfold cross in XP. cbn [fst snd] in XP. qlra.
        -- intros (h & Hh & E). assert (TL' : zq 4 <= q); [|qlra]. apply TL. assert (Y : 0 < h * cross (vsub v vp) (vsub vn v)). { replace (h * cross (vsub v vp) (vsub vn v)) with (cross (vsub v vp) (vscale h (vsub vn v))) by vring. rewrite <- E. replace (vscale 1 (sp (vsub v vp))) with (sp (vsub v vp)) by (generalize (sp (vsub v vp)); intros; vring). auto. }
           replace (cross (vsub vn v) (vsub v vp)) with (- cross (vsub v vp) (vsub vn v)) by vring. destruct (qltb_spec 0 (cross (vsub v vp) (vsub vn v))); [qlra|]. exfalso. assert (0 <= h * - cross (vsub v vp) (vsub vn v)) by (apply mnn; qlra). qlra.
    + cbn [rev app map insert_pokes] in H. apply (quad_clean 1 v vn inx); auto.
  - change (qltb 0 (- (1))) with false in H. change (qltb (- (1)) 0) with true in H. destruct (qltb_spec q (zq 4)) as [T|T]; cbv iota in H.
    + cbn [rev app map insert_pokes] in H. apply (quad_clean (- (1)) v vn inx); auto.
    + destruct (find_lift cpoly F N0 FT FI FA D DE pf ip _ 0%Z VP FP) as (PB & B1 & B2 & B3 & B4 & B5). destruct (find_lift cpoly F N0 FT FI FA D DE nf inx _ (- m - 1)%Z VN FN) as (PA & A1 & A2 & A3 & A4 & A5).
      rewrite zq_sub, zq_opp, zq_1 in *. rewrite zq_0 in *. destruct (walk cpoly F N0 FT FI FA C1 _ _ _ _ PA PB inx ip A5 B5) as ((L' & W0) & (L0 & j & W1 & CJ) & W2 & W3); auto; try qlra.
      cbn [rev app] in H. apply (path_clean (- (1)) 1%Z v vn (rev (idx_range inx ip n)) inx) in H; auto.
      * unfold n. rewrite W0. cbn [rev]. exists (rev L'), inx. auto.
      * intros a b Hab. apply (proj1 (adj_rev _ _ _)) in Hab. pose proof (W2 _ _ Hab). replace (- - (1) * cross (c (Z.of_nat a)) (c (Z.of_nat b))) with (cross (c (Z.of_nat a)) (c (Z.of_nat b))) by ring. auto.
      * exists j, (rev L0). unfold n. rewrite W1, rev_app_distr. split; [reflexivity|]. unfold c. rewrite CJ, B4. fold sp. split.
        -- intros E. rewrite E in XP. unfold cross in XP. cbn [fst snd] in XP. qlra.
        -- intros (h & Hh & E). assert (TR' : q < zq 4); [|qlra]. apply TR. assert (Y : h * cross (vsub v vp) (vsub vn v) < 0). { replace (h * cross (vsub v vp) (vsub vn v)) with (cross (vsub v vp) (vscale h (vsub vn v))) by vring. rewrite <- E. replace (cross _ _) with (- cross (vsub v vp) (sp (vsub v vp))) by (generalize (sp (vsub v vp)); intros; vring). qlra. }
           destruct (qltb_spec (cross (vsub v vp) (vsub vn v)) 0); [auto|]. exfalso. assert (0 <= h * cross (vsub v vp) (vsub vn v)) by (apply mnn; qlra). qlra.
Qed.
(** every triple of a ring gives exactly one piece, and the piece is clean *)
Lemma ribbons_clean s R es : s = 1 \/ s = - (1) -> R <> [] -> minkowski_ribbon_simple_convex R cpoly s = Ok es -> es <> [] /\ Forall (fun e => clean e /\ e <> []) es.
Proof.
  intros S NE H. unfold minkowski_ribbon_simple_convex in H. apply bind_ok in H as (u & _ & H). apply bind_ok in H as (u' & _ & H).
  apply bind_ok in H as (D' & DE' & H). rewrite DE in DE'. injection DE' as <-. apply bind_ok in H as (parts & P & H). injection H as <-. apply PyP.mapM_ok in P.
  assert (PF : Forall (fun es => exists e, es = [e] /\ clean e /\ e <> []) parts).
  { clear NE. induction P as [|((vp, v), vn) part ts parts H P IH]; constructor; auto. now apply (ribbon_clean s vp v vn). }
  assert (PN : parts <> []). { intros ->. inversion P as [E|]. destruct R; [congruence|discriminate E]. }
  split.
  - destruct parts as [|p ps]; [congruence|]. inversion PF as [|? ? (e & -> & _) _]. discriminate.
  - clear P PN. induction PF as [|p ps (e & -> & C) _ IH]; [constructor|]. constructor; auto.
Qed.
End Poly.
