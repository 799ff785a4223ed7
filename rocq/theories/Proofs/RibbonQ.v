(** * The ribbon piece at a vertex covers the swept parallelogram and the corner *)
From Verif.Model Require Import Geom2d.
From Verif.Spec Require Import Plane Region.
From Verif.Proofs Require Import PyP PolyP WindingP WindingQ WindingR NearP SimplifyP ReachP JumpP CoverP AreaP AngleP RibbonP.
From Verif.Props Require Import Frangle2dProps.

Lemma poly_cover P p es : (verts <- simplify_degeneracies P ;; Ok (if (2 <? length verts)%nat then [verts] else [])) = Ok es ->
  ~ on_boundary P p -> wsum p P <> 0%Z -> exists e, In e es /\ in_ring e p /\ ~ on_boundary e p.
Proof.
  intros H NB W. apply bind_ok in H as (vs & S & H). apply simplify_steps in S. destruct (wsteps_wsum p _ _ S NB) as (N1 & E). rewrite <- E in W.
  destruct (Nat.ltb_spec 2 (length vs)) as [L|L]; [|destruct W; apply wsum_short; lia]. injection H as <-. exists vs. split; [left; auto|]. split; auto. now apply wsum_in_ring.
Qed.
Lemma tri_ind_sg a b c p k : (k = 1 \/ k = -1)%Z -> 0 < zq k * orient a b p -> 0 < zq k * orient b c p -> 0 < zq k * orient c a p -> tri_ind a b c p = k.
Proof.
  intros [-> | ->] H1 H2 H3.
  - change (zq 1) with 1 in *. apply tri_ind_1. repeat split; qlra.
  - change (zq (-1)) with (- (1)) in *. apply tri_ind_m1, tri_ind_1. rewrite (orient_rev c a), (orient_rev b c), (orient_rev a b). repeat split; qlra.
Qed.
Lemma tri_ind_sg_rev a b c p k : (k = 1 \/ k = -1)%Z -> tri_ind a b c p = (- k)%Z -> tri_ind a c b p = k.
Proof. intros K H. rewrite tri_ind_rev, H. lia. Qed.

(** a point of a parallelogram off its sides and its diagonal *)
Definition off_pairs (W : list point) (p : point) : Prop := forall a b, In a W -> In b W -> ~ on_seg (a, b) p.
Lemma quad_inside v o w p t l : 0 <= t -> t <= 1 -> 0 <= l -> l <= 1 -> p = vadd (vadd v (vscale t o)) (vscale l w) ->
  off_pairs [v; vadd v o; vadd v w; vadd (vadd v o) w] p -> 0 < t /\ t < 1 /\ 0 < l /\ l < 1 /\ t <> l.
Proof.
  intros T0 T1 L0 L1 E OFF.
  assert (t <> 0). { intros ->. apply (OFF v (vadd v w)); cbn; auto. exists l. repeat split; auto. rewrite E. unfold at_t. vring. }
  assert (t <> 1). { intros ->. apply (OFF (vadd v o) (vadd (vadd v o) w)); cbn; auto. exists l. repeat split; auto. rewrite E. unfold at_t. vring. }
  assert (l <> 0). { intros ->. apply (OFF v (vadd v o)); cbn; auto. exists t. repeat split; auto. rewrite E. unfold at_t. vring. }
  assert (l <> 1). { intros ->. apply (OFF (vadd v w) (vadd (vadd v o) w)); cbn; auto. exists t. repeat split; auto. rewrite E. unfold at_t. vring. }
  assert (t <> l). { intros ->. apply (OFF v (vadd (vadd v o) w)); cbn; auto. exists l. repeat split; auto. rewrite E. unfold at_t. vring. }
  destruct (qc_not_eq _ _ H), (qc_not_eq _ _ H0), (qc_not_eq _ _ H1), (qc_not_eq _ _ H2); repeat split; auto; qlra.
Qed.
Lemma quad_tri v o w p t l k : (k = 1 \/ k = -1)%Z -> zq k * cross o w < 0 -> 0 < t -> t < 1 -> 0 < l -> l < 1 -> t <> l -> p = vadd (vadd v (vscale t o)) (vscale l w) ->
  tri_ind v (vadd (vadd v o) w) (vadd v o) p = k \/ tri_ind v (vadd v w) (vadd (vadd v o) w) p = k.
Proof.
  intros K X T0 T1 L0 L1 N ->. set (Y := - (zq k * cross o w)) in *. assert (PY : 0 < Y) by (unfold Y; qlra).
  destruct (qc_not_eq _ _ N) as [Q|Q]; [right|left]; apply (tri_ind_sg _ _ _ _ k K).
  - replace (zq k * _) with (t * Y) by (unfold Y, orient; vring). apply mpp; auto.
  - replace (zq k * _) with ((1 - l) * Y) by (unfold Y, orient; vring). apply mpp; auto. qlra.
  - replace (zq k * _) with ((l - t) * Y) by (unfold Y, orient; vring). apply mpp; auto. qlra.
  - replace (zq k * _) with ((t - l) * Y) by (unfold Y, orient; vring). apply mpp; auto. qlra.
  - replace (zq k * _) with ((1 - t) * Y) by (unfold Y, orient; vring). apply mpp; auto. qlra.
  - replace (zq k * _) with (l * Y) by (unfold Y, orient; vring). apply mpp; auto.
Qed.
Lemma off_pairs_in W W' p : (forall x, In x W' -> In x W) -> off_pairs W p -> off_pairs W' p.
Proof. intros H O a b A B. apply O; auto. Qed.
Lemma off_pairs_bd W p : off_pairs W p -> ~ on_boundary W p.
Proof. intros O (s & Hs & X). apply is_edge_pedges in Hs. pose proof (pedges_in _ _ Hs) as (A & B). destruct s. exact (O _ _ A B X). Qed.

(** the two shapes *)
Lemma quad_poly v o w p k t l : (k = 1 \/ k = -1)%Z -> zq k * cross o w < 0 -> let P := [vadd v w; v; vadd v o; vadd (vadd v o) w] in
  off_pairs P p -> 0 <= t -> t <= 1 -> 0 <= l -> l <= 1 -> p = vadd (vadd v (vscale t o)) (vscale l w) -> wsum p P <> 0%Z.
Proof.
  intros K X P OFF T0 T1 L0 L1 E. assert (K' : (- k = 1 \/ - k = -1)%Z) by lia.
  destruct (quad_inside v o w p t l) as (A1 & A2 & A3 & A4 & A5); auto. { apply (off_pairs_in P); auto. unfold P. cbn. tauto. }
  apply (fan_wsum v P p (- k)%Z K').
  - rewrite zq_opp. intros s Hs. unfold P in Hs. cbn in Hs. destruct Hs as [<-|[<-|[<-|[<-|[]]]]]; cbn [fst snd].
    + replace (- zq k * _) with 0 by (unfold orient; vring). qlra.
    + replace (- zq k * _) with 0 by (unfold orient; vring). qlra.
    + replace (- zq k * _) with (- (zq k * cross o w)) by (unfold orient; vring). qlra.
    + replace (- zq k * _) with (- (zq k * cross o w)) by (unfold orient; vring). qlra.
  - intros x Hx. apply OFF; auto. unfold P. cbn. auto.
  - now apply off_pairs_bd.
  - destruct (quad_tri v o w p t l k) as [H|H]; auto.
    + exists (vadd v o, vadd (vadd v o) w). split; [unfold P; cbn; auto|]. apply tri_ind_sg_rev; auto. cbn [fst snd]. rewrite H. lia.
    + exists (vadd (vadd v o) w, vadd v w). split; [unfold P; cbn; auto 6|]. apply tri_ind_sg_rev; auto. cbn [fst snd]. rewrite H. lia.
Qed.
Lemma path_poly v o w p k x0 L : (k = 1 \/ k = -1)%Z -> zq k * cross o w < 0 -> last L x0 = vadd v w ->
  (forall x y, adj (x0 :: L) (x, y) -> 0 <= zq k * orient v x y) ->
  let P := (x0 :: L) ++ [vadd (vadd v o) w; vadd v o; v] in off_pairs P p ->
  (exists t l, 0 <= t /\ t <= 1 /\ 0 <= l /\ l <= 1 /\ p = vadd (vadd v (vscale t o)) (vscale l w)) \/
  (exists x y, adj (x0 :: L) (x, y) /\ tri_ind v x y p = k) -> wsum p P <> 0%Z.
Proof.
  intros K X LA ADJ P OFF H. set (A := vadd (vadd v o) w) in *.
  assert (ED : edges_iter P = edges_from x0 L ++ [(vadd v w, A)] ++ [(A, vadd v o); (vadd v o, v)] ++ [(v, x0)]).
  { unfold P. cbn [app]. rewrite edges_iter_snoc, edges_from_app, edges_from_snoc, LA. cbn [edges_from].
    replace (last (x0 :: L ++ [A; vadd v o; v]) x0) with v; [rewrite <- !app_assoc; reflexivity|].
    change (x0 :: L ++ [A; vadd v o; v]) with ((x0 :: L) ++ [A; vadd v o] ++ [v]). now rewrite app_assoc, last_last. }
  assert (VP : In (vadd v w) P). { unfold P. rewrite <- LA. apply in_app_iff. left. destruct L as [|y L]; [left; reflexivity|]. right. destruct (exists_last (l := y :: L) ltac:(discriminate)) as (l' & z & ->). rewrite last_last. apply in_app_iff. cbn. auto. }
  assert (IP : forall x, In x [A; vadd v o; v] -> In x P) by (intros x Hx; unfold P; apply in_app_iff; auto).
  apply (fan_wsum v P p k K).
  - rewrite ED. intros s Hs. rewrite !in_app_iff in Hs. destruct Hs as [Hs|[[<-|[]]|[[<-|[<-|[]]]|[<-|[]]]]]; cbn [fst snd].
    + destruct s as [x y]. apply ADJ. now apply adj_from.
    + unfold A. replace (zq k * _) with (- (zq k * cross o w)) by (unfold orient; vring). qlra.
    + unfold A. replace (zq k * _) with (- (zq k * cross o w)) by (unfold orient; vring). qlra.
    + replace (zq k * _) with 0 by (unfold orient; vring). qlra.
    + replace (zq k * _) with 0 by (unfold orient; vring). qlra.
  - intros x Hx. apply OFF; auto. apply IP. cbn. auto.
  - now apply off_pairs_bd.
  - destruct H as [(t & l & T0 & T1 & L0 & L1 & E)|(x & y & AD & T)].
    + destruct (quad_inside v o w p t l) as (A1 & A2 & A3 & A4 & A5); auto.
      { apply (off_pairs_in P); auto. intros x [<-|[<-|[<-|[<-|[]]]]]; auto; apply IP; cbn; auto. }
      destruct (quad_tri v o w p t l k) as [H|H]; auto.
      * exists (A, vadd v o). split; [rewrite ED, !in_app_iff; cbn; auto|exact H].
      * exists (vadd v w, A). split; [rewrite ED, !in_app_iff; cbn; auto|exact H].
    + exists (x, y). split; [rewrite ED, !in_app_iff; left; now apply adj_from|exact T].
Qed.

Lemma pie_tri v a b p al be k : (k = 1 \/ k = -1)%Z -> 0 < zq k * cross a b -> 0 <= al -> 0 <= be -> al + be <= 1 ->
  p = vadd v (vadd (vscale al a) (vscale be b)) -> off_pairs [v; vadd v a; vadd v b] p -> tri_ind v (vadd v a) (vadd v b) p = k.
Proof.
  intros K X A0 B0 S E OFF.
  assert (A1 : al <> 0). { intros ->. apply (OFF v (vadd v b)); cbn; auto. exists be. split; [auto|]. split; [qlra|]. rewrite E. unfold at_t. vring. }
  assert (B1 : be <> 0). { intros ->. apply (OFF v (vadd v a)); cbn; auto. exists al. split; [auto|]. split; [qlra|]. rewrite E. unfold at_t. vring. }
  assert (S1 : al + be <> 1). { intros Q. assert (al = 1 - be) as -> by qlra. apply (OFF (vadd v a) (vadd v b)); cbn; auto. exists be. split; [auto|]. split; [qlra|]. rewrite E. unfold at_t. vring. }
  assert (0 < al) by (destruct (qc_not_eq _ _ A1); qlra). assert (0 < be) by (destruct (qc_not_eq _ _ B1); qlra). assert (0 < 1 - (al + be)) by (destruct (qc_not_eq _ _ S1); qlra).
  set (Y := zq k * cross a b) in *. rewrite E. apply tri_ind_sg; auto.
  - replace (zq k * _) with (be * Y) by (unfold Y, orient; vring). apply mpp; auto.
  - replace (zq k * _) with ((1 - (al + be)) * Y) by (unfold Y, orient; vring). apply mpp; auto.
  - replace (zq k * _) with (al * Y) by (unfold Y, orient; vring). apply mpp; auto.
Qed.
Lemma turn_right u w pf nf : vector_frangle u = Ok pf -> vector_frangle w = Ok nf -> cross u w < 0 -> qmod (nf - pf) (zq 8) < zq 4.
Proof.
  intros U W C. destruct (ang_cw_ex _ _ _ (ang_self _ _ U) C) as (g & G & L & H). destruct (qmod_spec (nf - pf) (zq 8)) as (m & E & Q0 & Q1); [qlra|].
  set (q := qmod _ _) in *. clearbody q. assert (A : ang w (pf + q)). { replace (pf + q) with (nf + zq 8 * zq (- m)) by (rewrite zq_opp; qlra). apply ang_turn, ang_self, W. }
  rewrite <- (ang_near _ _ _ A G) in H by qlra. qlra.
Qed.
Lemma turn_left u w pf nf : vector_frangle u = Ok pf -> vector_frangle w = Ok nf -> cross w u < 0 -> zq 4 <= qmod (nf - pf) (zq 8).
Proof.
  intros U W C. destruct (ang_cw_ex _ _ _ (ang_self _ _ W) C) as (g & G & L & H). destruct (qmod_spec (nf - pf) (zq 8)) as (m & E & Q0 & Q1); [qlra|].
  set (q := qmod _ _) in *. clearbody q. assert (A : ang u (nf + (zq 8 - q))). { replace (nf + (zq 8 - q)) with (pf + zq 8 * zq (m + 1)) by (rewrite zq_plus, zq_1; qlra). apply ang_turn, ang_self, U. }
  destruct (qleb_spec (zq 4) q); auto. exfalso. rewrite <- (ang_near _ _ _ A G) in H by qlra. qlra.
Qed.

Section Poly.
Variables (cpoly : list point) (F : Z -> Qc).
Let n := length cpoly.
Let c (i : Z) := nthp cpoly i.
Hypothesis N0 : (0 < n)%nat.
Hypothesis FT : forall i, F (i + Z.of_nat n) = F i + zq 8.
Hypothesis FI : forall i, F i < F (i + 1) /\ F (i + 1) < F i + zq 4.
Hypothesis FA : forall i, ang (vsub (c (i + 1)) (c i)) (F i).
Variable D : list (Qc * nat).
Hypothesis DE : edge_starts 0 (edges_iter cpoly) [] = Ok D.
Let CE := edges_iter cpoly.
Hypothesis C1 : forall k, In k CE -> 0 < hgt k.
Hypothesis C3 : forall k j, In k CE -> In j CE -> nrm j (fst k) <= hgt j /\ nrm j (snd k) <= hgt j.
Let e (i : Z) := vsub (c (i + 1)) (c i).

Lemma e_in i : In (c i, c (i + 1)) CE.
Proof. unfold CE. apply (edge_in cpoly); auto. exists i. reflexivity. Qed.
Lemma e_turn i : cross (e i) (e (i + 1)) < 0.
Proof. destruct (FI i). eapply ang_cw; [apply FA|apply FA|auto|auto]. Qed.
Lemma e_hgt i : 0 < cross (c (i + 1)) (c i).
Proof. exact (C1 _ (e_in i)). Qed.

(** the vertex at the end of the last edge before a direction is extreme in it *)
Lemma sup_ok d g N : ang d g -> F N <= g -> g < F (N + 1) -> let s := c (N + 1) in
  0 < cross d s /\ gle CE s 1 /\ forall x, gle CE x 1 -> cross d x <= cross d s /\ (cross d x = cross d s -> exists k, 0 <= k /\ s = vadd x (vscale k d)).
Proof.
  intros A L U s. destruct (FI N) as (I1 & I2).
  assert (G1 : gle CE s 1). { intros k Hk. pose proof (proj2 (C3 _ _ (e_in N) Hk)) as H. cbn [snd] in H. fold s in H. qlra. }
  assert (GX : forall x, gle CE x 1 -> cross (e N) (vsub x s) <= 0 /\ cross (e (N + 1)) (vsub x s) <= 0).
  { intros x G. pose proof (G _ (e_in N)) as H1. pose proof (G _ (e_in (N + 1))) as H2. unfold nrm, hgt in H1, H2. cbn [fst snd] in H1, H2. fold (e N) in H1. fold (e (N + 1)) in H2. fold s in H1, H2. split.
    - replace (cross (e N) (vsub x s)) with (cross (e N) x - 1 * cross s (c N)) by (unfold e; fold s; vring). qlra.
    - replace (cross (e (N + 1)) (vsub x s)) with (cross (e (N + 1)) x - 1 * cross (c (N + 1 + 1)) s) by (unfold e; fold s; vring). qlra. }
  assert (S1 : 0 < cross (e N) s) by (replace (cross (e N) s) with (cross (c (N + 1)) (c N)) by (unfold e; fold s; vring); apply e_hgt).
  assert (S2 : 0 < cross (e (N + 1)) s) by (replace (cross (e (N + 1)) s) with (cross (c (N + 1 + 1)) (c (N + 1))) by (unfold e; fold s; vring); apply e_hgt).
  assert (T := e_turn N). assert (AN : ang (e N) (F N)) by apply FA. assert (AN' : ang (e (N + 1)) (F (N + 1))) by apply FA.
  set (a := e N) in *. set (b := e (N + 1)) in *. clearbody a b s.
  destruct (qeqb_spec (F N) g) as [E|E].
  - rewrite <- E in A. destruct (ang_par a d (F N) AN A) as (m & Mp & ->).
    split; [replace (cross (vscale m a) s) with (m * cross a s) by vring; apply mpp; auto|]. split; auto. intros x G. destruct (GX x G) as (X1 & X2).
    assert (CE' : cross (vscale m a) x = cross (vscale m a) s + m * cross a (vsub x s)) by vring. split.
    + assert (0 <= m * - cross a (vsub x s)) by (apply mnn; qlra). qlra.
    + intros Eq. assert (Z0 : cross a (vsub x s) = 0). { assert (Q : m * cross a (vsub x s) = 0) by qlra. apply Qcmult_integral in Q as [Q|Q]; [qlra|auto]. }
      assert (NA : a <> (0, 0)) by (intros ->; unfold cross in S1; cbn [fst snd] in S1; qlra). destruct (par_of _ _ NA Z0) as (h & Eh).
      assert (H0 : h <= 0). { rewrite Eh in X2. replace (cross b (vscale h a)) with (h * - cross a b) in X2 by vring. destruct (qleb_spec h 0); auto. exfalso. assert (0 < h * - cross a b) by (apply mpp; qlra). qlra. }
      assert (Mn : m <> 0) by (intros ->; qlra). pose proof (qdiv_mul (- h) m Mn) as Dv. set (q := - h / m) in *. clearbody q. exists q.
      split; [destruct (qleb_spec 0 q); auto; exfalso; assert (0 < - q * m) by (apply mpp; qlra); qlra|].
      transitivity (vadd x (vscale (- h) a)); [|rewrite <- Dv; vring]. transitivity (vsub x (vsub x s)); [vring|rewrite Eh; vring].
  - assert (L' : F N < g) by (destruct (qc_not_eq _ _ E); qlra). assert (P1 : cross a d < 0) by (eapply ang_cw; eauto; qlra). assert (P2 : cross d b < 0) by (eapply ang_cw; eauto; qlra).
    assert (ID : forall y, cross a b * cross d y = cross d b * cross a y + cross a d * cross b y) by (intros y; vring).
    split.
    { specialize (ID s). assert (0 < - cross d b * cross a s) by (apply mpp; qlra). assert (0 < - cross a d * cross b s) by (apply mpp; qlra).
      destruct (qltb_spec 0 (cross d s)); auto. exfalso. assert (0 <= - cross a b * - cross d s) by (apply mnn; qlra). qlra. }
    split; auto. intros x G. destruct (GX x G) as (X1 & X2). specialize (ID (vsub x s)).
    assert (Y1 : 0 <= - cross d b * - cross a (vsub x s)) by (apply mnn; qlra). assert (Y2 : 0 <= - cross a d * - cross b (vsub x s)) by (apply mnn; qlra).
    assert (CE' : cross d x = cross d s + cross d (vsub x s)) by vring. split.
    + destruct (qleb_spec (cross d x) (cross d s)); auto. exfalso. assert (0 < - cross a b * cross d (vsub x s)) by (apply mpp; qlra). qlra.
    + intros Eq. assert (Q : cross d (vsub x s) = 0) by qlra. rewrite Q in ID. assert (Z1 : cross d b * cross a (vsub x s) = 0) by qlra. assert (Z2 : cross a d * cross b (vsub x s) = 0) by qlra.
      apply Qcmult_integral in Z1 as [Z1|Z1]; [qlra|]. apply Qcmult_integral in Z2 as [Z2|Z2]; [qlra|].
      assert (NA : a <> (0, 0)) by (intros ->; unfold cross in S1; cbn [fst snd] in S1; qlra). destruct (par_of _ _ NA Z1) as (h & Eh). rewrite Eh in Z2.
      replace (cross b (vscale h a)) with (h * - cross a b) in Z2 by vring. apply Qcmult_integral in Z2 as [->|Z2]; [|qlra]. exists 0. split; [qlra|].
      transitivity (vsub x (vsub x s)); [vring|rewrite Eh; vring].
Qed.
Definition supf (d : point) : point :=
  match vector_frangle d with
  | Ok fr => match find_vertex_on n D fr with Ok i => c (Z.of_nat i) | Err _ => (0, 0) end
  | Err _ => (0, 0)
  end.
Lemma c_mod i J : (Z.of_nat i = J mod Z.of_nat n)%Z -> c (Z.of_nat i) = c J.
Proof. intros ->. unfold c. apply nthp_mod. Qed.
Lemma supf_at d fr i N m : vector_frangle d = Ok fr -> find_vertex_on n D fr = Ok i -> (Z.of_nat i = (N + 1) mod Z.of_nat n)%Z -> c (N + 1 + Z.of_nat n * m) = supf d.
Proof. intros E1 E2 E3. unfold supf. rewrite E1, E2, (c_mod _ _ E3). apply (c_turn cpoly). Qed.

(** the indices the code walks through *)
Lemma idx_eq a b PA PB : (PA <= PB < PA + Z.of_nat n)%Z -> (Z.of_nat a = (PA + 1) mod Z.of_nat n)%Z -> (Z.of_nat b = (PB + 1) mod Z.of_nat n)%Z ->
  idx_range a b n = seq a (S (Z.to_nat (PB - PA))).
Proof.
  intros R Ea Eb. unfold idx_range. f_equal. f_equal. assert (P : (0 < Z.of_nat n)%Z) by lia.
  pose proof (Z.mod_pos_bound (PA + 1) _ P) as Ba. pose proof (Z.mod_pos_bound (PB + 1) _ P) as Bb.
  pose proof (Z_div_mod_eq_full (PA + 1) (Z.of_nat n)) as Da. pose proof (Z_div_mod_eq_full (PB + 1) (Z.of_nat n)) as Db.
  set (qa := ((PA + 1) / Z.of_nat n)%Z) in *. set (qb := ((PB + 1) / Z.of_nat n)%Z) in *. rewrite <- Ea in *. rewrite <- Eb in *. clear Ea Eb. clearbody qa qb.
  assert (Q : (qb = qa \/ qb = qa + 1)%Z) by nia. destruct (Nat.leb_spec a b); destruct Q as [-> | ->]; nia.
Qed.
Lemma idx_at a PA i : (Z.of_nat a = (PA + 1) mod Z.of_nat n)%Z -> c (Z.of_nat (a + i)) = c (PA + 1 + Z.of_nat i).
Proof.
  intros Ea. pose proof (Z_div_mod_eq_full (PA + 1) (Z.of_nat n)) as Da. rewrite <- Ea in Da.
  replace (PA + 1 + Z.of_nat i)%Z with (Z.of_nat (a + i) + Z.of_nat n * ((PA + 1) / Z.of_nat n))%Z by lia. symmetry. apply (c_turn cpoly).
Qed.
Lemma path_range A B x y PA PB : ang A x -> ang B y -> x <= y -> y <= x + zq 4 -> F PA <= x -> x < F (PA + 1) -> F PB <= y -> y < F (PB + 1) ->
  (PA <= PB < PA + Z.of_nat n)%Z /\ forall J, 0 < cross (e J) A -> cross (e J) B <= 0 -> exists J', (PA + 1 <= J' <= PB)%Z /\ c J' = c J /\ c (J' + 1) = c (J + 1).
Proof.
  intros AA AB L U A1 A2 B1 B2. destruct (FI PA) as (I1 & I2). split; [split|].
  - assert (PA < PB + 1)%Z; [|lia]. apply (F_lt_inv cpoly F); auto. qlra.
  - apply (F_lt_inv cpoly F); auto. pose proof (FT PA) as H. fold n in H. fold n. rewrite H. qlra.
  - intros J H1 H2. assert (C : cross A (e J) < 0) by (replace (cross A (e J)) with (- cross (e J) A) by vring; qlra).
    destruct (ang_cw_ex _ _ _ AA C) as (h & Ah & L1 & U1).
    assert (HY : h <= y). { destruct (qleb_spec h y); auto. exfalso. assert (cross B (e J) < 0) by (eapply ang_cw; eauto; qlra). replace (cross B (e J)) with (- cross (e J) B) in H by vring. qlra. }
    destruct (edge_lift cpoly F N0 FT FA J h Ah) as (J' & EF & E1 & E2). exists J'. split; [|auto].
    assert (PA < J')%Z by (apply (F_lt_inv cpoly F); auto; rewrite EF; qlra). assert (J' < PB + 1)%Z by (apply (F_lt_inv cpoly F); auto; rewrite EF; qlra). lia.
Qed.

Lemma cp_c i : nth (i mod n)%nat cpoly (0, 0) = c (Z.of_nat i).
Proof. unfold c, nthp. rewrite <- Nat2Z.inj_mod, Nat2Z.id. reflexivity. Qed.
Lemma c_in i : In (c i) cpoly.
Proof. unfold c, nthp. apply nth_In. fold n. pose proof (Z.mod_pos_bound i (Z.of_nat n)). lia. Qed.
Lemma find_lift fr i d m : vector_frangle d = Ok fr -> find_vertex_on n D fr = Ok i ->
  exists J, F J <= fr + zq 8 * zq m /\ fr + zq 8 * zq m < F (J + 1) /\ (Z.of_nat i = (J + 1) mod Z.of_nat n)%Z /\ c (J + 1) = supf d /\ ang d (fr + zq 8 * zq m).
Proof.
  intros V H. destruct (frangle_range _ _ V). destruct (find_ok cpoly F N0 FT FI FA D DE fr i) as (J & J1 & J2 & J3); auto. exists (J + Z.of_nat n * m)%Z.
  replace (J + Z.of_nat n * m + 1)%Z with (J + 1 + Z.of_nat n * m)%Z by lia.
  pose proof (F_turn cpoly F N0 FT J m) as T1. pose proof (F_turn cpoly F N0 FT (J + 1) m) as T2. fold n in T1, T2. rewrite T1, T2. split; [qlra|]. split; [qlra|]. split.
  { rewrite (Z.mul_comm (Z.of_nat n)), Z_mod_plus_full. exact J3. } split; [now apply (supf_at d fr i)|]. apply ang_turn, ang_self, V.
Qed.
Definition swept (s : Qc) (v vn p : point) : Prop :=
  exists t l, 0 <= t /\ t <= 1 /\ 0 <= l /\ l <= 1 /\ p = vadd (vadd v (vscale t (vsub vn v))) (vscale l (vscale s (supf (vsub vn v)))).
Definition corner (s : Qc) (v A B p : point) : Prop :=
  cross A B < 0 /\ exists J al be, 0 < cross (e J) A /\ cross (e J) B <= 0 /\ 0 <= al /\ 0 <= be /\ al + be <= 1 /\ p = vadd v (vscale s (vadd (vscale al (c J)) (vscale be (c (J + 1))))).
Definition spots (s : Qc) (v vn : point) : list point := v :: vn :: map (fun x => vadd v (vscale s x)) cpoly ++ map (fun x => vadd vn (vscale s x)) cpoly.
Lemma spots_v s v vn i : In (vadd v (vscale s (c i))) (spots s v vn).
Proof. right. right. apply in_app_iff. left. apply (in_map (fun x => vadd v (vscale s x))), c_in. Qed.
Lemma spots_vn s v vn i : In (vadd vn (vscale s (c i))) (spots s v vn).
Proof. right. right. apply in_app_iff. right. apply (in_map (fun x => vadd vn (vscale s x))), c_in. Qed.
Lemma supf_pos d fr i : vector_frangle d = Ok fr -> find_vertex_on n D fr = Ok i -> 0 < cross d (supf d) /\ c (Z.of_nat i) = supf d.
Proof.
  intros V H. destruct (find_lift fr i d 0%Z V H) as (J & J1 & J2 & J3 & J4 & J5). rewrite <- J4. split; [|now apply c_mod]. now apply (sup_ok d _ J J5).
Qed.
Lemma path_case (s : Qc) k v vn p (L : list nat) i : (k = 1 \/ k = -1)%Z -> zq k = - s -> s * s = 1 -> c (Z.of_nat i) = supf (vsub vn v) -> 0 < cross (vsub vn v) (supf (vsub vn v)) ->
  (exists L0 j, L = L0 ++ [j] /\ c (Z.of_nat j) = supf (vsub vn v)) -> (forall a b, adj L (a, b) -> 0 <= - s * cross (c (Z.of_nat a)) (c (Z.of_nat b))) ->
  off_pairs (spots s v vn) p ->
  swept s v vn p \/ (exists a b, adj L (a, b) /\ tri_ind v (vadd v (vscale s (c (Z.of_nat a)))) (vadd v (vscale s (c (Z.of_nat b)))) p = k) ->
  let verts := map (fun idx => padd v (pscale s (nth (idx mod n)%nat cpoly (0, 0)))) L in
  forall es, (vs <- simplify_degeneracies (insert_pokes s v verts ++ [padd vn (pscale s (nth (i mod n)%nat cpoly (0, 0))); vn; v]) ;; Ok (if (2 <? length vs)%nat then [vs] else [])) = Ok es ->
  exists e, In e es /\ in_ring e p /\ ~ on_boundary e p.
Proof.
  intros K KS SS CI X (L0 & j & EL & CJ) AD OFF H verts es HE.
  assert (EV : verts = map (fun idx => vadd v (vscale s (c (Z.of_nat idx)))) L) by (apply map_ext; intros x; rewrite cp_c; reflexivity). rewrite cp_c in HE. clearbody verts. subst verts.
  change (padd vn (pscale s (c (Z.of_nat i)))) with (vadd vn (vscale s (c (Z.of_nat i)))) in HE.
  set (f := fun idx => vadd v (vscale s (c (Z.of_nat idx)))) in *.
  assert (ORI : forall a b, orient v (f a) (f b) = cross (c (Z.of_nat a)) (c (Z.of_nat b))).
  { intros a b. unfold f. generalize (c (Z.of_nat a)) (c (Z.of_nat b)). intros ca cb. transitivity (s * s * cross ca cb); [unfold orient; vring|rewrite SS; ring]. }
  rewrite insert_pokes_id in HE.
  2:{ intros a b Hab. apply adj_map in Hab as (x & y & Hxy & Eq). injection Eq as -> ->. rewrite tri_area_orient. rewrite <- (orient_rot3 v (f x) (f y)), ORI. pose proof (AD _ _ Hxy). qlra. }
  set (o := vsub vn v) in *. set (w := vscale s (supf o)) in *.
  assert (VN : vn = vadd v o) by (unfold o; vring).
  destruct (map f L) as [|x0 L'] eqn:EM. { subst L. rewrite map_app in EM. destruct (map f L0); discriminate. }
  assert (LA : last L' x0 = vadd v w). { rewrite <- last_cons, <- EM, EL, map_app. cbn [map]. rewrite last_last. unfold f, w. now rewrite CJ. }
  assert (PO : off_pairs ((x0 :: L') ++ [vadd (vadd v o) w; vadd v o; v]) p).
  { apply (off_pairs_in (spots s v vn)); auto. intros y Hy. apply in_app_iff in Hy as [Hy|[<-|[<-|[<-|[]]]]].
    - rewrite <- EM in Hy. apply in_map_iff in Hy as (j' & <- & _). apply spots_v.
    - rewrite <- VN. unfold w. rewrite <- CI. apply spots_vn.
    - rewrite <- VN. right. left. reflexivity.
    - left. reflexivity. }
  eapply poly_cover; [exact HE| |].
  - rewrite CI. fold w. rewrite VN. now apply off_pairs_bd.
  - rewrite CI. fold w. rewrite VN. apply (path_poly v o w p k x0 L' K).
    + unfold w. replace (zq k * cross o (vscale s (supf o))) with (zq k * s * cross o (supf o)) by vring. rewrite KS. replace (- s * s) with (- (s * s)) by ring. rewrite SS. qlra.
    + exact LA.
    + intros x y Hxy. rewrite <- EM in Hxy. apply adj_map in Hxy as (a & b & Hab & Eq). injection Eq as -> ->. rewrite ORI, KS. now apply AD.
    + exact PO.
    + destruct H as [H|(a & b & Hab & T)]; [left; exact H|right]. exists (f a), (f b). split; [rewrite <- EM; now apply adj_map_in|exact T].
Qed.

Lemma quad_case (s : Qc) k v vn p i : (k = 1 \/ k = -1)%Z -> zq k = - s -> s * s = 1 -> c (Z.of_nat i) = supf (vsub vn v) -> 0 < cross (vsub vn v) (supf (vsub vn v)) ->
  off_pairs (spots s v vn) p -> swept s v vn p ->
  forall es, (vs <- simplify_degeneracies ([padd v (pscale s (nth (i mod n)%nat cpoly (0, 0)))] ++ [v; vn; padd vn (pscale s (nth (i mod n)%nat cpoly (0, 0)))]) ;; Ok (if (2 <? length vs)%nat then [vs] else [])) = Ok es ->
  exists e, In e es /\ in_ring e p /\ ~ on_boundary e p.
Proof.
  intros K KS SS CI X OFF (t & l & T0 & T1 & L0 & L1 & E) es HE. rewrite cp_c in HE.
  change (padd vn (pscale s (c (Z.of_nat i)))) with (vadd vn (vscale s (c (Z.of_nat i)))) in HE. change (padd v (pscale s (c (Z.of_nat i)))) with (vadd v (vscale s (c (Z.of_nat i)))) in HE.
  assert (PO : off_pairs [vadd v (vscale s (c (Z.of_nat i))); v; vn; vadd vn (vscale s (c (Z.of_nat i)))] p).
  { apply (off_pairs_in (spots s v vn)); auto. intros y [<-|[<-|[<-|[<-|[]]]]]; [apply spots_v|left; auto|right; left; auto|apply spots_vn]. }
  set (o := vsub vn v) in *. set (w := vscale s (supf o)) in *. assert (VN : vn = vadd v o) by (unfold o; vring).
  rewrite CI in *. fold w in HE, PO. rewrite VN in HE, PO. eapply poly_cover; [exact HE|now apply off_pairs_bd|]. apply (quad_poly v o w p k t l K); auto.
  unfold w. replace (zq k * cross o (vscale s (supf o))) with (zq k * s * cross o (supf o)) by vring. rewrite KS. replace (- s * s) with (- (s * s)) by ring. rewrite SS. qlra.
Qed.
(** the walk from the vertex for direction [A] to the one for [B] *)
Lemma walk A B x y PA PB a b : ang A x -> ang B y -> x <= y -> y <= x + zq 4 -> F PA <= x -> x < F (PA + 1) -> F PB <= y -> y < F (PB + 1) ->
  (Z.of_nat a = (PA + 1) mod Z.of_nat n)%Z -> (Z.of_nat b = (PB + 1) mod Z.of_nat n)%Z -> let L := idx_range a b n in
  (exists L', L = a :: L') /\ (exists L0 j, L = L0 ++ [j] /\ c (Z.of_nat j) = c (PB + 1)) /\
  (forall i j, adj L (i, j) -> 0 < cross (c (Z.of_nat j)) (c (Z.of_nat i))) /\
  forall J, 0 < cross (e J) A -> cross (e J) B <= 0 -> exists i j, adj L (i, j) /\ c (Z.of_nat i) = c J /\ c (Z.of_nat j) = c (J + 1).
Proof.
  intros AA AB L U A1 A2 B1 B2 Ea Eb I. destruct (path_range A B x y PA PB AA AB L U A1 A2 B1 B2) as (R & HJ). unfold I. rewrite (idx_eq a b PA PB R Ea Eb). clear I.
  set (m := Z.to_nat (PB - PA)). assert (Em : Z.of_nat m = (PB - PA)%Z) by lia. clearbody m.
  split; [eexists; reflexivity|]. split; [|split].
  - exists (seq a m), (a + m)%nat. split; [apply seq_S|]. rewrite (idx_at a PA m Ea). f_equal. lia.
  - intros i j Hij. apply adj_seq in Hij as (H1 & -> & H2). replace i with (a + (i - a))%nat by lia. replace (S (a + (i - a))) with (a + S (i - a))%nat by lia. rewrite !(idx_at a PA _ Ea).
    replace (PA + 1 + Z.of_nat (S (i - a)))%Z with (PA + 1 + Z.of_nat (i - a) + 1)%Z by lia. apply e_hgt.
  - intros J H1 H2. destruct (HJ J H1 H2) as (J' & RJ & E1 & E2). set (i := Z.to_nat (J' - (PA + 1))). assert (Ei : Z.of_nat i = (J' - (PA + 1))%Z) by lia. clearbody i.
    exists (a + i)%nat, (S (a + i)). split; [apply adj_seq; lia|]. replace (S (a + i)) with (a + S i)%nat by lia. rewrite !(idx_at a PA _ Ea). rewrite <- E1, <- E2. split; f_equal; lia.
Qed.
Theorem ribbon_covers s vp v vn es p : s = 1 \/ s = - (1) -> ribbon_part cpoly s D vp v vn = Ok es -> off_pairs (spots s v vn) p ->
  swept s v vn p \/ (s = 1 /\ corner s v (vsub v vp) (vsub vn v) p) \/ (s = - (1) /\ corner s v (vsub vn v) (vsub v vp) p) ->
  exists e, In e es /\ in_ring e p /\ ~ on_boundary e p.
Proof.
  intros SG H OFF HP. unfold ribbon_part in H. fold n in H. apply bind_ok in H as (pf & VP & H). apply bind_ok in H as (nf & VN & H).
  apply bind_ok in H as (ip & FP & H). apply bind_ok in H as (inx & FN & H). unfold MAX_FRANGLE, FRANGLE_180 in H.
  change (psub v vp) with (vsub v vp) in *. change (psub vn v) with (vsub vn v) in *.
  destruct (supf_pos _ _ _ VN FN) as (X & CI). destruct (qmod_spec (nf - pf) (zq 8)) as (m & Em & Q0 & Q1); [qlra|].
  assert (TR : cross (vsub v vp) (vsub vn v) < 0 -> qmod (nf - pf) (zq 8) < zq 4) by (apply turn_right; auto).
  assert (TL : cross (vsub vn v) (vsub v vp) < 0 -> zq 4 <= qmod (nf - pf) (zq 8)) by (apply turn_left; auto).
  set (q := qmod (nf - pf) (zq 8)) in *. clearbody q. destruct SG as [-> | ->].
  - change (qltb 0 1) with true in H. change (qltb 1 0) with false in H. destruct (qltb_spec q (zq 4)) as [T|T]; cbv iota in H.
    + destruct (find_lift pf ip _ 0%Z VP FP) as (PA & A1 & A2 & A3 & A4 & A5). destruct (find_lift nf inx _ (- m)%Z VN FN) as (PB & B1 & B2 & B3 & B4 & B5).
      rewrite zq_opp in *. rewrite zq_0 in *. destruct (walk _ _ _ _ PA PB ip inx A5 B5) as (W0 & W1 & W2 & W3); auto; try qlra. rewrite B4 in W1.
      apply (path_case 1 (-1)%Z v vn p (idx_range ip inx n) inx) in H; auto.
      * intros a b Hab. pose proof (W2 _ _ Hab). replace (- (1) * cross (c (Z.of_nat a)) (c (Z.of_nat b))) with (cross (c (Z.of_nat b)) (c (Z.of_nat a))) by (unfold cross; ring). qlra.
      * destruct HP as [HP|[(_ & HP)|(B & _)]]; [left; exact HP|right|discriminate B]. destruct HP as (_ & J & al & be & J1 & J2 & J3 & J4 & J5 & E).
        destruct (W3 J J1 J2) as (i & j & Hij & Ei & Ej). exists i, j. split; auto. apply (pie_tri v _ _ p al be); auto.
        -- rewrite Ei, Ej. pose proof (e_hgt J). change (zq (-1)) with (- (1)). replace (- (1) * _) with (cross (c (J + 1)) (c J)) by (generalize (c (J + 1)) (c J); intros; vring). auto.
        -- rewrite Ei, Ej, E. generalize (c (J + 1)) (c J). intros; vring.
        -- apply (off_pairs_in (spots 1 v vn)); auto. intros y [<-|[<-|[<-|[]]]]; [left; auto|apply spots_v|apply spots_v].
    + cbn [rev app map insert_pokes] in H. apply (quad_case 1 (-1)%Z v vn p inx); auto. destruct HP as [HP|[(_ & (HP & _))|(B & _)]]; [auto| |discriminate B]. apply TR in HP. qlra.
  - change (qltb 0 (- (1))) with false in H. change (qltb (- (1)) 0) with true in H. destruct (qltb_spec q (zq 4)) as [T|T]; cbv iota in H.
    + cbn [rev app map insert_pokes] in H. apply (quad_case (- (1)) 1%Z v vn p inx); auto. destruct HP as [HP|[(B & _)|(_ & (HP & _))]]; [auto|discriminate B|]. apply TL in HP. qlra.
    + destruct (find_lift pf ip _ 0%Z VP FP) as (PB & B1 & B2 & B3 & B4 & B5). destruct (find_lift nf inx _ (- m - 1)%Z VN FN) as (PA & A1 & A2 & A3 & A4 & A5).
      rewrite zq_sub, zq_opp, zq_1 in *. rewrite zq_0 in *. destruct (walk _ _ _ _ PA PB inx ip A5 B5) as ((L' & W0) & W1 & W2 & W3); auto; try qlra.
      cbn [rev app] in H. apply (path_case (- (1)) 1%Z v vn p (rev (idx_range inx ip n)) inx) in H; auto.
      * rewrite W0. cbn [rev]. exists (rev L'), inx. auto.
      * intros a b Hab. apply (proj1 (adj_rev _ _ _)) in Hab. pose proof (W2 _ _ Hab). replace (- - (1) * cross (c (Z.of_nat a)) (c (Z.of_nat b))) with (cross (c (Z.of_nat a)) (c (Z.of_nat b))) by ring. now apply Qclt_le_weak.
      * destruct HP as [HP|[(B & _)|(_ & HP)]]; [left; exact HP|discriminate B|right]. destruct HP as (_ & J & al & be & J1 & J2 & J3 & J4 & J5 & E).
        destruct (W3 J J1 J2) as (i & j & Hij & Ei & Ej). exists j, i. split; [now apply adj_rev|]. apply (pie_tri v _ _ p be al); auto.
        -- rewrite Ei, Ej. pose proof (e_hgt J). change (zq 1) with 1. replace (1 * _) with (cross (c (J + 1)) (c J)) by (generalize (c (J + 1)) (c J); intros; vring). auto.
        -- qlra.
        -- rewrite Ei, Ej, E. generalize (c (J + 1)) (c J). intros; vring.
        -- apply (off_pairs_in (spots (- (1)) v vn)); auto. intros y [<-|[<-|[<-|[]]]]; [left; auto|apply spots_v|apply spots_v].
Qed.
End Poly.
