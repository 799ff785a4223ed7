(** * What a ribbon polygon covers *)
From Verif.Model Require Import Geom2d.
From Verif.Spec Require Import Plane Region.
From Verif.Proofs Require Import PyP PolyP WindingP WindingQ WindingR NearP SimplifyP ReachP JumpP CoverP AreaP AngleP.
From Verif.Props Require Import Frangle2dProps.

(** ** simplify_degeneracies keeps winding numbers *)
Definition wstep (l l' : list point) : Prop := exists l1 v l2, l = l1 ++ v :: l2 /\ l' = l1 ++ l2 /\ tri_at l (Z.of_nat (length l1)) = 0.
Inductive wsteps : list point -> list point -> Prop :=
| ws_refl l : wsteps l l
| ws_step l m k : wstep l m -> wsteps m k -> wsteps l k.
Lemma wsteps_trans a b c : wsteps a b -> wsteps b c -> wsteps a c.
Proof. induction 1; eauto using wsteps. Qed.
Lemma simp_inner_steps fuel : forall i l nz ch l' nz' ch', simp_inner fuel i l nz ch = Ok (l', nz', ch') -> wsteps l l'.
Proof.
  induction fuel as [|f IH]; intros i l nz ch l' nz' ch' H; cbn [simp_inner] in H.
  - destruct (i <? length l)%nat; [discriminate|]. injection H as <- _ _. apply ws_refl.
  - destruct (Nat.ltb_spec i (length l)) as [L|L]; [|injection H as <- _ _; apply ws_refl].
    rewrite tri_prev in H. fold (tri_at l (Z.of_nat i)) in H. destruct (negb _ && _) eqn:E; [|eauto].
    apply andb_prop in E as (_ & E). destruct (qeqb_spec (tri_at l (Z.of_nat i)) 0) as [E0|]; [|discriminate].
    eapply ws_step; [|eapply IH; exact H]. destruct (split_at l i L) as (v & El & Ln). exists (firstn i l), v, (skipn (S i) l). rewrite Ln. auto.
Qed.
Lemma simp_outer_steps fuel : forall l r, (length l < fuel)%nat -> simp_outer fuel l = Ok r -> wsteps l r.
Proof.
  induction fuel as [|f IH]; intros l r F H; [lia|]. cbn [simp_outer] in H.
  destruct (simp_inner_ok (length l) 0 l false false) as (l' & nz & ch & E & _ & _ & C & D & _ & K); [lia|lia|lia|].
  pose proof (simp_inner_steps _ _ _ _ _ _ _ _ E) as W. rewrite E in H. cbn [bind] in H.
  destruct (negb nz && negb (length l' =? 0)%nat) eqn:B.
  - apply andb_prop in B as (B1 & B2). destruct nz; [discriminate|]. destruct l' as [|v w]; [discriminate|]. cbn [tl] in H.
    apply (wsteps_trans _ _ _ W). apply (ws_step _ w); [|apply IH; [cbn in C; lia|exact H]]. exists [], v, w. split; [reflexivity|]. split; [reflexivity|]. apply D; auto. cbn. lia.
  - destruct ch; [|injection H as <-; exact W]. apply (wsteps_trans _ _ _ W). apply IH; [|exact H]. destruct K as [K|K]; [auto|discriminate|lia].
Qed.
Lemma simplify_steps l r : simplify_degeneracies l = Ok r -> wsteps l r.
Proof. apply simp_outer_steps. lia. Qed.

Lemma col_split x v b p : orient x v b = 0 -> on_seg (x, b) p -> on_seg (x, v) p \/ on_seg (v, b) p.
Proof.
  intros O (t & T0 & T1 & ->). destruct (pt_dec x b) as [<-|N].
  { left. exists 0. split; [qlra|]. split; [qlra|]. unfold at_t. cbn [fst snd]. vring. }
  assert (G : vsub b x <> (0, 0)). { intros E. apply N. destruct x, b. unfold vsub in E. cbn [fst snd] in E. apply pair_inv in E as (E1 & E2). f_equal; qlra. }
  assert (C : cross (vsub b x) (vsub v x) = 0). { transitivity (- orient x v b); [unfold orient; vring|rewrite O; ring]. }
  destruct (par_of _ _ G C) as (s & Es). assert (Ev : v = vadd x (vscale s (vsub b x))) by (rewrite <- Es; vring).
  destruct (qltb_spec 0 s) as [S0|S0]; [destruct (qleb_spec t s) as [TS|TS]|].
  - left. assert (Ns : s <> 0) by (intros ->; qlra). pose proof (qdiv_mul t s Ns) as Dv. set (k := t / s) in *. clearbody k. exists k.
    split; [destruct (qleb_spec 0 k); auto; exfalso; assert (0 < - k * s) by (apply mpp; qlra); qlra|].
    split; [destruct (qleb_spec k 1); auto; exfalso; assert (0 < (k - 1) * s) by (apply mpp; qlra); qlra|].
    unfold at_t. cbn [fst snd]. rewrite Es, <- Dv. vring.
  - right. assert (Ns : 1 - s <> 0) by (intros X; qlra). pose proof (qdiv_mul (t - s) (1 - s) Ns) as Dv. set (k := (t - s) / (1 - s)) in *. clearbody k. exists k.
    split; [destruct (qleb_spec 0 k); auto; exfalso; assert (0 < - k * (1 - s)) by (apply mpp; qlra); qlra|].
    split; [destruct (qleb_spec k 1); auto; exfalso; assert (0 < (k - 1) * (1 - s)) by (apply mpp; qlra); qlra|].
    unfold at_t. cbn [fst snd]. rewrite Ev. replace t with (k * (1 - s) + s) by (rewrite Dv; ring). vring.
  - right. assert (Ns : 1 - s <> 0) by (intros X; qlra). pose proof (qdiv_mul (t - s) (1 - s) Ns) as Dv. set (k := (t - s) / (1 - s)) in *. clearbody k. exists k.
    split; [destruct (qleb_spec 0 k); auto; exfalso; assert (0 < - k * (1 - s)) by (apply mpp; qlra); qlra|].
    split; [destruct (qleb_spec k 1); auto; exfalso; assert (0 < (k - 1) * (1 - s)) by (apply mpp; qlra); qlra|].
    unfold at_t. cbn [fst snd]. rewrite Ev. replace t with (k * (1 - s) + s) by (rewrite Dv; ring). vring.
Qed.
Lemma orient_sum a b c p : orient a b p + orient b c p + orient c a p = orient a b c.
Proof. unfold orient. vring. Qed.
Lemma tri_ind_le a b c p : orient a b c <= 0 -> tri_ind a b c p <> 1%Z.
Proof. intros O H. apply tri_ind_1 in H as (H1 & H2 & H3). pose proof (orient_sum a b c p). qlra. Qed.
Lemma tri_ind_ge a b c p : 0 <= orient a b c -> tri_ind a b c p <> (-1)%Z.
Proof. intros O H. apply tri_ind_m1 in H. revert H. apply tri_ind_le. replace (orient a c b) with (- orient a b c) by (unfold orient; vring). qlra. Qed.
Lemma zsum_perm_edges p l m : Permutation.Permutation (edges_iter l) (edges_iter m) -> wsum p l = wsum p m.
Proof. intros H. unfold wsum. now apply zsum_perm. Qed.
Lemma wstep_wsum p l l' : wstep l l' -> ~ on_boundary l p -> ~ on_boundary l' p /\ wsum p l' = wsum p l.
Proof.
  intros (l1 & v & l2 & -> & -> & T) NB. unfold tri_at in T.
  replace (Z.of_nat (length l1) - 1)%Z with (Z.of_nat (length l1) + -1)%Z in T by lia.
  replace (nthp (l1 ++ v :: l2) (Z.of_nat (length l1))) with (nthp (l1 ++ v :: l2) (Z.of_nat (length l1) + 0)) in T by (f_equal; lia).
  rewrite !nthp_rot in T. cbn [app] in T. rewrite nthp_0, nthp_m1, nthp_1 in T.
  pose proof (edges_iter_rot l1 (v :: l2)) as P1. pose proof (edges_iter_rot l1 l2) as P2. cbn [app] in P1. set (w := l2 ++ l1) in *.
  rewrite (zsum_perm_edges p _ _ P1), (zsum_perm_edges p _ _ P2).
  assert (NB1 : forall s, In s (edges_iter (v :: w)) -> ~ on_seg s p).
  { intros s Hs O. apply NB. apply on_boundary_iff. exists s. split; auto. eapply Permutation.Permutation_in; [symmetry; exact P1|exact Hs]. }
  assert (E2 : on_boundary (l1 ++ l2) p -> exists s, In s (edges_iter w) /\ on_seg s p).
  { intros B. apply on_boundary_iff in B as (s & Hs & O). exists s. split; auto. eapply Permutation.Permutation_in; eauto. }
  clear NB P1 P2. clearbody w. destruct w as [|b w].
  { split; [intros B; destruct (E2 B) as (s & [] & _)|]. unfold wsum. cbn. pose proof (delta_rev p v v). lia. }
  rewrite tri_area_orient in T. replace (last (b :: w) v) with (last w b) in T by (rewrite <- (last_cons w b); apply last_dep). cbn [hd] in T.
  rewrite (edges_iter_snoc v) in NB1. rewrite (edges_iter_snoc b) in E2. unfold wsum. rewrite (edges_iter_snoc v), (edges_iter_snoc b), !zsum_app.
  cbn [edges_from zsum]. cbn [edges_from] in NB1.
  assert (L1 : last (v :: b :: w) v = last w b) by (change (last (v :: b :: w) v) with (last (b :: w) v); rewrite <- (last_cons w b); apply last_dep).
  assert (L2 : last (b :: w) b = last w b) by apply last_cons.
  rewrite L1 in *. rewrite L2 in *. set (x := last w b) in *.
  assert (O : orient x v b = 0) by qlra.
  assert (N1 : ~ on_seg (x, v) p) by (apply NB1, in_app_iff; right; left; auto). assert (N2 : ~ on_seg (v, b) p) by (apply NB1; left; auto).
  assert (N3 : ~ on_seg (x, b) p) by (intros X; destruct (col_split x v b p O X); auto).
  split.
  - intros B. destruct (E2 B) as (s & Hs & X). apply in_app_iff in Hs as [Hs|[<-|[]]]; [|auto]. apply (NB1 s); auto. right. apply in_app_iff. auto.
  - pose proof (triangle_formula p x v b N1 N2 ltac:(rewrite on_seg_sym; auto)) as TF.
    assert (tri_ind x v b p = 0)%Z. { destruct (tri_ind_range x v b p) as [E|[E|E]]; auto; exfalso; revert E; [apply tri_ind_le; qlra|apply tri_ind_ge; qlra]. }
    unfold tsum in TF. rewrite (delta_rev p x b) in TF. lia.
Qed.
Lemma wsteps_wsum p l l' : wsteps l l' -> ~ on_boundary l p -> ~ on_boundary l' p /\ wsum p l' = wsum p l.
Proof.
  induction 1 as [l|l m k S _ IH]; [auto|]. intros N. destruct (wstep_wsum p _ _ S N) as (N1 & E1). destruct (IH N1) as (N2 & E2). split; auto. congruence.
Qed.
Lemma wsum_short p l : (length l <= 2)%nat -> wsum p l = 0%Z.
Proof.
  destruct l as [|a [|b [|c l]]]; cbn; intros H; [reflexivity| | |lia]; unfold wsum; cbn.
  - pose proof (delta_rev p a a). lia.
  - pose proof (delta_rev p a b). lia.
Qed.
Lemma wsum_in_ring r p : ~ on_boundary r p -> wsum p r <> 0%Z -> in_ring r p.
Proof.
  intros NB W. destruct (generic_apex_exists r p) as (o & G). { intros I. apply NB. now apply vertex_on_boundary. }
  exists (fan_winding o r p). split; [exists o; auto|]. pose proof (wsum_fan o r p NB G). lia.
Qed.

(** ** polygons whose triangles about a vertex all turn the same way *)
Lemma zsum_side {X} (f : X -> Z) l k : (k = 1 \/ k = -1)%Z -> (forall x, In x l -> f x = 0 \/ f x = k)%Z -> (exists x, In x l /\ f x = k) -> zsum f l <> 0%Z.
Proof.
  intros K H (x & Hx & E). assert (S : (0 <= k * zsum f l)%Z /\ (In x l -> 0 < k * zsum f l)%Z).
  { clear Hx. induction l as [|y l IH]; cbn [zsum]; [split; [lia|intros []]|]. destruct IH as (I1 & I2); [intros; apply H; cbn; auto|].
    assert (Y : (0 <= k * f y)%Z) by (destruct (H y ltac:(cbn; auto)) as [-> | ->]; lia).
    split; [lia|]. intros [->|Hx]; [rewrite E in *; lia|specialize (I2 Hx); lia]. }
  destruct S as (_ & S). specialize (S Hx). lia.
Qed.
Lemma fan_wsum v P p k : (k = 1 \/ k = -1)%Z -> (forall s, In s (edges_iter P) -> 0 <= zq k * orient v (fst s) (snd s)) ->
  (forall x, In x P -> ~ on_seg (v, x) p) -> ~ on_boundary P p -> (exists s, In s (edges_iter P) /\ tri_ind v (fst s) (snd s) p = k) -> wsum p P <> 0%Z.
Proof.
  intros K O G NB T. rewrite (wsum_fan v P p NB G). unfold fan_winding. change (cyclic_pairs P) with (edges_iter P).
  assert (zsum (fun s => tri_ind v (fst s) (snd s) p) (edges_iter P) <> 0%Z); [|lia]. apply (zsum_side _ _ k K); auto.
  intros s Hs. specialize (O s Hs). destruct (tri_ind_range v (fst s) (snd s) p) as [E|[E|E]]; auto; destruct K as [-> | ->]; auto; exfalso; revert E.
  - apply tri_ind_le. change (zq (-1)) with (- (1)) in O. qlra.
  - apply tri_ind_ge. change (zq 1) with 1 in O. qlra.
Qed.
(** consecutive elements *)
Definition adj {X} (l : list X) (s : X * X) : Prop := exists l1 l2, l = l1 ++ fst s :: snd s :: l2.
Lemma adj_from a l s : In s (edges_from a l) <-> adj (a :: l) s.
Proof.
  revert a. induction l as [|b l IH]; intros a; cbn [edges_from].
  - split; [intros []|]. intros (l1 & l2 & E). destruct l1 as [|x [|]]; discriminate.
  - split.
    + intros [<-|H]; [exists [], l; reflexivity|]. apply IH in H as (l1 & l2 & E). exists (a :: l1), l2. cbn. now rewrite <- E.
    + intros (l1 & l2 & E). destruct l1 as [|x l1]; cbn in E; [left; destruct s; cbn in *; congruence|right]. apply IH. exists l1, l2. congruence.
Qed.
Lemma adj_rev {X} (l : list X) a b : adj (rev l) (a, b) <-> adj l (b, a).
Proof.
  assert (H : forall (l : list X) a b, adj l (a, b) -> adj (rev l) (b, a)).
  { clear. intros l a b (l1 & l2 & ->). cbn [fst snd]. exists (rev l2), (rev l1). rewrite rev_app_distr. cbn [rev fst snd]. rewrite <- !app_assoc. reflexivity. }
  split; intros K; [apply H in K; rewrite rev_involutive in K; auto|auto].
Qed.
Lemma adj_map {X Y} (f : X -> Y) l s : adj (map f l) s -> exists a b, adj l (a, b) /\ s = (f a, f b).
Proof.
  intros (l1 & l2 & E). apply map_eq_app in E as (m1 & m2 & -> & <- & E). destruct m2 as [|a [|b m2]]; try discriminate. cbn in E.
  exists a, b. split; [exists m1, m2; reflexivity|]. destruct s. cbn in E. congruence.
Qed.
Lemma adj_map_in {X Y} (f : X -> Y) l a b : adj l (a, b) -> adj (map f l) (f a, f b).
Proof. intros (l1 & l2 & ->). exists (map f l1), (map f l2). rewrite map_app. reflexivity. Qed.
Lemma adj_seq a m i j : adj (seq a m) (i, j) <-> (a <= i /\ j = S i /\ j < a + m)%nat.
Proof.
  revert a. induction m as [|m IH]; intros a; cbn [seq].
  - split; [intros (l1 & l2 & E); destruct l1; discriminate|lia].
  - split.
    + intros (l1 & l2 & E). cbn [fst snd] in E. destruct l1 as [|x l1]; cbn in E.
      * injection E as -> E. destruct m; [discriminate|]. cbn in E. injection E as E _. lia.
      * injection E as _ E. assert (adj (seq (S a) m) (i, j)) by (exists l1, l2; auto). apply IH in H. lia.
    + intros (L & -> & U). destruct (Nat.eq_dec a i) as [->|N].
      * destruct m as [|m]; [lia|]. exists [], (seq (S (S i)) m). reflexivity.
      * destruct (proj2 (IH (S a))) as (l1 & l2 & E); [repeat split; lia|]. exists (a :: l1), l2. cbn. now rewrite E.
Qed.
Lemma insert_pokes_id sign v l : (forall a b, adj l (a, b) -> 0 <= sign * tri_area a b v) -> insert_pokes sign v l = l.
Proof.
  induction l as [|a l IH]; intros H; [reflexivity|]. destruct l as [|b l]; [reflexivity|]. cbn [insert_pokes].
  assert (0 <= sign * tri_area a b v) by (apply H; exists [], l; reflexivity). destruct (qltb_spec (sign * tri_area a b v) 0); [exfalso; qlra|].
  f_equal. apply IH. intros x y (l1 & l2 & E). apply H. exists (a :: l1), l2. now rewrite E.
Qed.
