(** * Which vertex of the convex polygon the ribbons use

    [F] is the frangle of the polygon's edges, continued beyond a full turn: edge [i] (from vertex [i] to [i+1], indices
    modulo the length) has frangle [F i] up to multiples of 8. *)
From Verif.Model Require Import Geom2d.
From Verif.Spec Require Import Plane Region.
From Verif.Proofs Require Import PyP PolyP WindingP WindingQ WindingR NearP SimplifyP ReachP JumpP CoverP AreaP.
From Verif.Props Require Import Frangle2dProps.

Lemma frangle_range v f : vector_frangle v = Ok f -> 0 <= f /\ f < zq 8.
Proof. intros H. apply frangle_frk in H as (k & _ & s & _ & S). now apply side_range in S. Qed.
Lemma frangle_nz v f : vector_frangle v = Ok f -> v <> (0, 0).
Proof. intros H ->. discriminate. Qed.

(** [f] is the frangle of [v] up to full turns *)
Definition ang (v : point) (f : Qc) : Prop := exists f0 m, vector_frangle v = Ok f0 /\ f = f0 + zq 8 * zq m.
Lemma ang_self v f : vector_frangle v = Ok f -> ang v f.
Proof. intros H. exists f, 0%Z. split; auto. rewrite zq_0. ring. Qed.
Lemma ang_ex v : v <> (0, 0) -> exists f, ang v f.
Proof. intros H. destruct (frangle_ok v H) as (f & k & E & _). exists f. now apply ang_self. Qed.
Lemma ang_turn v f m : ang v f -> ang v (f + zq 8 * zq m).
Proof. intros (f0 & k & E & ->). exists f0, (k + m)%Z. split; auto. rewrite zq_plus. ring. Qed.
Lemma zq_lt_inv a b : zq a < zq b -> (a < b)%Z.
Proof. intros H. destruct (Z.lt_ge_cases a b); auto. exfalso. assert (zq b <= zq a) by (apply zq_le; lia). qlra. Qed.
Lemma zq_sub a b : zq (a - b) = zq a - zq b.
Proof. unfold Z.sub. rewrite zq_plus, zq_opp. ring. Qed.
Lemma ang_near v f g : ang v f -> ang v g -> - zq 8 < g - f -> g - f < zq 8 -> f = g.
Proof.
  intros (f0 & k & E & ->) (f1 & m & E' & ->) L U. rewrite E in E'. injection E' as <-. replace m with k; auto.
  assert (zq m - zq k < 1) by qlra. assert (- (1) < zq m - zq k) by qlra. rewrite <- zq_sub in *. rewrite <- zq_1 in *. rewrite <- zq_opp in *. apply zq_lt_inv in H, H0. lia.
Qed.
Lemma ang_cw u v f g : ang u f -> ang v g -> f < g -> g < f + zq 4 -> cross u v < 0.
Proof.
  intros (f0 & k & E & ->) (g0 & m & E' & ->) L U. apply (proj1 frangle_clockwise u v f0 g0 E E'). exists (g0 + zq 8 * zq m - (f0 + zq 8 * zq k)).
  split; [qlra|]. split; [unfold FRANGLE_180; qlra|]. exists (k - m)%Z. rewrite zq_sub. ring.
Qed.
Lemma ang_cw_ex u v f : ang u f -> cross u v < 0 -> exists g, ang v g /\ f < g /\ g < f + zq 4.
Proof.
  intros (f0 & k & E & ->) C. assert (N : v <> (0, 0)) by (intros ->; unfold cross in C; cbn [fst snd] in C; qlra).
  destruct (frangle_ok v N) as (g0 & k' & E' & _). destruct (proj1 (proj1 frangle_clockwise u v f0 g0 E E') C) as (d & D0 & D1 & (m & M)).
  unfold FRANGLE_180 in D1. exists (f0 + zq 8 * zq k + d). split; [|split; qlra]. exists g0, (k - m)%Z. split; auto. rewrite M, zq_sub. ring.
Qed.
Lemma ang_par u v f : ang u f -> ang v f -> exists k, 0 < k /\ v = vscale k u.
Proof.
  intros (f0 & k & E & ->) (g0 & m & E' & Eq). destruct (frangle_range _ _ E) as (Ra & Rb). destruct (frangle_range _ _ E') as (Rc & Rd).
  assert (f0 = g0).
  { assert (zq m - zq k < 1) by qlra. assert (- (1) < zq m - zq k) by qlra. rewrite <- zq_sub in *. rewrite <- zq_1 in *. rewrite <- zq_opp in *. apply zq_lt_inv in H, H0.
    replace m with k in Eq by lia. qlra. }
  subst g0. apply (proj1 (proj2 (proj2 frangle_faithful)) v u f0 f0 E' E). reflexivity.
Qed.

(** ** the dictionary of edge directions *)
Lemma edge_starts_ok es : forall i d d', edge_starts i es d = Ok d' ->
  (forall f, In f (map fst d) -> 0 <= f -> f < zq 8 -> In (f + zq 8) (map fst d) /\ In (f - zq 8) (map fst d)) ->
  (forall f, In f (map fst d) -> 0 <= f + zq 8) ->
  (forall f, In f (map fst d) -> In f (map fst d')) /\
  (forall f, In f (map fst d') -> 0 <= f -> f < zq 8 -> In (f + zq 8) (map fst d') /\ In (f - zq 8) (map fst d')) /\
  (forall e, In e d' -> In e d \/ exists j v0 v1 f, (i <= j)%nat /\ nth_error es (j - i) = Some (v0, v1) /\ vector_frangle (psub v1 v0) = Ok f /\ snd e = j /\ (fst e = f \/ fst e = f + zq 8 \/ fst e = f - zq 8)) /\
  (forall v0 v1 f, In (v0, v1) es -> vector_frangle (psub v1 v0) = Ok f -> In f (map fst d')).
Proof.
  induction es as [|[v0 v1] es IH]; intros i d d' H T P; cbn [edge_starts] in H.
  { injection H as <-. repeat split; auto; try apply T; auto. intros ? ? ? []. }
  apply bind_ok in H as (f & E & H). apply bind_ok in H as (u & _ & H). pose proof (frangle_range _ _ E) as (R0 & R1).
  destruct (existsb (fun e => qeqb (fst e) f) d) eqn:X.
  - destruct (IH _ _ _ H T P) as (H1 & H2 & H3 & H4). split; auto. split; auto. split.
    + intros e He. destruct (H3 e He) as [K|(j & a & b & g & J & N & V & K)]; [auto|right]. exists j, a, b, g. split; [lia|]. replace (j - i)%nat with (S (j - S i)) by lia. auto.
    + intros a b g [A|A] V; [|eauto]. injection A as <- <-. rewrite E in V. injection V as <-. apply H1. apply existsb_exists in X as (e & He & Q).
      destruct (qeqb_spec (fst e) f) as [<-|]; [|discriminate]. now apply in_map.
  - destruct (IH _ _ _ H) as (H1 & H2 & H3 & H4).
    + intros g Hg G0 G1. rewrite map_app in *. cbn [map fst] in *. rewrite !in_app_iff in *. cbn [In] in *. unfold MAX_FRANGLE in *.
      destruct Hg as [Hg|[<-|[<-|[<-|[]]]]]; [destruct (T g Hg G0 G1); auto|split; auto|exfalso; qlra|exfalso; qlra].
    + intros g Hg. rewrite map_app in *. cbn [map fst] in *. rewrite in_app_iff in Hg. cbn [In] in Hg. unfold MAX_FRANGLE in *.
      destruct Hg as [Hg|[<-|[<-|[<-|[]]]]]; [auto|qlra|qlra|qlra].
    + split; [intros g Hg; apply H1; rewrite map_app, in_app_iff; auto|]. split; auto. split.
      * intros e He. destruct (H3 e He) as [K|(j & a & b & g & J & N & V & K)].
        -- apply in_app_iff in K as [K|K]; auto. right. exists i, v0, v1, f. split; [lia|]. rewrite Nat.sub_diag. split; [reflexivity|]. split; [auto|].
           unfold MAX_FRANGLE in K. destruct K as [<-|[<-|[<-|[]]]]; auto.
        -- right. exists j, a, b, g. split; [lia|]. replace (j - i)%nat with (S (j - S i)) by lia. auto.
      * intros a b g [A|A] V; [|eauto]. injection A as <- <-. rewrite E in V. injection V as <-. apply H1. rewrite map_app, in_app_iff. cbn. auto.
Qed.
Lemma fold_better (fr : Qc) (d : list (Qc * nat)) (b : option (Qc * nat)) : let r := fold_left (fun b e => if qleb (- (zq 8)) (fst e) && qleb (fst e) fr then better e b else b) d b in
  (forall e, r = Some e -> In e d \/ b = Some e) /\
  (forall e, r = Some e -> (forall e', b = Some e' -> - (zq 8) <= fst e' /\ fst e' <= fr) -> - (zq 8) <= fst e /\ fst e <= fr) /\
  (forall e, r = Some e -> (forall e', b = Some e' -> fst e' <= fst e) /\ (forall e', In e' d -> - (zq 8) <= fst e' -> fst e' <= fr -> fst e' <= fst e)).
Proof.
  revert b. induction d as [|e0 d IH]; intros b; cbn [fold_left]; cbv zeta.
  { split; [auto|]. split; [intros e -> H; apply (H e); auto|]. intros e ->. split; [intros e' E; injection E as ->; qlra|intros ? []]. }
  set (b' := if qleb (- (zq 8)) (fst e0) && qleb (fst e0) fr then better e0 b else b). destruct (IH b') as (H1 & H2 & H3). cbv zeta in *.
  assert (B : b' = b \/ (b' = Some e0 /\ - (zq 8) <= fst e0 /\ fst e0 <= fr)).
  { unfold b'. destruct (qleb_spec (- (zq 8)) (fst e0)); cbn [andb]; auto. destruct (qleb_spec (fst e0) fr); auto. unfold better.
    destruct b as [e1|]; auto. destruct (qltb (fst e1) (fst e0)); auto. }
  assert (GE : forall e', (b = Some e' \/ (e' = e0 /\ - (zq 8) <= fst e0 /\ fst e0 <= fr)) -> exists e1, b' = Some e1 /\ fst e' <= fst e1).
  { intros e' K. unfold b'. destruct (qleb_spec (- (zq 8)) (fst e0)); cbn [andb].
    - destruct (qleb_spec (fst e0) fr).
      + unfold better. destruct b as [e1|].
        * destruct (qltb_spec (fst e1) (fst e0)); destruct K as [K|(-> & _)]; try (injection K as ->); eexists; (split; [reflexivity|qlra]).
        * destruct K as [K|(-> & _)]; [discriminate|]. eexists. split; [reflexivity|qlra].
      + destruct K as [K|(_ & _ & K)]; [|exfalso; qlra]. exists e'. split; auto. qlra.
    - destruct K as [K|(_ & K & _)]; [|exfalso; qlra]. exists e'. split; auto. qlra. }
  split.
  - intros e E. destruct (H1 e E) as [K|K]; [left; right; auto|]. destruct B as [B|(B & _)]; rewrite B in K; [auto|]. injection K as ->. left. left. auto.
  - split.
    + intros e E K. apply (H2 e E). intros e' E'. destruct B as [B|(B & B1 & B2)]; rewrite B in E'; [auto|]. injection E' as <-. auto.
    + intros e E. destruct (H3 e E) as (K1 & K2). split.
      * intros e' E'. destruct (GE e') as (e1 & G1 & G2); auto. specialize (K1 _ G1). qlra.
      * intros e' [<-|He'] L U; [|auto]. destruct (GE e0) as (e1 & G1 & G2); auto. specialize (K1 _ G1). qlra.
Qed.

Lemma edges_nth l i : (i < length l)%nat -> nth_error (edges_iter l) i = Some (nthp l (Z.of_nat i), nthp l (Z.of_nat i + 1)).
Proof.
  intros Hi. assert (NT : forall k, (k < length l)%nat -> nth_error l k = Some (nthp l (Z.of_nat k))).
  { intros k Hk. unfold nthp. rewrite Z.mod_small by lia. rewrite Nat2Z.id. now apply nth_error_nth'. }
  destruct l as [|p0 rest]; [cbn in Hi; lia|]. unfold edges_iter.
  assert (CM : forall (l m : list point) j a b, nth_error l j = Some a -> nth_error m j = Some b -> nth_error (combine l m) j = Some (a, b)).
  { clear. induction l as [|x l IH]; intros m [|j] a b A B; try discriminate; destruct m as [|y m]; try discriminate; cbn in *; [congruence|auto]. }
  apply CM; [apply NT; auto|]. destruct (Nat.eq_dec i (length rest)) as [->|L].
  - rewrite nth_error_app2 by lia. rewrite Nat.sub_diag. cbn [nth_error]. f_equal. rewrite <- (nthp_0 p0 rest). unfold nthp. f_equal. f_equal. cbn [length].
    replace (Z.of_nat (length rest) + 1)%Z with (Z.of_nat (S (length rest))) by lia. rewrite Z_mod_same_full. apply Zmod_0_l.
  - cbn [length] in Hi. rewrite nth_error_app1 by lia. replace (Z.of_nat i + 1)%Z with (Z.of_nat (S i)) by lia. rewrite <- NT by (cbn; lia). reflexivity.
Qed.

Section Poly.
Variables (cpoly : list point) (F : Z -> Qc).
Let n := length cpoly.
Let c (i : Z) := nthp cpoly i.
Hypothesis N0 : (0 < n)%nat.
Hypothesis FT : forall i, F (i + Z.of_nat n) = F i + zq 8.
Hypothesis FI : forall i, F i < F (i + 1) /\ F (i + 1) < F i + zq 4.
Hypothesis FA : forall i, ang (vsub (c (i + 1)) (c i)) (F i).

Lemma F_turn i m : F (i + Z.of_nat n * m) = F i + zq 8 * zq m.
Proof.
  pattern m. apply Z.bi_induction; [intros ? ? ->; reflexivity| |].
  - rewrite zq_0. rewrite Z.mul_0_r, Z.add_0_r. ring.
  - clear m. intros m. unfold Z.succ. rewrite zq_plus, zq_1. replace (i + Z.of_nat n * (m + 1))%Z with (i + Z.of_nat n * m + Z.of_nat n)%Z by lia. rewrite FT.
    split; intros H; [rewrite H; ring|]. assert (X : F (i + Z.of_nat n * m) + zq 8 = F i + zq 8 * zq m + zq 8) by (rewrite H; ring). qlra.
Qed.
Lemma F_mono i j : (i < j)%Z -> F i < F j.
Proof.
  intros H. pattern j. apply (Zlt_lower_bound_ind _ (i + 1)); [|lia]. clear j H. intros j IH H. pose proof (proj1 (FI (j - 1))) as L. replace (j - 1 + 1)%Z with j in L by lia.
  destruct (Z.eq_dec j (i + 1)) as [->|N]; [replace (i + 1 - 1)%Z with i in L by lia; exact L|]. assert (F i < F (j - 1)) by (apply IH; lia). qlra.
Qed.
Lemma F_lt_inv i j : F i < F j -> (i < j)%Z.
Proof. intros H. destruct (Z.lt_ge_cases i j); auto. exfalso. destruct (Z.eq_dec i j) as [->|N]; [qlra|]. assert (F j < F i) by (apply F_mono; lia). qlra. Qed.
Lemma F_le_inv i j : F i <= F j -> (i <= j)%Z.
Proof. intros H. destruct (Z.le_gt_cases i j); auto. exfalso. assert (F j < F i) by (apply F_mono; lia). qlra. Qed.
Lemma c_turn i m : c (i + Z.of_nat n * m) = c i.
Proof. unfold c, nthp. fold n. rewrite (Z.mul_comm (Z.of_nat n)), Z_mod_plus_full. reflexivity. Qed.
(** any lifted frangle of an edge is some [F J] with the same edge *)
Lemma edge_lift i h : ang (vsub (c (i + 1)) (c i)) h -> exists J, F J = h /\ c J = c i /\ c (J + 1) = c (i + 1).
Proof.
  intros (f0 & m & E & ->). destruct (FA i) as (f1 & k & E' & Ef). rewrite E in E'. injection E' as <-.
  exists (i + Z.of_nat n * (m - k))%Z. rewrite F_turn, Ef, zq_sub. split; [ring|]. split; [apply c_turn|].
  replace (i + Z.of_nat n * (m - k) + 1)%Z with (i + 1 + Z.of_nat n * (m - k))%Z by lia. apply c_turn.
Qed.
Lemma edge_nth i : (i < n)%nat -> nth_error (edges_iter cpoly) i = Some (c (Z.of_nat i), c (Z.of_nat i + 1)).
Proof. apply edges_nth. Qed.
Lemma edge_in k : In k (edges_iter cpoly) <-> exists i, k = (c i, c (i + 1)).
Proof.
  split.
  - intros H. apply In_nth_error in H as (i & Hi). assert (i < n)%nat by (unfold n; rewrite <- (edges_iter_length cpoly); apply nth_error_Some; congruence).
    rewrite edge_nth in Hi by auto. exists (Z.of_nat i). congruence.
  - intros (i & ->). assert (P : (0 < Z.of_nat n)%Z) by lia. pose proof (Z.mod_pos_bound i _ P) as B. pose proof (Z_div_mod_eq_full i (Z.of_nat n)) as D.
    apply (nth_error_In _ (Z.to_nat (i mod Z.of_nat n))). rewrite edge_nth by lia. rewrite Z2Nat.id by lia.
    rewrite <- (c_turn (i mod Z.of_nat n) (i / Z.of_nat n)), <- (c_turn (i mod Z.of_nat n + 1) (i / Z.of_nat n)). do 2 f_equal; f_equal; lia.
Qed.

Variable D : list (Qc * nat).
Hypothesis DE : edge_starts 0 (edges_iter cpoly) [] = Ok D.
(** find_vertex_on returns the end of the last edge at or before the direction *)
Lemma find_ok fr i : 0 <= fr -> fr < zq 8 -> find_vertex_on n D fr = Ok i -> exists J, F J <= fr /\ fr < F (J + 1) /\ (Z.of_nat i = (J + 1) mod Z.of_nat n)%Z.
Proof.
  intros R0 R1 H. unfold find_vertex_on in H. destruct (fold_better fr D None) as (B1 & B2 & B3). cbv zeta in *.
  destruct (fold_left _ D None) as [[K j]|]; [|discriminate]. injection H as <-. destruct (B1 _ eq_refl) as [I|I]; [|discriminate].
  destruct (B2 _ eq_refl) as (L & U); [discriminate|]. destruct (B3 _ eq_refl) as (_ & M). cbn [fst] in *.
  destruct (edge_starts_ok _ _ _ _ DE) as (_ & E2 & E3 & E4); [intros ? []|intros ? []|].
  destruct (E3 _ I) as [[]|(j' & v0 & v1 & f & _ & NE & V & Ej & Ek)]. cbn [fst snd] in *. subst j'. rewrite Nat.sub_0_r in NE.
  assert (Hj : (j < n)%nat) by (unfold n; rewrite <- (edges_iter_length cpoly); apply nth_error_Some; congruence). rewrite edge_nth in NE by auto. injection NE as <- <-.
  assert (A : ang (vsub (c (Z.of_nat j + 1)) (c (Z.of_nat j))) K).
  { assert (X : exists m, K = f + zq 8 * zq m) by (destruct Ek as [->|[->| ->]]; [exists 0%Z|exists 1%Z|exists (-1)%Z]; qlra). destruct X as (m & ->). exists f, m. auto. }
  destruct (FA (Z.of_nat j)) as (f1 & k & E' & Ef). destruct A as (f2 & m & E'' & EK). rewrite E' in E''. injection E'' as <-.
  set (J := (Z.of_nat j + Z.of_nat n * (m - k))%Z). assert (FJ : F J = K) by (unfold J; rewrite F_turn, Ef, EK, zq_sub; ring).
  exists J. split; [rewrite FJ; auto|]. split.
  - destruct (qltb_spec fr (F (J + 1))) as [|G]; auto. exfalso. destruct (FI J) as (I1 & _).
    enough (F (J + 1) <= K) by (rewrite FJ in I1; qlra). assert (IN : In (F (J + 1)) (map fst D)).
    { destruct (FA (J + 1)) as (f3 & q & E3' & EF). assert (X : In f3 (map fst D)).
      { apply (E4 (c (J + 1)) (c (J + 1 + 1))); [apply edge_in; eauto|exact E3']. }
      pose proof (frangle_range _ _ E3') as (Q0 & Q1). destruct (E2 _ X Q0 Q1) as (_ & X2).
      assert (q = 0 \/ q = -1)%Z.
      { rewrite FJ in I1. assert (zq q < zq 1) by qlra. assert (zq (-2) < zq q) by (change (zq (-2)) with (- zq 2); qlra). apply zq_lt_inv in H, H0. lia. }
      rewrite EF. destruct H as [->| ->]; [rewrite zq_0|]; [replace (f3 + zq 8 * 0) with f3 by ring; auto|replace (f3 + zq 8 * zq (-1)) with (f3 - zq 8) by qlra; auto]. }
    apply in_map_iff in IN as (e & Ee & He). specialize (M e He). rewrite Ee in M. apply M; [rewrite FJ in I1; qlra|qlra].
  - unfold J. rewrite Nat2Z.inj_mod. rewrite Nat2Z.inj_succ. replace (Z.of_nat j + Z.of_nat n * (m - k) + 1)%Z with (Z.succ (Z.of_nat j) + (m - k) * Z.of_nat n)%Z by lia.
    now rewrite Z_mod_plus_full.
Qed.
End Poly.
