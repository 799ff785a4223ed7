(** * C137: what the random fingers leave open in floating-point arithmetic. *)
From Verif.Spec Require Import PointSet1 Tiling Double.
From Verif.Model Require Import Heuristics.
From Verif.Proofs Require Import PyP ExtOrd DictP Geom1dP Geom1dM SheetplexP FingerP SheetbuildP HeuristicsP ClusterP HeuStepsP RoundP.
From Verif.Props Require Import Geom1dProps SheetplexProps SheetbuildProps HeuristicsProps AssignProps RoundProps.
From Coq Require Import String Permutation.
Open Scope Qc_scope.

(** rounding and draws are off by at most [d] for numbers up to [M]; [N] fingers are the most a range can get *)
Record rounds (fl : Qc -> Qc) (R : rng) (mn mx d M : Qc) (N : Z) : Prop := {
  ro_d : 0 <= d;
  ro_fl : forall x, - M <= x -> x <= M -> x - d <= fl x /\ fl x <= x + d;
  ro_shuffle : forall k l, Permutation l (r_shuffle R k l);
  ro_uniform : forall k lo hi, - M <= lo -> lo <= hi -> hi <= M -> lo - d <= r_uniform R k lo hi /\ r_uniform R k lo hi <= hi + d;
  ro_randint : forall k lo hi, (lo < hi)%Z -> (lo <= r_randint R k lo hi < hi)%Z;
  ro_mn : zq 2 * d < mn;
  ro_mx : mn <= mx;
  ro_M : zq N * (mx + zq 2 * d) + d <= M }.

Section S.
Variable A : arr_impl.
Variable fl : Qc -> Qc.
Variable R : rng.
Variables mn mx d M : Qc.
Variable N : Z.
Hypothesis RO : rounds fl R mn mx d M N.
(** the largest possible gap *)
Definition gap : Qc := (zq 2 * zq N + zq 2) * d.

Lemma mn_pos : 0 < mn.
Proof. destruct RO. assert (0 <= zq 2 * d). { assert (0 <= zq 2) by (apply (zq_le 0); lia). set (z := zq 2) in *. clearbody z. qnra. } qlra. Qed.
Lemma plan_rounded on0 on1 start end_ k f0 f1 k' : start < end_ -> end_ - start <= mn * zq N -> plan_fingers fl R mn mx on0 on1 start end_ k = Ok (Some (f0, f1), k') ->
  normal f0 /\ normal f1 /\ (forall x, ~ (pts f0 x /\ pts f1 x)) /\
  exists e, end_ - gap <= e /\ e <= end_ + gap /\ forall x, pts f0 x \/ pts f1 x <-> start <= x /\ x < e.
Proof.
  intros SE LN H. pose proof mn_pos as MP. pose proof RO as [D0 FL SH UN RI DM MM BM].
  assert (L0 : 0 < end_ - start) by qlra. assert (M3 : 0 < mx) by qlra.
  unfold plan_fingers in H. destruct (count_range_ok (xorb on0 on1) _ mn mx L0 MP M3) as (a & b & E & A1 & A2 & A3 & _). rewrite E in H. cbn [bind] in H.
  destruct (Z.ltb_spec b a) as [X|X]; [apply Ok_inv in H; apply pair_inv in H as (H & _); discriminate H|].
  pose proof (RI k (raise_min a b) (b + 1)%Z (raise_min_le a b X)) as RB. set (n := r_randint _ _ _ _) in *. clearbody n. pose proof (raise_min_bounds a b n X RB) as (N1 & N2).
  assert (BN : (b <= N)%Z). { destruct (Z_le_gt_dec b N) as [|G]; auto. exfalso. assert (G' : (N < b)%Z) by lia. apply zq_lt in G'. set (u := zq b) in *. set (v := zq N) in *. clearbody u v. assert (mn * v < mn * u) by (clear - G' MP; qnra). qlra. }
  apply bind_ok in H as ((l & k1) & HR & H). apply bind_ok in H as ((g0 & g1) & HA & H). apply Ok_inv in H. apply pair_inv in H as (H & _). apply some_inv in H. apply pair_inv in H as (E0 & E0'). subst f0 f1.
  assert (ZN : zq (Z.of_nat (Z.to_nat n)) <= zq N) by (apply zq_le; lia).
  assert (D2 : 0 <= zq 2 * d). { assert (0 <= zq 2) by (apply (zq_le 0); lia). set (z := zq 2) in *. clearbody z. clear - D0 H. qnra. }
  destruct (random_min_max_rounded fl R d M (Z.to_nat n) mn mx (end_ - start) (S k) l k1) as (LL & e & CH & E1 & E2 & W); auto; [qlra| |].
  { set (w := mx + zq 2 * d) in *. assert (WP : 0 <= w) by (unfold w; qlra). clearbody w. set (u := zq (Z.of_nat _)) in *. clearbody u. set (v := zq N) in *. clearbody v. assert (u * w <= v * w) by (clear - ZN WP; qnra). qlra. }
  assert (G : (zq 2 * zq (Z.of_nat (Z.to_nat n)) + zq 2) * d <= gap).
  { unfold gap. assert (P2 : 0 <= zq 2) by (apply (zq_le 0); lia). set (u := zq (Z.of_nat _)) in *. set (v := zq N) in *. set (z := zq 2) in *. clearbody u v z.
    assert (z * u + z <= z * v + z) by (clear - ZN P2; qnra). set (p := z * u + z) in *. set (q := z * v + z) in *. clearbody p q. clear - H D0. qnra. }
  assert (FW : forward l) by (intros s Hs; destruct (W s Hs); qlra).
  destruct (alternate_ok start l (negb on0) (@nil iv) (@nil iv) FW I I) as (h0 & h1 & EA & G0 & G1 & P0 & P1). rewrite HA in EA. apply Ok_inv in EA. apply pair_inv in EA as (<- & <-).
  assert (NE : forall x, ~ pts [] x) by (intros x (? & [] & _)).
  assert (P0' : forall x, pts g0 x <-> on_side_pts start l (negb on0) false x) by (intros x; rewrite P0; specialize (NE x); tauto).
  assert (P1' : forall x, pts g1 x <-> on_side_pts start l (negb on0) true x) by (intros x; rewrite P1; specialize (NE x); tauto).
  split; auto. split; auto. split; [intros x (Y & Z); apply P0' in Y; apply P1' in Z; exact (on_side_disj start l _ _ _ x CH FW (conj Y Z))|].
  exists (start + e). split; [qlra|]. split; [qlra|]. intros x. rewrite P0', P1'. split; [intros [Y|Y]; destruct (on_side_range start l _ _ _ _ x CH FW Y); split; qlra|].
  intros (Y & Z). apply (on_side_cover start l _ _ _ x CH). split; qlra.
Qed.

(** more than [gap] before the end of a range of the list *)
Definition well_before (l : list iv) (x : Qc) : Prop := exists a b, In (Fin a, Fin b) l /\ a <= x /\ x < b - gap.
Definition short (l : list iv) : Prop := forall a b, In (Fin a, Fin b) l -> b - a <= mn * zq N.
Lemma range_rounded sp s0 s1 sb k i sb' k' : plex_made sp -> legal sp sb -> joint sp s0 s1 -> elt (fst i) (snd i) -> short [i] ->
  fingers_range A fl R mn mx s0 s1 (sb, k) i = Ok (sb', k') ->
  legal sp sb' /\ forall j x, undecided sb' j x -> undecided sb j x /\ ~ ((j = is_id s0 \/ j = is_id s1) /\ well_before [i] x).
Proof.
  intros MD L J LT SHT H. destruct i as [[|start|] [|end_|]]; try discriminate. cbn [fst snd elt] in LT.
  assert (J' : joint sp s1 s0). { destruct J as (Hs & Ho). destruct (made_opp sp s0 MD Hs) as (o & O1 & O2 & O3 & _). rewrite Ho in O1. apply Ok_inv in O1 as <-. split; auto. }
  cbn [fingers_range] in H. apply bind_ok in H as (g & G & H). apply bind_ok in H as (on0 & _ & H). apply bind_ok in H as (on1 & _ & H). apply bind_ok in H as ((pl & k1) & PL & H).
  destruct pl as [(f0 & f1)|].
  - apply bind_ok in H as (sb1 & C1 & H). apply bind_ok in H as (sb2 & C2 & H). apply Ok_inv in H. apply pair_inv in H as (<- & <-).
    destruct (plan_geom _ _ _ _ _ _ _ _ _ _ _ _ PL) as (G0 & G1). destruct (plan_rounded _ _ _ _ _ _ _ _ LT (SHT _ _ (or_introl eq_refl)) PL) as (_ & _ & _ & e & E1 & E2 & CV).
    destruct (choose_undecided A sp sb s0 s1 f0 false sb1 MD L G0 J C1) as (L1 & U1). destruct (choose_undecided A sp sb1 s1 s0 f1 false sb2 MD L1 G1 J' C2) as (L2 & U2). split; auto.
    intros j x X. apply U2 in X as (X & N2). apply U1 in X as (X & N1). split; auto. intros (JJ & a & b & [EI|[]] & Ha & Hb). injection EI as EA EB; subst a b.
    assert (Y : pts f0 x \/ pts f1 x) by (apply CV; split; [auto|qlra]). destruct Y; [apply N1; auto|apply N2; split; tauto].
  - apply bind_ok in H as (sb1 & C1 & H). apply Ok_inv in H. apply pair_inv in H as (<- & <-).
    destruct (choose_undecided A sp sb s0 s1 g false sb1 MD L (is_geom1d_new _ _ G) J C1) as (L1 & U1). split; auto. intros j x X. apply U1 in X as (X & N1). split; auto.
    intros (JJ & a & b & [EI|[]] & Ha & Hb). injection EI as EA EB; subst a b. apply N1. split; auto.
    assert (LE : start <= end_) by (apply Qclt_le_weak; exact LT). destruct (span_ok start end_ LE) as (g' & G' & _ & P). change (Geom1D [[NMpq start; NMpq end_]] = Ok g) in G. rewrite G in G'. apply Ok_inv in G' as <-. apply P.
    assert (0 <= gap). { unfold gap. pose proof (ro_d _ _ _ _ _ _ _ RO) as D0. assert (NP : (0 <= N)%Z). { destruct (Z_lt_le_dec N 0) as [Q|Q]; auto. exfalso. pose proof (SHT _ _ (or_introl eq_refl)) as S0. apply zq_lt in Q. change (zq 0) with 0 in Q. pose proof mn_pos as MP. set (v := zq N) in *. clearbody v. assert (mn * v < 0) by (clear - Q MP; qnra). qlra. }
      apply zq_le in NP. assert (P2 : 0 <= zq 2) by (apply (zq_le 0); lia). change (zq 0) with 0 in NP. set (v := zq N) in *. set (z := zq 2) in *. clearbody v z. assert (0 <= z * v + z) by (clear - NP P2; qnra). set (q := z * v + z) in *. clearbody q. clear - H D0. qnra. }
    split; qlra.
Qed.
Lemma ranges_rounded sp s0 s1 l : forall st st', plex_made sp -> legal sp (fst st) -> joint sp s0 s1 -> (forall i, In i l -> elt (fst i) (snd i)) -> short l ->
  foldM (fingers_range A fl R mn mx s0 s1) l st = Ok st' ->
  legal sp (fst st') /\ forall j x, undecided (fst st') j x -> undecided (fst st) j x /\ ~ ((j = is_id s0 \/ j = is_id s1) /\ well_before l x).
Proof.
  induction l as [|i l IH]; intros st st' MD L J LT SHT H; cbn [foldM] in H.
  - apply Ok_inv in H as <-. split; auto. intros j x X. split; auto. intros (_ & a & b & [] & _).
  - apply bind_ok in H as ((sb1 & k1) & H1 & H). destruct st as [sb k]. cbn [fst] in *.
    destruct (range_rounded sp s0 s1 sb k i sb1 k1 MD L J (LT i (or_introl eq_refl)) (fun a b I => SHT a b (match I with or_introl e => or_introl e | or_intror f => False_ind _ f end)) H1) as (L1 & U1).
    destruct (IH (sb1, k1) st' MD L1 J (fun i' I => LT i' (or_intror I)) (fun a b I => SHT a b (or_intror I)) H) as (L2 & U2). split; auto. intros j x X. apply U2 in X as (X & Y). apply U1 in X as (X & Z). split; auto.
    intros (JJ & a & b & I & W). destruct I as [->|I]; [apply Z; split; auto; exists a, b; split; [now left|auto]|apply Y; split; auto; exists a, b; auto].
Qed.

(** all that is left open on the first side lies in the last [gap] of a range [a0] of points that were open;
    the second side has in addition a set [df] of length less than 1e-8 *)
Definition nearly_decided (old new : sbuild) (s0 s1 : interside) : Prop :=
  exists a0 df, normal a0 /\ (forall x, pts a0 x -> undecided old (is_id s0) x) /\ normal df /\ small df /\
    (forall x, undecided new (is_id s0) x -> exists a b, In (Fin a, Fin b) a0 /\ a <= x /\ b - gap <= x /\ x < b) /\
    (forall x, undecided new (is_id s1) x -> (exists a b, In (Fin a, Fin b) a0 /\ a <= x /\ b - gap <= x /\ x < b) \/ pts df x).
(** no open stretch of a side is longer than [N] fingers *)
Definition short_open (sb : sbuild) : Prop := forall j x y, (forall z, x <= z -> z < y -> undecided sb j z) -> y - x <= mn * zq N.

Lemma fold_fin s0 s1 l : forall st st', foldM (fingers_range A fl R mn mx s0 s1) l st = Ok st' -> forall i, In i l -> exists a b, i = (Fin a, Fin b).
Proof.
  induction l as [|i l IH]; intros st st' H j I; [destruct I|]. cbn [foldM] in H. apply bind_ok in H as (s & H1 & H). destruct I as [<-|I]; [|eauto].
  destruct st as [sb k], i as [[|a|] [|b|]]; cbn [fingers_range] in H1; try discriminate H1. eauto.
Qed.
Lemma inter_rounded sp k it st st' : plex_made sp -> legal sp (fst st) -> short_open (fst st) -> In (k, it) (sp_inters sp) -> fingers_inter A fl R mn mx st it = Ok st' ->
  legal sp (fst st') /\ (forall j x, undecided (fst st') j x -> undecided (fst st) j x) /\ forall s0 s1, it_sides it = [s0; s1] -> nearly_decided (fst st) (fst st') s0 s1.
Proof.
  intros MD L SO I H. destruct (made_two sp k it MD I) as (s0 & s1 & ES & _ & _ & O1 & _). unfold fingers_inter in H. rewrite ES in H.
  apply bind_ok in H as (k0 & K0 & H). apply bind_ok in H as (k1 & K1 & H). apply bind_ok in H as (c0 & C0 & H). apply bind_ok in H as (c1 & C1 & H).
  apply bind_ok in H as (a0 & A0 & H). apply bind_ok in H as (a1 & A1 & H). apply bind_ok in H as (df & D & H). apply bind_ok in H as (u & ML & H). apply passert_ok in ML.
  assert (J : joint sp s0 s1) by (split; [exists k, it; rewrite ES; split; auto; now left|auto]).
  assert (Nk0 : normal k0) by (apply is_geom1d_normal; exact (legal_iok sp _ _ _ L K0)). assert (Nk1 : normal k1) by (apply is_geom1d_normal; exact (legal_iok sp _ _ _ L K1)).
  assert (Nc0 : normal c0) by (apply is_geom1d_normal; exact (legal_ich sp _ _ _ L C0)). assert (Nc1 : normal c1) by (apply is_geom1d_normal; exact (legal_ich sp _ _ _ L C1)).
  apply dgetr_ok in K0, K1, C0, C1. assert (E1 : ok_of (fst st) (is_id s0) = k0) by now apply opt_get. assert (E2 : ok_of (fst st) (is_id s1) = k1) by now apply opt_get.
  assert (E3 : chosen_of (fst st) (is_id s0) = c0) by now apply opt_get. assert (E4 : chosen_of (fst st) (is_id s1) = c1) by now apply opt_get.
  assert (P0 : forall x, undecided (fst st) (is_id s0) x <-> pts a0 x) by (intros x; unfold undecided; rewrite E1, E3; symmetry; now apply sub_pts).
  assert (P1 : forall x, undecided (fst st) (is_id s1) x <-> pts a1 x) by (intros x; unfold undecided; rewrite E2, E4; symmetry; now apply sub_pts).
  assert (Na0 : normal a0) by (rewrite g_sub_ok in A0 by auto; apply Ok_inv in A0 as <-; now apply sub_normal). assert (Na1 : normal a1) by (rewrite g_sub_ok in A1 by auto; apply Ok_inv in A1 as <-; now apply sub_normal).
  pose proof (g_xor_ok a0 a1 Na0 Na1) as DX. rewrite D in DX. apply Ok_inv in DX. assert (Nd : normal df) by (rewrite DX; now apply xor_normal).
  assert (ST : short a0). { intros a b Hi. apply (SO (is_id s0)). intros z Z1 Z2. apply P0. exists (Fin a, Fin b). split; auto. split; cbn [fst snd ele elt]; auto. }
  destruct (ranges_rounded sp s0 s1 a0 st st' MD L J (normal_lt a0 Na0) ST H) as (L' & U). split; auto. split; [intros j x X; now apply U in X|].
  intros t0 t1 ET. rewrite ES in ET. injection ET as <- <-.
  assert (NEAR : forall x, pts a0 x -> ~ well_before a0 x -> exists a b, In (Fin a, Fin b) a0 /\ a <= x /\ b - gap <= x /\ x < b).
  { intros x (i & Hi & Hx) NC. destruct (fold_fin _ _ _ _ _ H i Hi) as (a & b & ->). unfold in_iv in Hx. cbn [fst snd ele elt] in Hx. destruct Hx as (X1 & X2). exists a, b. split; auto. split; auto. split; auto.
    destruct (Qclt_le_dec x (b - gap)) as [Q|Q]; auto. exfalso. apply NC. exists a, b. auto. }
  exists a0, df. split; auto. split; [intros x; apply P0|]. split; auto. split; [|split].
  - unfold measure_lt in ML. pose proof (measure_mes df Nd) as MS. rewrite MS in ML. pose proof (mes_nneg df) as NN. unfold nneg, ele in NN. destruct (mes df) as [|m|] eqn:Em; try discriminate; [destruct NN|].
    exists m. split; auto. revert ML. change (eltb (Fin m) (Fin e8)) with (qltb m e8). destruct (qltb_spec m e8); auto; discriminate.
  - intros x X. apply U in X as (X & NC). apply NEAR; [now apply P0|]. intros C. apply NC. auto.
  - intros x X. apply U in X as (X & NC). apply P1 in X.
    assert (Q : pts a0 x \/ ~ pts a0 x) by (rewrite pts_epts; apply epts_dec). destruct Q as [Q|Q]; [left; apply NEAR; auto|right].
    rewrite DX. rewrite pts_epts. apply xor_epts; [exact Na0|exact Na1|exact Logic.I|]. rewrite <- !pts_epts. tauto.
Qed.
End S.

Theorem random_fingers_leave_little : forall A fl R mn mx d M N sp st st', rounds fl R mn mx d M N -> plex_made sp -> legal sp (fst st) -> short_open mn N (fst st) ->
  single_fingers_random A fl R mn mx st = Ok st' ->
  forall k it s0 s1, In (k, it) (sp_inters sp) -> it_sides it = [s0; s1] -> nearly_decided d N (fst st) (fst st') s0 s1.
Proof.
  intros A fl R mn mx d M N sp st st' RO MD L SO H. unfold single_fingers_random in H. apply bind_ok in H as ((sb & ci) & H1 & H). apply hcheck_ok in H1. cbn [fst] in H1. subst sb.
  apply bind_ok in H as ((sb & k) & H2 & H). apply Ok_inv in H as <-. cbn [fst]. rewrite (iv_plex sp _ L) in H2.
  assert (MONO : forall s0 s1 o a o' b, nearly_decided d N o a s0 s1 -> (forall j x, undecided o j x -> undecided o' j x) -> (forall j x, undecided b j x -> undecided a j x) -> nearly_decided d N o' b s0 s1).
  { intros s0 s1 o a o' b (a0 & df & X1 & X2 & X3 & X4 & X5 & X6) U V. exists a0, df. split; [auto|]. split; [auto|]. split; [auto|]. split; [auto|]. split; auto. }
  assert (GEN : forall l (s s' : sbuild * nat), (forall it, In it l -> exists k, In (k, it) (sp_inters sp)) -> legal sp (fst s) -> short_open mn N (fst s) -> foldM (fingers_inter A fl R mn mx) l s = Ok s' ->
    (forall j x, undecided (fst s') j x -> undecided (fst s) j x) /\ forall it s0 s1, In it l -> it_sides it = [s0; s1] -> nearly_decided d N (fst s) (fst s') s0 s1).
  { clear H2. induction l as [|it l IH]; intros s s' IN Ls SOs H; cbn [foldM] in H; [apply Ok_inv in H as <-; split; [auto|intros ? ? ? []]|].
    apply bind_ok in H as (s1 & H1 & H). destruct (IN it (or_introl eq_refl)) as (kk & Ik). destruct (inter_rounded A fl R mn mx d M N RO sp kk it s s1 MD Ls SOs Ik H1) as (L1 & U1 & D1).
    assert (SO1 : short_open mn N (fst s1)) by (intros j x y Z; apply (SOs j); auto).
    destruct (IH s1 s' (fun i I => IN i (or_intror I)) L1 SO1 H) as (U2 & D2). split; [auto|]. intros i a b [<-|I] E; [exact (MONO a b _ _ _ _ (D1 a b E) (fun _ _ h => h) U2)|exact (MONO a b _ _ _ _ (D2 i a b I E) U1 (fun _ _ h => h))]. }
  destruct (GEN (values (sp_inters sp)) (fst st, O) (sb, k)) as (_ & D); auto.
  - intros it I. unfold values in I. apply in_map_iff in I as ((kk & it') & <- & I). exists kk. exact I.
  - intros kk it s0 s1 I E. apply (D it s0 s1); auto. unfold values. apply in_map_iff. exists (kk, it). auto.
Qed.
Print Assumptions random_fingers_leave_little.

(** ** The gaps are short *)
Lemma after_first g : forall u v x, normal ((u, v) :: g) -> pts g x -> elt v (Fin x).
Proof.
  induction g as [|(c, e) g IH]; intros u v x (_ & Ng & Hv) (i & I & Hi); [destruct I|]. destruct Hi as (H1 & H2). destruct I as [<-|I]; cbn [fst] in H1.
  - exact (elt_le_trans _ _ _ Hv H1).
  - assert (X : elt e (Fin x)) by (apply (IH c e); [exact Ng|exists i; split; [auto|split; auto]]). destruct Ng as (Hce & _). exact (elt_trans _ _ _ Hv (elt_trans _ _ _ Hce X)).
Qed.
Lemma end_out g : forall u b, normal g -> In (u, Fin b) g -> ~ pts g b.
Proof.
  induction g as [|(c, e) g IH]; intros u b Ng I (i & J & H1 & H2); [destruct I|]. destruct I as [E|I], J as [<-|J].
  - injection E as -> ->. exact (elt_irrefl _ H2).
  - injection E as -> ->. assert (X : elt (Fin b) (Fin b)) by (apply (after_first g u _ b Ng); exists i; split; [auto|split; auto]). exact (elt_irrefl _ X).
  - cbn [snd] in H2. destruct Ng as (Hce & Ng & Hv). assert (HN : normal ((c, e) :: g)) by (split; [auto|split; auto]). clear H1.
    (* the interval of [b] starts after [e] *)
    assert (Q : exists x, pts g x /\ x < b). { clear - Ng I Hv Hce H2. destruct g as [|(p, q) g]; [destruct I|]. 
      assert (U : elt u (Fin b)). { clear - Ng I. revert I Ng. generalize ((p, q) :: g). intros l. induction l as [|(m, n) l IH]; intros I N; [destruct I|]. destruct N as (N1 & N2 & _). destruct I as [E|I]; [injection E as -> ->; auto|auto]. }
      destruct u as [|u|]; [| |destruct U].
      - exists (b - 1). split; [exists (NInf, Fin b); split; [auto|split; [exact Logic.I|change (b - 1 < b); qlra]]|qlra].
      - exists u. split; [exists (Fin u, Fin b); split; [auto|split; [apply ele_refl|exact U]]|exact U]. }
    destruct Q as (x & Px & Lx). pose proof (after_first g c e x HN Px) as X. pose proof (elt_trans _ _ _ H2 X) as Y. change (b < x) in Y. qlra.
  - destruct Ng as (_ & Ng & _). apply (IH u b Ng I). exists i. split; [auto|split; auto].
Qed.
Theorem no_long_gap : forall d N old new s0 s1, nearly_decided d N old new s0 s1 ->
  forall x y, x < y -> (forall z, x <= z -> z < y -> undecided new (is_id s0) z) -> y - x <= gap d N.
Proof.
  intros d N old new s0 s1 (a0 & df & Na & _ & _ & _ & U & _) x y XY SX. destruct (Qclt_le_dec (gap d N) (y - x)) as [L|L]; auto. exfalso.
  assert (X0 : x <= x) by qlra. destruct (U x (SX x X0 XY)) as (a & b & I & X1 & X2 & X3).
  assert (B1 : x <= b) by qlra. assert (B2 : b < y) by qlra. destruct (U b (SX b B1 B2)) as (a' & b' & I' & Y1 & Y2 & Y3).
  apply (end_out a0 (Fin a) b Na I). exists (Fin a', Fin b'). split; auto. split; cbn [fst snd ele elt]; auto.
Qed.
Print Assumptions no_long_gap.

(** ** float64 *)
Theorem double_rounds : forall R mn mx M N, (0 <= N)%Z -> M <= pow2 50 -> qq 1 2 < mn -> mn <= mx -> zq N * (mx + 1) + 1 <= M ->
  (forall k l, Permutation l (r_shuffle R k l)) ->
  (forall k lo hi, - M <= lo -> lo <= hi -> hi <= M -> lo - pow2 (-52) * M <= r_uniform R k lo hi /\ r_uniform R k lo hi <= hi + pow2 (-52) * M) ->
  (forall k lo hi, (lo < hi)%Z -> (lo <= r_randint R k lo hi < hi)%Z) ->
  rounds dbl R mn mx (pow2 (-52) * M) M N.
Proof.
  intros R mn mx M N N0 MB M0 MM BM SH UN RI. apply zq_le in N0. change (zq 0) with 0 in N0.
  assert (H2 : 0 < qq 1 2) by (vm_compute; reflexivity).
  assert (MP : 0 <= M). { set (z := zq N) in *. clearbody z. set (w := mx + 1) in *. assert (0 <= w) by (unfold w; qlra). clearbody w. assert (0 <= z * w) by (clear - N0 H; qnra). qlra. }
  pose proof (pow2_pos (-53)) as P53. pose proof (pow2_pos (-52)) as P52.
  assert (E : pow2 (-52) = zq 2 * pow2 (-53)) by (apply Qc_is_canon; reflexivity). assert (E4 : pow2 (-52) * pow2 50 = qq 1 4) by (apply Qc_is_canon; reflexivity).
  assert (Z2 : zq 2 = 1 + 1) by (apply Qc_is_canon; reflexivity). assert (Q4 : (1 + 1) * qq 1 4 = qq 1 2) by (apply Qc_is_canon; reflexivity).
  assert (D1 : pow2 (-52) * M <= qq 1 4). { rewrite <- E4. set (a := pow2 50) in *. set (b := pow2 (-52)) in *. clearbody a b. clear - MB P52. qnra. }
  assert (Q1 : qq 1 4 <= 1) by (vm_compute; congruence). assert (Q2 : qq 1 2 <= 1) by (vm_compute; congruence).
  constructor; auto.
  - set (b := pow2 (-52)) in *. clearbody b. clear - MP P52. qnra.
  - intros x X1 X2. destruct (dbl_error x) as (A1 & A2). assert (AB : qabs x <= M) by (unfold qabs; destruct (qleb_spec 0 x); qlra).
    assert (pow2 (-53) * qabs x <= pow2 (-52) * M). { rewrite E, Z2. set (b := pow2 (-53)) in *. set (y := qabs x) in *. clearbody b y. clear - AB P53 MP. qnra. } split; qlra.
  - rewrite Z2. set (t := pow2 (-52) * M) in *. clearbody t. set (u := qq 1 4) in *. set (v := qq 1 2) in *. clearbody u v. qlra.
  - rewrite Z2. set (t := pow2 (-52) * M) in *. clearbody t. set (z := zq N) in *. clearbody z. set (v := qq 1 4) in *. set (h := qq 1 2) in *. clearbody v h.
    set (u := (1 + 1) * t) in *. assert (T : u <= 1) by (unfold u; qlra). assert (z * (mx + u) <= z * (mx + 1)) by (clear - N0 T; clearbody u; qnra). qlra.
Qed.

(** ** Non-vacuity: a range of length 10.1 in float64; the second side stops 2^-49 or so off the end *)
Module RoundAssignEx.
Definition A0 : arr_impl := mkArr unit unit (fun _ => Ok tt) (fun _ => Ok []) (fun _ _ => Ok []).
Definition sq : geom2d := [mkSpwh [(0, 0); (0, zq 9); (zq 9, zq 9); (zq 9, 0)] []].
Definition sh n := mkSheet n sq sq sq.
Definition sp0 := mkPlex [("s0", sh "s0"); ("s1", sh "s1")]%string [].
Definition fr : frames := fun _ _ => Ok (Some (((1, 0), ((0, 0), [(0, zq 6)])), ((1, 0), ((0, 0), [(0, zq 6)])))).
Definition id0 : id2 := ("s0,s1", "s0")%string.
Definition id1 : id2 := ("s0,s1", "s1")%string.
Definition whole : geom1d := [(Fin 0, Fin (qq 101 10))].
Definition start (sp : sheetplex) : sbuild := mkSB sp [("s0", sq); ("s1", sq)]%string [("s0", sq); ("s1", sq)]%string [(id0, []); (id1, [])] [(id0, whole); (id1, whole)].
Example left_ex :
  match create_intersections fr sp0 with
  | Ok sp =>
      match single_fingers_random A0 dbl RoundEx.R (zq 3) (zq 5) (start sp, 1%Z) with
      | Ok (sb, _) => (List.length (chosen_of sb id0) + List.length (chosen_of sb id1) = 3)%nat
      | Err _ => False
      end
  | Err _ => False
  end.
Proof. vm_compute. reflexivity. Qed.
Example open_ex : forall sp, short_open (zq 3) 4 (start sp).
Proof.
  intros sp j x y Z. destruct (Qclt_le_dec (zq 3 * zq 4) (y - x)) as [L|L]; auto. exfalso.
  assert (B : forall z, undecided (start sp) j z -> 0 <= z /\ z < qq 101 10).
  { intros z (P & _). unfold ok_of, start in P. cbn in P. destruct (id2_eqb j id0); [|destruct (id2_eqb j id1)]; destruct P as (i & P & Q); cbn in P; try tauto; destruct P as [<-|[]]; exact Q. }
  assert (V : 0 < zq 3 * zq 4) by (vm_compute; reflexivity). assert (W : qq 101 10 < zq 3 * zq 4) by (vm_compute; reflexivity). set (u := zq 3 * zq 4) in *. set (l := qq 101 10) in *. clearbody u l.
  assert (X1 : x <= x) by qlra. assert (X2 : x < y) by qlra. destruct (B x (Z x X1 X2)) as (Y1 & Y2).
  assert (X3 : x <= l) by qlra. assert (X4 : l < y) by qlra. destruct (B l (Z l X3 X4)) as (_ & Y3). qlra.
Qed.
End RoundAssignEx.
