(** * Properties of the finger heuristics: C54-C58. *)
From Verif.Spec Require Import PointSet1 Tiling.
From Verif.Model Require Import Heuristics.
From Verif.Proofs Require Import PyP ExtOrd DictP Geom1dP Geom1dM SheetplexP FingerP SheetbuildP HeuristicsP ClusterP HeuStepsP.
From Verif.Props Require Import Geom1dProps SheetplexProps.
From Coq Require Import String Permutation.
Open Scope Qc_scope.

(** ** C54 (exact arithmetic: [idq] is the identity rounding) *)
Theorem random_min_max_partitions : forall R n mn mx total k, rng_ok R -> mn <= mx ->
  mn * zq (Z.of_nat n) <= total <= mx * zq (Z.of_nat n) ->
  exists l k', random_min_max idq R n mn mx total k = Ok (l, k') /\ List.length l = n /\ chain 0 l total /\
    forall s, In s l -> mn <= snd s - fst s <= mx.
Proof. exact random_exact. Qed.
Print Assumptions random_min_max_partitions.
(** with any rounding a returned list is still consecutive from 0 *)
Theorem random_min_max_consecutive : forall fl R n mn mx total k l k', random_min_max fl R n mn mx total k = Ok (l, k') -> exists e, chain 0 l e.
Proof. exact random_any. Qed.
Print Assumptions random_min_max_consecutive.

(** ** C55: every count drawn is feasible *)
Theorem drawn_count_feasible : forall R mn mx odd len k, rng_ok R -> 0 < len -> 0 < mn -> 0 < mx ->
  exists n_min n_max, count_range odd len mn mx = Ok (n_min, n_max) /\
    ((n_max < n_min)%Z \/
     let n := r_randint R k (raise_min n_min n_max) (n_max + 1) in
     (1 <= n)%Z /\ mn * zq n <= len <= mx * zq n).
Proof.
  intros R mn mx odd len k (_ & _ & RI) HL H1 H2. destruct (count_range_ok odd len mn mx HL H1 H2) as (a & b & E & A1 & A2 & A3 & _). exists a, b. split; auto.
  destruct (Z_lt_le_dec b a) as [X|X]; auto. right. cbn zeta. pose proof (RI k (raise_min a b) (b + 1)%Z (raise_min_le a b X)) as RB. set (n := r_randint _ _ _ _) in *. clearbody n.
  pose proof (raise_min_bounds a b n X RB) as (N1 & N2). split; [lia|]. apply zq_le in N1, N2. split; qnra.
Qed.
Print Assumptions drawn_count_feasible.

(** ** C55, C57: the plan of a range never fails, and its fingers tile the range *)
Lemma plan_inv R mn mx on0 on1 start end_ k : rng_ok R -> start < end_ -> 0 < mn -> mn <= mx ->
  exists a b, count_range (xorb on0 on1) (end_ - start) mn mx = Ok (a, b) /\
  (((b < a)%Z /\ plan_fingers idq R mn mx on0 on1 start end_ k = Ok (None, k)) \/
   (exists n l k' f0 f1, (a <= n <= b)%Z /\ (1 <= n)%Z /\ List.length l = Z.to_nat n /\ chain 0 l (end_ - start) /\ (forall s, In s l -> mn <= snd s - fst s <= mx) /\
     plan_fingers idq R mn mx on0 on1 start end_ k = Ok (Some (f0, f1), k') /\ normal f0 /\ normal f1 /\
     (forall x, pts f0 x <-> on_side_pts start l (negb on0) false x) /\ (forall x, pts f1 x <-> on_side_pts start l (negb on0) true x))).
Proof.
  intros RO SE M1 M2. assert (L0 : 0 < end_ - start) by qlra. assert (M3 : 0 < mx) by qlra.
  destruct (count_range_ok (xorb on0 on1) _ mn mx L0 M1 M3) as (a & b & E & A1 & A2 & A3 & _). exists a, b. split; auto. unfold plan_fingers. rewrite E. cbn [bind].
  destruct (Z.ltb_spec b a) as [X|X]; auto. right. pose proof RO as (_ & _ & RI). pose proof (RI k (raise_min a b) (b + 1)%Z (raise_min_le a b X)) as RB.
  set (n := r_randint _ _ _ _) in *. clearbody n. pose proof (raise_min_bounds a b n X RB) as (N1 & N2). assert (N3 : (1 <= n)%Z) by lia.
  assert (Q1 : mn * zq (Z.of_nat (Z.to_nat n)) <= end_ - start <= mx * zq (Z.of_nat (Z.to_nat n))).
  { rewrite Z2Nat.id by lia. apply zq_le in N1, N2. split; qnra. }
  destruct (random_exact R _ mn mx _ (S k) RO M2 Q1) as (l & k' & EL & LN & CH & W). rewrite EL. cbn [bind].
  assert (FW : forward l) by (intros s Hs; pose proof (W s Hs) as (? & ?); qlra).
  destruct (alternate_ok start l (negb on0) (@nil iv) (@nil iv) FW I I) as (f0 & f1 & EA & G0 & G1 & P0 & P1). rewrite EA. cbn [bind].
  assert (NE : forall x, ~ pts [] x) by (intros x (? & [] & _)).
  exists n, l, k', f0, f1. do 6 (split; [auto; lia|]). split; [auto|]. split; [auto|]. split; intros x; [rewrite P0|rewrite P1]; split; auto; intros [B|B]; auto; destruct (NE _ B).
Qed.
Theorem fingers_tile_range : forall R mn mx on0 on1 start end_ k, rng_ok R -> start < end_ -> 0 < mn -> mn <= mx ->
  exists plan k', plan_fingers idq R mn mx on0 on1 start end_ k = Ok (plan, k') /\
    match plan with
    | None => True
    | Some (f0, f1) =>
        (forall x, ~ (pts f0 x /\ pts f1 x)) /\ (forall x, pts f0 x \/ pts f1 x <-> start <= x /\ x < end_)
    end.
Proof.
  intros R mn mx on0 on1 start end_ k RO SE M1 M2. destruct (plan_inv R mn mx on0 on1 start end_ k RO SE M1 M2) as (a & b & _ & [(_ & E)|(n & l & k' & f0 & f1 & _ & _ & _ & CH & W & E & _ & _ & P0 & P1)]).
  - exists None, k. auto.
  - exists (Some (f0, f1)), k'. split; auto. assert (FW : forward l) by (intros s Hs; pose proof (W s Hs) as (? & ?); qlra).
    split; [intros x (X & Y); apply P0 in X; apply P1 in Y; exact (on_side_disj start l _ _ _ x CH FW (conj X Y))|].
    intros x. rewrite P0, P1. split; [intros [X|X]; destruct (on_side_range start l _ _ _ _ x CH FW X); split; qlra|].
    intros (X & Y). apply (on_side_cover start l _ _ _ x CH). split; qlra.
Qed.
Print Assumptions fingers_tile_range.
(** the two sides get exactly these fingers: what single_fingers_random does with a range *)
Theorem fingers_range_chooses : forall A R mn mx s0 s1 sb k start end_ sb' k', rng_ok R -> start < end_ -> 0 < mn -> mn <= mx ->
  fingers_range A idq R mn mx s0 s1 (sb, k) (Fin start, Fin end_) = Ok (sb', k') ->
  exists f0 f1 sb1, is_geom1d f0 /\ is_geom1d f1 /\ choose_interside A sb (is_id s0) f0 false = Ok sb1 /\
    (choose_interside A sb1 (is_id s1) f1 false = Ok sb' \/ (f1 = [] /\ sb' = sb1)) /\
    (forall x, ~ (pts f0 x /\ pts f1 x)) /\ (forall x, pts f0 x \/ pts f1 x <-> start <= x /\ x < end_).
Proof.
  intros A R mn mx s0 s1 sb k start end_ sb' k' RO SE M1 M2 H. cbn [fingers_range] in H. apply bind_ok in H as (g & G & H). apply bind_ok in H as (on0 & _ & H). apply bind_ok in H as (on1 & _ & H).
  apply bind_ok in H as ((pl & k1) & PL & H). destruct (fingers_tile_range R mn mx on0 on1 start end_ k RO SE M1 M2) as (pl' & k2 & E & T). rewrite PL in E. apply Ok_inv in E. apply pair_inv in E as (<- & <-).
  destruct pl as [(f0 & f1)|].
  - apply bind_ok in H as (sb1 & C1 & H). apply bind_ok in H as (sb2 & C2 & H). apply Ok_inv in H. apply pair_inv in H as (<- & <-). exists f0, f1, sb1. destruct T. destruct (plan_geom _ _ _ _ _ _ _ _ _ _ _ _ PL). do 2 (split; [assumption|]). split; auto.
  - apply bind_ok in H as (sb1 & C1 & H). apply Ok_inv in H. apply pair_inv in H as (<- & <-). exists g, [], sb1. split; [exact (is_geom1d_new _ _ G)|]. split; [exact is_geom1d_empty|]. split; auto. split; auto.
    assert (LE : start <= end_) by qlra. destruct (span_ok start end_ LE) as (g' & G' & _ & P). change (Geom1D [[NMpq start; NMpq end_]] = Ok g) in G. rewrite G in G'. apply Ok_inv in G' as <-.
    assert (NE : forall x, ~ pts [] x) by (intros x (? & [] & _)). split; [intros x (_ & X); exact (NE x X)|]. intros x. rewrite <- P. split; [intros [X|X]; auto; destruct (NE _ X)|auto].
Qed.
Print Assumptions fingers_range_chooses.

(** ** C56 *)
(** [on0]/[on1]: the neighbouring material before/after the range is on side 1.  The finger at the
    start of a range is on the other side; the finger at its end is when the count has the parity of
    the smallest admissible one. *)
Definition side_pts (f : geom1d * geom1d) (side : bool) (x : Qc) : Prop := pts (if side then snd f else fst f) x.
Theorem first_finger_alternates : forall R mn mx on0 on1 start end_ k f k', rng_ok R -> start < end_ -> 0 < mn -> mn <= mx ->
  plan_fingers idq R mn mx on0 on1 start end_ k = Ok (Some f, k') ->
  forall x, start <= x -> x < start + mn -> side_pts f (negb on0) x.
Proof.
  intros R mn mx on0 on1 start end_ k f k' RO SE M1 M2 H x X1 X2. destruct (plan_inv R mn mx on0 on1 start end_ k RO SE M1 M2) as (a & b & _ & [(_ & E)|(n & l & k2 & f0 & f1 & _ & N1 & LN & CH & W & E & _ & _ & P0 & P1)]).
  - rewrite E in H. discriminate.
  - rewrite E in H. apply Ok_inv in H. apply pair_inv in H as (H & _). apply some_inv in H as <-. destruct l as [|(u, v) l]; [cbn in LN; lia|]. destruct CH as (-> & _).
    pose proof (W (0, v) (or_introl eq_refl)) as (W1 & _). cbn [fst snd] in W1.
    pose proof (on_side_nth start ((0, v) :: l) 0 0 v (negb on0) x eq_refl ltac:(qlra) ltac:(qlra)) as Q. change (Nat.odd 0) with false in Q. rewrite Bool.xorb_false_r in Q.
    unfold side_pts. cbn [fst snd]. destruct (negb on0); [now apply P1|now apply P0].
Qed.
Print Assumptions first_finger_alternates.
Lemma chain_last l : forall a b j u v, chain a l b -> nth_error l j = Some (u, v) -> S j = List.length l -> v = b.
Proof.
  induction l as [|(p, q) l IH]; intros a b [|j] u v C E L; cbn in *; try discriminate; destruct C as (-> & C).
  - destruct l; [|discriminate]. apply some_inv in E. apply pair_inv in E as (_ & <-). exact C.
  - exact (IH _ _ j u v C E ltac:(lia)).
Qed.
(** missing for the full property: the count is drawn from the whole range n_min..n_max, so its parity
    can be the wrong one *)
Theorem last_finger_alternates_partial : forall R mn mx on0 on1 start end_ k f k', rng_ok R -> start < end_ -> 0 < mn -> mn <= mx ->
  plan_fingers idq R mn mx on0 on1 start end_ k = Ok (Some f, k') ->
  (forall n_min n_max, count_range (xorb on0 on1) (end_ - start) mn mx = Ok (n_min, n_max) -> n_min = n_max) ->
  forall x, end_ - mn <= x -> x < end_ -> side_pts f (negb on1) x.
Proof.
  intros R mn mx on0 on1 start end_ k f k' RO SE M1 M2 H NN x X1 X2. assert (L0 : 0 < end_ - start) by qlra. assert (M3 : 0 < mx) by qlra.
  destruct (count_range_ok (xorb on0 on1) _ mn mx L0 M1 M3) as (a' & b' & E' & _ & _ & _ & O1 & O2).
  destruct (plan_inv R mn mx on0 on1 start end_ k RO SE M1 M2) as (a & b & EC & [(_ & E)|(n & l & k2 & f0 & f1 & NB & N1 & LN & CH & W & E & _ & _ & P0 & P1)]).
  - rewrite E in H. discriminate.
  - rewrite E in H. apply Ok_inv in H. apply pair_inv in H as (H & _). apply some_inv in H as <-. rewrite EC in E'. apply Ok_inv in E'. apply pair_inv in E' as (<- & <-). pose proof (NN _ _ EC) as EN. subst b. assert (n = a) by lia. subst n. clear NN NB.
    destruct (nth_error l (Nat.pred (Z.to_nat a))) as [(u, v)|] eqn:EL; [|apply nth_error_None in EL; lia].
    pose proof (W (u, v) (nth_error_In _ _ EL)) as (W1 & _). cbn [fst snd] in W1. pose proof (chain_last l _ _ _ u v CH EL ltac:(lia)) as ->.
    pose proof (on_side_nth start l _ u _ (negb on0) x EL ltac:(qlra) ltac:(qlra)) as Q.
    replace (xorb (negb on0) (Nat.odd (Nat.pred (Z.to_nat a)))) with (negb on1) in Q.
    + unfold side_pts. cbn [fst snd]. destruct (negb on1); [now apply P1|now apply P0].
    + assert (ZO : Nat.odd (Nat.pred (Z.to_nat a)) = negb (Z.odd a)).
      { rewrite <- (Z2Nat.id a) at 2 by lia. destruct (Z.to_nat a) as [|m] eqn:EM; [lia|]. cbn [Nat.pred]. rewrite Nat2Z.inj_succ, Z.odd_succ, <- Z.negb_odd, Bool.negb_involutive.
        clear. induction m as [|m IH]; [reflexivity|]. rewrite Nat.odd_succ, Nat2Z.inj_succ, Z.odd_succ, <- Nat.negb_odd, <- Z.negb_odd. now rewrite IH. }
      rewrite ZO, O1. destruct on0, on1; reflexivity.
Qed.
Print Assumptions last_finger_alternates_partial.
(** the property is false: a range of 27 between material of side 0 on both sides, with the default
    widths 3..5, may get eight fingers, the last one on side 0 again *)
Theorem last_finger_alternates_refuted : exists R mn mx start end_ f k', rng_ok R /\ start < end_ /\ 0 < mn /\ mn <= mx /\
  plan_fingers idq R mn mx false false start end_ 0 = Ok (Some f, k') /\
  forall x, end_ - mn <= x -> x < end_ -> ~ side_pts f true x.
Proof.
  pose (R := mkRng (fun _ l => l) (fun _ lo _ => lo) (fun _ lo hi => if (lo + 1 <? hi)%Z then (lo + 1)%Z else lo)).
  assert (RO : rng_ok R). { split; [intros k l; apply Permutation_refl|]. split; [intros k lo hi H; split; [apply Qcle_refl|exact H]|]. intros k lo hi H. cbn. destruct (Z.ltb_spec (lo + 1) hi); lia. }
  exists R, (zq 3), (zq 5), 0, (zq 27).
  exists ([(Fin (zq 3), Fin (zq 6)); (Fin (zq 9), Fin (zq 12)); (Fin (zq 15), Fin (zq 18)); (Fin (zq 22), Fin (zq 27))],
          [(Fin (zq 0), Fin (zq 3)); (Fin (zq 6), Fin (zq 9)); (Fin (zq 12), Fin (zq 15)); (Fin (zq 18), Fin (zq 22))]), 10%nat.
  split; auto. split; [reflexivity|]. split; [reflexivity|]. split; [discriminate|]. split; [vm_compute; reflexivity|].
  intros x X1 X2 (i & Hi & (I1 & I2)). unfold elt in I2. cbn [snd fst In] in Hi. clear I1.
  assert (T : zq 24 <= x). { eapply Qcle_trans; [|exact X1]. unfold Qcle. vm_compute. discriminate. }
  decompose [or] Hi; subst; try tauto; cbn [snd] in I2; match type of I2 with x < ?b => assert (b < zq 24) by reflexivity; qlra end.
Qed.
Print Assumptions last_finger_alternates_refuted.

(** ** C58 *)
(** the points of the joint [j] an interaction is about *)
Definition ia_pts (sp : sheetplex) (i : interaction) (j : string) (x : Qc) : Prop :=
  (exists s, sp_interside sp (ia_side i) = Ok s /\ is_inter s = j /\ pts (ia_range i) x) \/
  (exists s, sp_interside sp (ia_other i) = Ok s /\ is_inter s = j /\ pts (ia_other_range i) x).
(** the points of the joint [j] in a cluster *)
Definition cl_pts (c : dict string geom1d) (j : string) (x : Qc) : Prop := exists g, dget String.eqb j c = Some g /\ pts g x.
(** an interaction is between two different joints *)
Definition ia_good (sp : sheetplex) (i : interaction) : Prop := is_geom1d (ia_range i) /\ is_geom1d (ia_other_range i) /\
  forall s o, sp_interside sp (ia_side i) = Ok s -> sp_interside sp (ia_other i) = Ok o -> is_inter s <> is_inter o.
Lemma cl_cpts c j x : cl_pts c j x <-> cpts c j x.
Proof.
  unfold cl_pts, cpts. split.
  - intros (g & -> & P). exact P.
  - destruct (dget String.eqb j c) as [g|]; [eauto|]. intros (? & [] & _).
Qed.
Lemma ia_cpts sp i c j x : ia_good sp i -> cmap_of sp i = Ok c -> ia_pts sp i j x <-> cpts c j x.
Proof.
  intros (_ & _ & D) H. unfold cmap_of in H. apply bind_ok in H as (s & Hs & H). apply bind_ok in H as (o & Ho & H). apply Ok_inv in H as <-. specialize (D s o Hs Ho).
  unfold ia_pts, cpts. rewrite Hs, Ho, !(dget_dset _ string_eqb_ok). cbn [dget]. destruct (String.eqb_spec j (is_inter o)) as [->|N1].
  - cbn [opt]. split; [intros [(s' & E & F & P)|(s' & E & F & P)]; apply Ok_inv in E as <-; [congruence|exact P]|intros P; right; exists o; auto].
  - destruct (String.eqb_spec j (is_inter s)) as [->|N2]; cbn [opt].
    + split; [intros [(s' & E & F & P)|(s' & E & F & P)]; apply Ok_inv in E as <-; [exact P|congruence]|intros P; left; exists s; auto].
    + split; [intros [(s' & E & F & P)|(s' & E & F & P)]; apply Ok_inv in E as <-; congruence|intros (? & [] & _)].
Qed.
Definition meets (P Q : string -> Qc -> Prop) : Prop := exists j x, P j x /\ Q j x.
(** linked through a chain of overlapping interactions of the list *)
Inductive connected (sp : sheetplex) (l : list interaction) : interaction -> interaction -> Prop :=
| cn_one i1 i2 : In i2 l -> meets (ia_pts sp i1) (ia_pts sp i2) -> connected sp l i1 i2
| cn_step i1 i2 i3 : connected sp l i1 i2 -> In i3 l -> meets (ia_pts sp i2) (ia_pts sp i3) -> connected sp l i1 i3.
Theorem clusters_disjoint_complete : forall sp by_inter m, (forall k l i, In (k, l) by_inter -> In i l -> ia_good sp i) ->
  find_interaction_clusters sp by_inter = Ok m ->
  NoDup (map fst m) /\
  (forall k1 k2 c1 c2 j x, In (k1, c1) m -> In (k2, c2) m -> cl_pts c1 j x -> cl_pts c2 j x -> k1 = k2) /\
  (forall k l i, In (k, l) by_inter -> In i l -> exists k' c, In (k', c) m /\ forall j x, ia_pts sp i j x -> cl_pts c j x) /\
  (forall k c j x, In (k, c) m -> cl_pts c j x -> exists k' l i, In (k', l) by_inter /\ In i l /\ ia_pts sp i j x /\ forall j' x', ia_pts sp i j' x' -> cl_pts c j' x') /\
  (* no cluster is larger than necessary *)
  (forall k c i1 i2, In (k, c) m -> In i1 (flat_map snd by_inter) -> In i2 (flat_map snd by_inter) ->
     meets (ia_pts sp i1) (cl_pts c) -> meets (ia_pts sp i2) (cl_pts c) -> connected sp (flat_map snd by_inter) i1 i2).
Proof.
  intros sp by_inter m G H. assert (F : Forall (fun e => Forall ia_ok (snd e)) by_inter).
  { apply Forall_forall. intros (k & l) I. apply Forall_forall. intros i Hi. destruct (G k l i I Hi) as (A & B & _). split; auto. }
  destruct (clusters_ok sp by_inter m F H) as (n & cs & F2 & (MO & _ & AP & (CV1 & CV2) & LK)). cbn [fst] in *. destruct MO as (ND & MO). split; [exact ND|].
  assert (GET : forall k c, In (k, c) m -> mget m k = Some c) by (intros k c I; now apply (dget_nodup _ string_eqb_ok)).
  assert (IN : forall k c, mget m k = Some c -> In (k, c) m) by (intros k c I; now apply (dget_in _ string_eqb_ok)).
  assert (FL : forall i, In i (flat_map snd by_inter) <-> exists k l, In (k, l) by_inter /\ In i l).
  { intros i. rewrite in_flat_map. split; [intros ((k & l) & X & Y); eauto|intros (k & l & X & Y); exists (k, l); auto]. }
  assert (F2a : forall i, In i (flat_map snd by_inter) -> exists c, In c cs /\ cmap_of sp i = Ok c).
  { clear -F2. induction F2 as [|i c l l' E F IH]; intros j []; [subst; eexists; split; [now left|eauto]|]. destruct (IH j H) as (c' & A & B). exists c'. split; [now right|auto]. }
  assert (F2b : forall c, In c cs -> exists i, In i (flat_map snd by_inter) /\ cmap_of sp i = Ok c).
  { clear -F2. induction F2 as [|i c l l' E F IH]; intros j []; [subst; eexists; split; [now left|eauto]|]. destruct (IH j H) as (c' & A & B). exists c'. split; [now right|auto]. }
  split; [|split; [|split]].
  - intros k1 k2 c1 c2 j x I1 I2 P1 P2. destruct (String.eqb_spec k1 k2) as [|N]; auto. exfalso. apply cl_cpts in P1, P2. exact (AP k1 k2 c1 c2 j x (GET _ _ I1) (GET _ _ I2) N (conj P1 P2)).
  - intros k l i I1 I2. destruct (F2a i (proj2 (FL i) (ex_intro _ k (ex_intro _ l (conj I1 I2))))) as (c & Ic & E). destruct (CV1 c (proj1 (in_rev _ _) Ic)) as (k' & c' & K & S). exists k', c'. split; auto.
    intros j x P. apply (ia_cpts sp i c j x (G _ _ _ I1 I2) E) in P. apply cl_cpts. auto.
  - intros k c j x I P. apply cl_cpts in P. destruct (CV2 k c j x (GET _ _ I) P) as (s & Is & P1 & P2). apply in_rev in Is. destruct (F2b s Is) as (i & Ii & E). apply FL in Ii as (k' & l & I1 & I2).
    exists k', l, i. split; auto. split; auto. pose proof (G _ _ _ I1 I2) as Gi. split; [now apply (ia_cpts sp i s j x Gi E)|]. intros j' x' Q. apply (ia_cpts sp i s j' x' Gi E) in Q. apply cl_cpts. auto.
  - assert (GG : forall i, In i (flat_map snd by_inter) -> ia_good sp i) by (intros i Ii; apply FL in Ii as (k' & l & X & Y); eauto).
    intros k c i1 i2 I J1 J2 M1 M2. destruct (F2a i1 J1) as (s1 & S1 & E1). destruct (F2a i2 J2) as (s2 & S2 & E2). apply GET in I.
    assert (OV : forall i s, In i (flat_map snd by_inter) -> cmap_of sp i = Ok s -> meets (ia_pts sp i) (cl_pts c) -> overlap s c).
    { intros i s Ii E (j & x & X & Y). exists j, x. apply (ia_cpts sp i s j x (GG i Ii) E) in X. apply cl_cpts in Y. auto. }
    pose proof (LK k c s1 s2 I (proj1 (in_rev _ _) S1) (proj1 (in_rev _ _) S2) (OV _ _ J1 E1 M1) (OV _ _ J2 E2 M2)) as L.
    assert (SELF : overlap s1 s1). { destruct (OV _ _ J1 E1 M1) as (j & x & X & _). exists j, x. auto. }
    assert (GEN : forall s t, link (rev cs) s t -> s = s1 -> (exists i, In i (flat_map snd by_inter) /\ cmap_of sp i = Ok t) -> forall i, In i (flat_map snd by_inter) -> cmap_of sp i = Ok t -> connected sp (flat_map snd by_inter) i1 i).
    { assert (MM : forall i s i' s', In i (flat_map snd by_inter) -> In i' (flat_map snd by_inter) -> cmap_of sp i = Ok s -> cmap_of sp i' = Ok s' -> overlap s s' -> meets (ia_pts sp i) (ia_pts sp i')).
      { intros i s i' s' Ii Ii' Ei Ei' (j & x & X & Y). exists j, x. split; [now apply (ia_cpts sp i s j x (GG i Ii) Ei)|now apply (ia_cpts sp i' s' j x (GG i' Ii') Ei')]. }
      intros s t LL. induction LL as [s|s t u LL IH It Iu OO]; intros ES EX i Ii Ei.
      - subst s. apply cn_one; auto. exact (MM i1 s1 i s1 J1 Ii E1 Ei SELF).
      - apply in_rev in It. destruct (F2b t It) as (it & Jt & Et). apply (cn_step _ _ i1 it i (IH ES (ex_intro _ it (conj Jt Et)) it Jt Et) Ii). exact (MM it t i u Jt Ii Et Ei OO). }
    exact (GEN s1 s2 L eq_refl (ex_intro _ i2 (conj J2 E2)) i2 J2 E2).
Qed.
Print Assumptions clusters_disjoint_complete.

(** ** Non-vacuity *)
Section Ex.
Let R : rng := mkRng (fun _ l => rev l) (fun _ lo hi => (lo + hi) / zq 2) (fun _ lo _ => lo).
Example rng_ex : rng_ok R.
Proof.
  split; [intros k l; apply Permutation_rev|]. split; [|intros k lo hi H; cbn; lia]. intros k lo hi H. cbn.
  assert (E : (lo + hi) / zq 2 * zq 2 = lo + hi) by (apply qdiv_mul; intros K; discriminate K). set (d := (lo + hi) / zq 2) in *. clearbody d.
  assert (E2 : zq 2 = 1 + 1) by (apply Qc_is_canon; reflexivity). rewrite E2 in E. split; qlra.
Qed.
Example random_ex : match random_min_max idq R 3 (zq 3) (zq 5) (zq 10) 0 with Ok (l, _) => map (fun s => (this (fst s), this (snd s))) l = [(0 # 1, 13 # 4); (13 # 4, 13 # 2); (13 # 2, 10 # 1)]%Q | _ => False end.
Proof. vm_compute. reflexivity. Qed.
Example plan_ex :
  match plan_fingers idq R (zq 3) (zq 5) false true 0 (zq 23) 0 with Ok (Some (f0, f1), _) => (List.length f0 = 3 /\ List.length f1 = 3)%nat | _ => False end /\
  plan_fingers idq R (zq 3) (zq 5) false false 0 (zq 2) 0 = Ok (None, O) /\
  count_range true (zq 23) (zq 3) (zq 5) = Ok (6, 6)%Z.
Proof. vm_compute. auto. Qed.
Let sq : geom2d := [mkSpwh [(0, 0); (0, zq 9); (zq 9, zq 9); (zq 9, 0)] []].
Let sh n := mkSheet n sq sq sq.
Let sp0 := mkPlex [("s0", sh "s0"); ("s1", sh "s1"); ("s2", sh "s2")]%string [].
Let fr : frames := fun _ _ => Ok (Some (((1, 0), ((0, 0), [(0, zq 6)])), ((1, 0), ((0, 0), [(0, zq 6)])))).
Let iv (a b : Z) : geom1d := [(Fin (zq a), Fin (zq b))].
Let ia (a b c d : Z) := mkIa ("s0,s1", "s0")%string (iv a b) ("s0,s2", "s0")%string (iv c d).
Let names (r : result (dict string cluster)) : list (string * nat) := match r with Ok m => map (fun e => (fst e, List.length (snd e))) m | Err _ => [] end.
(** two clusters; a third interaction merges them; a fourth stays alone *)
Example clusters_ex :
  match create_intersections fr sp0 with
  | Ok sp =>
      names (find_interaction_clusters sp [("s0,s1", [ia 0 1 0 1; ia 5 6 5 6])]%string) = [("c0", 2); ("c1", 2)]%string%nat /\
      find_interaction_clusters sp [("s0,s1", [ia 0 1 0 1; ia 5 6 5 6]); ("s0,s2", [ia 0 1 5 6; ia 7 8 7 8])]%string =
        Ok [("c0", [("s0,s1", [(Fin (zq 0), Fin (zq 1)); (Fin (zq 5), Fin (zq 6))]); ("s0,s2", [(Fin (zq 0), Fin (zq 1)); (Fin (zq 5), Fin (zq 6))])]);
            ("c2", [("s0,s1", iv 7 8); ("s0,s2", iv 7 8)])]%string /\
      (forall s o, sp_interside sp (ia_side (ia 0 1 0 1)) = Ok s -> sp_interside sp (ia_other (ia 0 1 0 1)) = Ok o -> is_inter s <> is_inter o)
  | Err _ => False
  end.
Proof.
  vm_compute. split; [reflexivity|]. split; [reflexivity|]. intros s o H1 H2. apply Ok_inv in H1, H2. subst. intros K. discriminate K.
Qed.
End Ex.
