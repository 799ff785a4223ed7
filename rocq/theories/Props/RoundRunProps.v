(** * C138: what a run leaves open in floating-point arithmetic *)
From Verif.Spec Require Import Plane Region PointSet1 Fingers Crisp Space Steps Double.
From Verif.Model Require Import Arrangement2d Geom2d Geom1d Sheetplex Sheetbuild Heuristics Canned Frames.
From Verif.Proofs Require Import PyP PolyP PlanarP ExtOrd DictP Geom1dP SheetplexP FingerP SheetbuildP CreateP HeuristicsP HeuStepsP StepsP SpaceP FullP.
From Verif.Props Require Import Geom1dProps SheetplexProps SheetbuildProps JointProps CannedProps CrispProps RunSharpProps AssignProps RoundAssignProps StepsProps FingerAreaProps SpaceProps AssemblyProps CompleteProps GapProps.
From Coq Require Import String Permutation.
Open Scope Qc_scope.

(** no stretch allowed to a side is longer than [N] of the smallest fingers *)
Definition short_ok (mn : Qc) (N : Z) (b : sbuild) : Prop := forall j x y, (forall z, x <= z -> z < y -> pts (ok_of b j) z) -> y - x <= mn * zq N.
(** in the state [b] a stretch that is open on a side of the joint ends at [e] *)
Definition open_before (b : sbuild) (s o : interside) (e : Qc) : Prop :=
  exists u, (u = s \/ u = o) /\ exists a, a < e /\ forall z, a <= z -> z < e -> undecided b (is_id u) z.
Definition near_ends (w : Qc) (E : list Qc) (x : Qc) : Prop := exists e, In e E /\ e - w <= x /\ x < e.
(** the finite right ends of the intervals of [w] *)
Definition rights (w : geom1d) : list Qc := flat_map (fun i => match snd i with Fin q => [q] | _ => [] end) w.
Lemma rights_in w x : In x (rights w) <-> exists a, In (a, Fin x) w.
Proof.
  unfold rights. rewrite in_flat_map. split; [|intros (a & I); exists (a, Fin x); split; [exact I|now left]].
  intros ((a & b) & I & X). cbn [snd] in X. destruct b; try (now destruct X). destruct X as [->|[]]. eauto.
Qed.

Theorem joints_filled_rounded : forall A fsqrt fl R mn mx d0 M0 N ord sord rof sp rad ci sb h, rounds fl R mn mx d0 M0 N -> plex_made sp -> (forall c, Permutation c (ord c)) ->
  canned_1 A fsqrt fl R mn mx ord sord None rof sp rad ci = Ok (mkCanned true sb h) -> (forall b, nth_error h 0 = Some b -> short_ok mn N b) ->
  exists b b1, nth_error h 10 = Some b /\ nth_error h 11 = Some b1 /\ forall s o, joint sp s o -> exists d E, normal d /\ small d /\ (forall e, In e E -> open_before b1 s o e) /\
    forall x, ~ pts d x -> ~ near_ends (gap d0 N) E x ->
    (pts (ok_of sb (is_id s)) x -> pts (chosen_of sb (is_id s)) x) /\
    (pts (ok_of b (is_id s)) x -> pts (chosen_of sb (is_id s)) x \/ pts (chosen_of sb (is_id o)) x \/ scrap b (is_id s) (is_id o) x).
Proof.
  intros A fsqrt fl R mn mx d0 M0 N ord sord rof sp rad ci sb h RO M O H SHK. destruct (canned_history _ _ _ _ _ _ _ _ _ _ _ _ _ _ H) as (sb0 & ci0 & sts & C & -> & S0 & (SL & F) & SE).
  pose proof (proj1 (create_inv1 _ _ _ _ _ M C)) as L0. set (steps := canned_steps A fsqrt fl R mn mx ord sord) in *.
  assert (LG : forall n st, (n <= 12)%nat -> nth_error sts n = Some st -> legal sp (fst st)).
  { induction n as [|n IH]; intros st LE E; [rewrite S0 in E; apply some_inv in E as <-; exact L0|]. destruct (nth_error steps n) as [op|] eqn:EO; [|apply nth_error_None in EO; unfold steps in EO; cbn [canned_steps List.length] in EO; lia].
    destruct (F n op EO) as (a & b & Ea & Eb & OP). pose proof (some_inv _ _ (eq_trans (eq_sym E) Eb)) as <-. apply (steps_legal A fsqrt fl R mn mx ord sord sp a op st M O (IH a ltac:(lia) Ea)); [|exact OP]. exact (nth_error_In _ _ EO). }
  destruct (F 9%nat _ eq_refl) as (s9 & s10 & E9 & E10 & H9). destruct (F 10%nat _ eq_refl) as (s10' & s11 & E10' & E11 & H10). pose proof (some_inv _ _ (eq_trans (eq_sym E10) E10')) as <-. clear E10'.
  destruct (F 11%nat _ eq_refl) as (s11' & s12 & E11' & E12 & H11). pose proof (some_inv _ _ (eq_trans (eq_sym E11) E11')) as <-. clear E11'.
  assert (EB : fst s12 = sb). { change (nth_error (map fst sts) 12 = Some sb) in SE. pose proof (eq_trans (eq_sym (nth_error_map fst 12 sts)) SE) as X. unfold hstate in *. rewrite E12 in X. cbn [option_map] in X. now apply some_inv in X. }
  exists (fst s9), (fst s10). split; [change (nth_error (map fst sts) 9 = Some (fst s9)); rewrite nth_error_map; unfold hstate in *; now rewrite E9|].
  split; [change (nth_error (map fst sts) 10 = Some (fst s10)); rewrite nth_error_map; unfold hstate in *; now rewrite E10|].
  assert (L9 : legal sp (fst s9)) by (apply (LG 9%nat); [lia|exact E9]). assert (L10 : legal sp (fst s10)) by (apply (LG 10%nat); [lia|exact E10]).
  destruct (clean_frame A fsqrt _ _ H11) as (sok & EF). rewrite EB in EF.
  assert (KC : forall id, chosen_of sb id = chosen_of (fst s11) id) by (intros id; rewrite EF; reflexivity). assert (KO : forall id, ok_of sb id = ok_of (fst s11) id) by (intros id; rewrite EF; reflexivity).
  pose proof (steps_move A sp M _ _ L10 (random_steps A (Kc:=geoms_of A) fl sp M R mn mx _ _ L10 H10)) as MV.
  assert (MVS : forall n st st', (n <= 10)%nat -> nth_error sts n = Some st -> nth_error sts (S n) = Some st' -> moves (fst st) (fst st')).
  { intros n st st' LE E E'. destruct (nth_error steps n) as [op|] eqn:EO; [|apply nth_error_None in EO; unfold steps in EO; cbn [canned_steps List.length] in EO; lia].
    destruct (F n op EO) as (a & b & Ea & Eb & OP). pose proof (some_inv _ _ (eq_trans (eq_sym E) Ea)) as <-. pose proof (some_inv _ _ (eq_trans (eq_sym E') Eb)) as <-.
    assert (L : legal sp (fst st)) by (apply (LG n); [lia|exact E]). apply (steps_move A (Kc:=geoms_of A) sp M _ _ L). apply (steps_ssteps A fsqrt fl R mn mx ord sord _ sp st op st' (geoms_closed A fsqrt) M O L); [|exact OP].
    apply (nth_error_In _ n). unfold steps in EO. clear -LE EO. do 11 (destruct n as [|n]; [exact EO|]). lia. }
  assert (SHR : forall n st, (n <= 10)%nat -> nth_error sts n = Some st -> forall j x, pts (ok_of (fst st) j) x -> pts (ok_of sb0 j) x).
  { induction n as [|n IH]; intros st LE E j x X; [rewrite S0 in E; apply some_inv in E as <-; exact X|]. destruct (nth_error sts n) as [p|] eqn:EP.
    - apply (IH p ltac:(lia) eq_refl). apply (MVS n p st ltac:(lia) EP E j x). exact X.
    - apply nth_error_None in EP. assert (nth_error sts (S n) = None) as Q by (apply nth_error_None; lia). rewrite Q in E. discriminate E. }
  assert (SO : short_open mn N (fst s10)). { intros j x y Z. apply (SHK sb0 eq_refl j). intros z Z1 Z2. apply (SHR 10%nat s10 ltac:(lia) E10). exact (proj1 (Z z Z1 Z2)). }
  intros s o J. assert (DEC : exists d E, normal d /\ small d /\ (forall e, In e E -> open_before (fst s10) s o e) /\
    (forall x, ~ pts d x -> ~ near_ends (gap d0 N) E x -> pts (ok_of (fst s11) (is_id s)) x -> pts (chosen_of (fst s11) (is_id s)) x) /\
    (forall x, ~ pts d x -> ~ near_ends (gap d0 N) E x -> pts (ok_of (fst s11) (is_id o)) x -> pts (chosen_of (fst s11) (is_id o)) x)).
  { pose proof J as ((k & it & I & Is) & Ho). destruct (made_two sp k it M I) as (t0 & t1 & ES & _ & _ & O1 & O2). destruct (random_fingers_leave_little A fl R mn mx d0 M0 N sp s10 s11 RO M L10 SO H10 k it t0 t1 I ES) as (a0 & d & Na & Pa & Nd & Sd & D0 & D1).
    assert (U : forall id x, ~ undecided (fst s11) id x -> pts (ok_of (fst s11) id) x -> pts (chosen_of (fst s11) id) x) by (intros id x U X; assert (Q : pts (chosen_of (fst s11) id) x \/ ~ pts (chosen_of (fst s11) id) x) by (rewrite pts_epts; apply epts_dec); destruct Q as [Q|Q]; [exact Q|destruct U; split; [exact X|exact Q]]).
    assert (NE : forall x, ~ near_ends (gap d0 N) (rights a0) x -> ~ exists a b, In (Fin a, Fin b) a0 /\ a <= x /\ b - gap d0 N <= x /\ x < b).
    { intros x Q (a & b & I1 & _ & I2). apply Q. exists b. split; [apply rights_in; eauto|auto]. }
    assert (OB : forall u, u = t0 \/ u = t1 -> forall e, In e (rights a0) -> exists a, a < e /\ forall z, a <= z -> z < e -> undecided (fst s10) (is_id t0) z).
    { intros u _ e Ie. apply rights_in in Ie as (v & Iv). pose proof (normal_lt a0 Na _ Iv) as LT. cbn [fst snd] in LT. destruct v as [|a|]; [|exists a|destruct LT].
      - exists (e - 1). split; [qlra|]. intros z Z1 Z2. apply Pa. exists (NInf, Fin e). split; [auto|split; [exact Logic.I|exact Z2]].
      - split; [exact LT|]. intros z Z1 Z2. apply Pa. exists (Fin a, Fin e). split; [auto|split; [exact Z1|exact Z2]]. }
    exists d, (rights a0). split; [auto|]. split; [auto|]. rewrite ES in Is. destruct Is as [<-|[<-|[]]].
    - rewrite O1 in Ho. apply Ok_inv in Ho as <-. split; [intros e Ie; exists t0; split; [auto|exact (OB t0 (or_introl eq_refl) e Ie)]|]. split; intros x X Q; apply U; [intros Y; apply (NE x Q); exact (D0 x Y)|intros Y; apply D1 in Y as [Y|Y]; [exact (NE x Q Y)|auto]].
    - rewrite O2 in Ho. apply Ok_inv in Ho as <-. split; [intros e Ie; exists t0; split; [auto|exact (OB t0 (or_introl eq_refl) e Ie)]|]. split; intros x X Q; apply U; [intros Y; apply D1 in Y as [Y|Y]; [exact (NE x Q Y)|auto]|intros Y; apply (NE x Q); exact (D0 x Y)]. }
  destruct DEC as (d & E & Nd & Sd & OE & Ds & Do). exists d, E. split; [auto|]. split; [auto|]. split; [auto|]. intros x X NE. rewrite !KC, KO. split; [exact (Ds x X NE)|]. intros K.
  destruct (ok_side_chosen A sp s9 s10 M L9 H9 s o J x) as (C1 & K1). 
  assert (CV : covered (fst s10) (is_id s) (is_id o) x \/ scrap (fst s9) (is_id s) (is_id o) x).
  { unfold covered, scrap. destruct (one_sided_dec (fst s9) (is_id s) (is_id o) x) as [OS|OS]; [|left; right; right; left; apply K1; tauto].
    destruct (SheetbuildP.pts_dec (ok_of (fst s10) (is_id s)) x) as [Y|Y]; [tauto|]. right. split; [auto|]. intros Z. apply Y. apply K1. tauto. }
  destruct CV as [CV|CV]; [|auto]. apply (random_covered A sp M fl R mn mx s10 s11 s o x L10 H10 J) in CV. destruct CV as [CV|[CV|[CV|CV]]]; auto.
Qed.
Print Assumptions joints_filled_rounded.

Theorem crossing_settled_rounded : forall orc fsqrt fl R mn mx d0 M0 N ord sord norm plates rof sp rad ci sb h, root_ok fsqrt -> rounds fl R mn mx d0 M0 N ->
  space_plex norm plates sp -> plex_clean sp -> (forall c, Permutation c (ord c)) ->
  canned_1 (segment_arrangement orc) fsqrt fl R mn mx ord sord None rof sp rad ci = Ok (mkCanned true sb h) -> (forall b, nth_error h 0 = Some b -> short_ok mn N b) ->
  exists b b1 b', nth_error h 10 = Some b /\ nth_error h 11 = Some b1 /\ nth_error h 12 = Some b' /\ forall s o, joint sp s o -> exists d l E, normal d /\ small d /\ (forall e, In e E -> open_before b1 s o e) /\ forall x, let t := along s (footprint (plates (is_sheet s)) x) in
    inside_slab (plates (is_sheet s)) x -> inside_slab (plates (is_sheet o)) x -> ~ pts d t -> ~ near_ends (gap d0 N) E t -> ~ In t l -> pts (ok_of b (is_id s)) t ->
    scrap b (is_id s) (is_id o) t \/
    (inside1 (chosen_of sb (is_id s)) t /\ taken_or_barred plates sb b' s x) \/ (inside1 (chosen_of sb (is_id o)) t /\ taken_or_barred plates sb b' o x).
Proof.
  intros orc fsqrt fl R mn mx d0 M0 N ord sord norm plates rof sp rad ci sb h RO RG SP PC O H SHK. pose proof (space_made _ _ _ SP) as M.
  destruct (joints_filled_rounded _ _ _ _ _ _ _ _ _ _ _ _ _ _ _ _ _ RG M O H SHK) as (b & b1 & E10 & E11 & JF).
  destruct (chosen_crossing_filled _ _ _ _ _ _ _ _ _ _ _ _ _ _ _ _ RO SP PC O H) as (b' & E12 & CF).
  exists b, b1, b'. split; [exact E10|]. split; [exact E11|]. split; [exact E12|]. intros s o J. destruct (JF s o J) as (d & E & Nd & Sd & OE & D).
  exists d, (ends (chosen_of sb (is_id s)) ++ ends (chosen_of sb (is_id o))), E. split; [exact Nd|]. split; [exact Sd|]. split; [exact OE|]. intros x t X1 X2 ND NR NL K.
  pose proof (joint_sym _ _ _ M J) as J'. destruct (joint_coordinate _ _ _ _ _ SP J) as (_ & SAME & _). specialize (SAME x). fold t in SAME.
  assert (LG : legal sp sb).
  { destruct (canned_reaches (segment_arrangement orc) fsqrt fl R mn mx ord sord _ _ _ _ _ _ _ _ _ (geoms_closed (segment_arrangement orc) fsqrt) M O H) as (s0 & s1 & C1 & S1 & sok & -> & _).
    pose proof (legal_steps (segment_arrangement orc) sp M _ _ (proj1 (create_inv1 _ _ _ _ _ M C1)) S1) as L. destruct L as [Y1 Y2 Y3 Y4]. constructor; auto. }
  assert (IN : forall u, (u = s \/ u = o) -> pts (chosen_of sb (is_id u)) t -> inside1 (chosen_of sb (is_id u)) t).
  { intros u U P. destruct (inside_or_end _ t (is_geom1d_normal _ (proj1 (iv_normal _ _ LG (is_id u)))) P) as [I|I]; [exact I|]. destruct NL. apply in_or_app. apply ends_in in I. destruct U as [-> | ->]; auto. }
  assert (TB : forall u v, joint sp u v -> inside_slab (plates (is_sheet u)) x -> inside_slab (plates (is_sheet v)) x -> along u (footprint (plates (is_sheet u)) x) = t -> inside1 (chosen_of sb (is_id u)) t -> taken_or_barred plates sb b' u x).
  { intros u v Ju Xu Xv Eu I. unfold taken_or_barred. rewrite <- Eu in I. pose proof (CF u v x Ju Xu Xv I) as G. destruct (g2_locate (geom_at (sb_sok b') (is_sheet u)) (footprint (plates (is_sheet u)) x)) as [z|e] eqn:EL; [|right; discriminate].
    destruct (Z.eq_dec z 1) as [->|NZ]; [left; apply G; reflexivity|right; congruence]. }
  destruct (D t ND NR) as (_ & F). destruct (F K) as [C|[C|C]]; [right; left|right; right|left; exact C].
  - apply IN in C; [|auto]. split; [exact C|]. exact (TB s o J X1 X2 eq_refl C).
  - apply IN in C; [|auto]. split; [exact C|]. exact (TB o s J' X2 X1 (eq_sym SAME) C).
Qed.
Print Assumptions crossing_settled_rounded.

(** ** Non-vacuity: the sheets of [CompleteEx] in float64, fingers of width 3 to 5 on a joint of length 20 *)
Module RoundRunEx.
Example rounds_ex : rounds dbl GapEx.R (zq 3) (zq 5) (pow2 (-52) * zq 64) (zq 64) 7.
Proof.
  apply double_rounds; try (vm_compute; congruence).
  - intros k l. apply Permutation_rev.
  - intros k lo hi _ L _. cbn [GapEx.R r_uniform]. assert (P : 0 <= pow2 (-52) * zq 64) by (vm_compute; congruence). set (p := pow2 (-52) * zq 64) in *. clearbody p.
    assert (E : (lo + hi) / zq 2 + (lo + hi) / zq 2 = lo + hi). { replace (zq 2) with (1 + 1) by (apply Qc_is_canon; reflexivity). field. intros X. apply (f_equal this) in X. discriminate X. }
    set (m := (lo + hi) / zq 2) in *. clearbody m. split; qlra.
  - intros k lo hi L. cbn [GapEx.R r_randint]. lia.
Qed.
Example short_ex : short_ok (zq 3) 7 CompleteEx.st.
Proof.
  intros j x y Z. destruct (Qclt_le_dec (zq 3 * zq 7) (y - x)) as [L|L]; auto. exfalso.
  assert (B : forall z, pts (ok_of CompleteEx.st j) z -> zq (-20) <= z /\ z < 0).
  { intros z P. unfold ok_of, CompleteEx.st in P. cbn [sb_iok] in P. cbn [dget] in P. destruct (id2_eqb _ _); [|destruct (id2_eqb _ _)]; destruct P as (i & P & Q); cbn in P; try tauto; destruct P as [<-|[]]; exact Q. }
  assert (V : 0 < zq 3 * zq 7) by (vm_compute; reflexivity). assert (W : 0 < zq (-20) + zq 3 * zq 7) by (vm_compute; reflexivity). set (u := zq 3 * zq 7) in *. set (l := zq (-20)) in *. clearbody u l.
  assert (X1 : x <= x) by qlra. assert (X2 : x < y) by qlra. destruct (B x (Z x X1 X2)) as (Y1 & Y2).
  assert (X3 : x <= 0) by qlra. assert (X4 : 0 < y) by qlra. destruct (B 0 (Z 0 X3 X4)) as (_ & Y3). qlra.
Qed.
Example round_ex : (st <- choose_the_ok_side (segment_arrangement (fun _ _ _ => O)) (CompleteEx.st, 1%Z) ;; st <- single_fingers_random (segment_arrangement (fun _ _ _ => O)) dbl GapEx.R (zq 3) (zq 5) st ;; GapEx.row (fst st)) =
  Ok [[-1; 1]; [-1; 1]; [1; -1]; [1; -1]; [-1; 1]; [-1; 1]]%Z.
Proof. vm_compute. reflexivity. Qed.
End RoundRunEx.
