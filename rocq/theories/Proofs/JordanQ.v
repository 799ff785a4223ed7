(** A test for simple polygons, and what is next to the boundary of one. *)
From Verif.Model Require Import SegmentTree CellMerger Arrangement2d Aabb Geom2d.
From Verif.Spec Require Import Plane Subdivision Region Area Crisp Jordan Simple.
From Verif.Proofs Require Import PyP PolyP WindingP WindingQ WindingR NearP DictP SweepOrd SweepL PlanarP SubdivP MergerQ ArrVertexP ArrGraphP
  ArrInitP ArrTraceP ArrSampleP Geom2dP Geom2dOps ArrSoundP AreaP LevelP PolyCellsP FlatP JumpP CoverP CrispP NestP ArrTotalP ArrRayP ArrTotalQ RibbonR JordanP.
From Verif.Props Require Import Primitive2dProps Frangle2dProps Scan2dProps LocateProps.

(** ** the test *)
Definition fork (u w : point) : bool := negb (qeqb (cross u w) 0) || qltb (dot u w) 0.
Definition same_sign (a b : Qc) : bool := (qltb 0 a && qltb 0 b) || (qltb a 0 && qltb b 0).
Definition lower (a b c d : Qc) : bool := qltb a c && qltb a d && qltb b c && qltb b d.
Definition apartb (e f : segment) : bool :=
  same_sign (orient (fst e) (snd e) (fst f)) (orient (fst e) (snd e) (snd f)) || same_sign (orient (fst f) (snd f) (fst e)) (orient (fst f) (snd f) (snd e)) ||
  lower (fst (fst e)) (fst (snd e)) (fst (fst f)) (fst (snd f)) || lower (fst (fst f)) (fst (snd f)) (fst (fst e)) (fst (snd e)) ||
  lower (snd (fst e)) (snd (snd e)) (snd (fst f)) (snd (snd f)) || lower (snd (fst f)) (snd (snd f)) (snd (fst e)) (snd (snd e)).
Definition meetb (e f : segment) : bool :=
  pt_eqb (fst e) (fst f) ||
  (if pt_eqb (snd e) (fst f) then fork (vsub (fst e) (snd e)) (vsub (snd f) (fst f))
   else if pt_eqb (fst e) (snd f) then fork (vsub (fst f) (snd f)) (vsub (snd e) (fst e)) else apartb e f).
Fixpoint nodupb (l : list point) : bool := match l with [] => true | a :: l => negb (existsb (pt_eqb a) l) && nodupb l end.
Definition simpleb (r : list point) : bool :=
  nodupb r && (3 <=? length r)%nat && forallb (fun e => forallb (meetb e) (edges_iter r)) (edges_iter r).

Lemma nodupb_ok l : nodupb l = true -> NoDup l.
Proof.
  induction l as [|a l IH]; intros H; constructor; cbn in H; apply andb_prop in H as (H1 & H2); auto. intros I.
  assert (X : existsb (pt_eqb a) l = true) by (apply existsb_exists; exists a; split; auto; now destruct (pt_eqb_spec a a)). now rewrite X in H1.
Qed.
Lemma fork_meet c u w t s : fork u w = true -> 0 <= t -> 0 <= s -> u <> (0, 0) -> step c u t = step c w s -> step c u t = c.
Proof.
  intros F T S U X. assert (K : vscale t u = vscale s w). { assert (X1 := f_equal fst X). assert (X2 := f_equal snd X). clear -X1 X2. apply pteq; vec; qlra. }
  assert (T0 : t = 0).
  { unfold fork in F. apply orb_prop in F as [F|F].
    - destruct (qeqb_spec (cross u w) 0) as [|N]; [discriminate|]. assert (Z : t * cross u w = 0).
      { replace (t * cross u w) with (cross (vscale t u) w) by (vec; ring). rewrite K. vec. ring. } apply Qcmult_integral in Z as [Z|Z]; auto. contradiction.
    - destruct (qltb_spec (dot u w) 0) as [N|]; [|discriminate]. pose proof (dot_self_pos u U) as D. assert (Z : t * dot u u = s * dot u w).
      { replace (t * dot u u) with (dot u (vscale t u)) by (vec; ring). rewrite K. vec. ring. }
      destruct (qeqb_spec t 0); auto. exfalso. assert (0 < t * dot u u) by (apply mpp; auto; destruct (qc_not_eq _ _ n); qlra). assert (0 <= s * - dot u w) by (apply mnn; qlra). qlra. }
  rewrite T0. apply pteq; vec; ring.
Qed.
Lemma mix_pos a b t : 0 <= t -> t <= 1 -> 0 < a -> 0 < b -> 0 < a + t * (b - a).
Proof.
  intros T0 T1 A B. destruct (qltb_spec t 1) as [L|L].
  - assert (0 < (1 - t) * a) by (apply mpp; qlra). assert (0 <= t * b) by (apply mnn; qlra). qlra.
  - assert (t = 1) as -> by qlra. qlra.
Qed.
Lemma same_sign_mix a b t : same_sign a b = true -> 0 <= t -> t <= 1 -> a + t * (b - a) <> 0.
Proof.
  intros S T0 T1 Z. unfold same_sign in S. apply orb_prop in S as [S|S]; apply andb_prop in S as (S1 & S2).
  - destruct (qltb_spec 0 a) as [A|]; [|discriminate]. destruct (qltb_spec 0 b) as [B|]; [|discriminate]. pose proof (mix_pos a b t T0 T1 A B). qlra.
  - destruct (qltb_spec a 0) as [A|]; [|discriminate]. destruct (qltb_spec b 0) as [B|]; [|discriminate]. pose proof (mix_pos (- a) (- b) t T0 T1 ltac:(qlra) ltac:(qlra)). qlra.
Qed.
Lemma lower_mix a b c d t s : lower a b c d = true -> 0 <= t -> t <= 1 -> 0 <= s -> s <= 1 -> a + t * (b - a) <> c + s * (d - c).
Proof.
  intros L T0 T1 S0 S1 Z. unfold lower in L. apply andb_prop in L as (L & L4). apply andb_prop in L as (L & L3). apply andb_prop in L as (L1 & L2).
  destruct (qltb_spec a c) as [A|]; [|discriminate]. destruct (qltb_spec a d) as [B|]; [|discriminate]. destruct (qltb_spec b c) as [C|]; [|discriminate]. destruct (qltb_spec b d) as [D|]; [|discriminate].
  pose proof (mix_pos (c - a) (d - a) s S0 S1 ltac:(qlra) ltac:(qlra)) as P1. pose proof (mix_pos (c - b) (d - b) s S0 S1 ltac:(qlra) ltac:(qlra)) as P2.
  pose proof (mix_pos _ _ t T0 T1 P1 P2) as P3. qlra.
Qed.
Lemma apart_ok e f x : apartb e f = true -> on_seg e x -> on_seg f x -> False.
Proof.
  intros A (t & T0 & T1 & X) (s & S0 & S1 & Y). unfold apartb in A. apply orb_prop in A as [A|A]; [apply orb_prop in A as [A|A]; [apply orb_prop in A as [A|A]; [apply orb_prop in A as [A|A]; [apply orb_prop in A as [A|A]|]|]|]|].
  - apply (same_sign_mix _ _ s A S0 S1). transitivity (orient (fst e) (snd e) x); [rewrite Y|rewrite X]; unfold orient; vec; ring.
  - apply (same_sign_mix _ _ t A T0 T1). transitivity (orient (fst f) (snd f) x); [rewrite X|rewrite Y]; unfold orient; vec; ring.
  - apply (lower_mix _ _ _ _ t s A); auto. rewrite X in Y. assert (Z := f_equal fst Y). vec. qlra.
  - apply (lower_mix _ _ _ _ s t A); auto. rewrite X in Y. assert (Z := f_equal fst Y). vec. qlra.
  - apply (lower_mix _ _ _ _ t s A); auto. rewrite X in Y. assert (Z := f_equal snd Y). vec. qlra.
  - apply (lower_mix _ _ _ _ s t A); auto. rewrite X in Y. assert (Z := f_equal snd Y). vec. qlra.
Qed.
Lemma meet_join a c d x : a <> c -> fork (vsub a c) (vsub d c) = true -> on_seg (a, c) x -> on_seg (c, d) x -> x = c.
Proof.
  intros N F (t & T0 & T1 & X) (s & S0 & S1 & Y).
  assert (U : vsub a c <> (0, 0)). { intros Z. apply N. assert (Z1 := f_equal fst Z). assert (Z2 := f_equal snd Z). vec. apply pteq; qlra. }
  assert (X' : x = step c (vsub a c) (1 - t)) by (rewrite X; apply pteq; vec; ring). rewrite X'. apply (fork_meet c (vsub a c) (vsub d c) (1 - t) s F); auto; [qlra|].
  rewrite <- X', Y. apply pteq; vec; ring.
Qed.
Theorem simpleb_ok r : simpleb r = true -> simple_polygon r.
Proof.
  unfold simpleb. intros H. apply andb_prop in H as (H & H3). apply andb_prop in H as (H1 & H2). apply nodupb_ok in H1. apply Nat.leb_le in H2. split; auto. split; auto.
  assert (ST : forall e f, In e (edges_iter r) -> In f (edges_iter r) -> fst e = fst f -> e = f).
  { intros e f I F X. pose proof H1 as N. rewrite <- (iter_starts r) in N. revert N I F X. generalize (edges_iter r). induction l as [|a l IH]; intros N I F X; [destruct I|].
    cbn in N. inversion N as [|? ? N1 N2]; subst. destruct I as [->|I], F as [->|F]; auto; exfalso; apply N1; [rewrite X|rewrite <- X]; now apply in_map. }
  intros e f x I F D O P. apply is_edge_iter in I. apply is_edge_iter in F. rewrite forallb_forall in H3. specialize (H3 e I). rewrite forallb_forall in H3.
  pose proof (H3 f F) as M. unfold meetb in M. apply orb_prop in M as [M|M]; [destruct (pt_eqb_spec (fst e) (fst f)) as [X|]; [|discriminate]; exfalso; apply D; now apply ST|].
  assert (NE : forall e', In e' (edges_iter r) -> fst e' <> snd e').
  { intros e' I' X. assert (L : r <> []) by (intros Z; rewrite Z in H2; cbn in H2; lia). apply edges_iff in I' as (i & ->); auto. cbn [fst snd] in X.
    clear -H1 H2 X L. unfold nthp in X. set (n := Z.of_nat (length r)) in *. assert (N : (3 <= n)%Z) by (unfold n; lia).
    pose proof (Z.mod_pos_bound i n ltac:(lia)). pose proof (Z.mod_pos_bound (i + 1) n ltac:(lia)).
    rewrite NoDup_nth in H1. specialize (H1 (Z.to_nat (i mod n)) (Z.to_nat ((i + 1) mod n)) ltac:(unfold n in *; lia) ltac:(unfold n in *; lia) X).
    assert (EQ : ((i + 1) mod n = i mod n)%Z) by lia. rewrite <- Z.add_mod_idemp_l in EQ by lia. destruct (Z.eq_dec (i mod n) (n - 1)) as [Z|Z].
    - rewrite Z in EQ. replace (n - 1 + 1)%Z with n in EQ by lia. rewrite Z.mod_same in EQ by lia. lia.
    - rewrite Z.mod_small in EQ by lia. lia. }
  destruct (pt_eqb_spec (snd e) (fst f)) as [X|_]; [|destruct (pt_eqb_spec (fst e) (snd f)) as [X|_]].
  - right. destruct e as [a c], f as [c' d]. cbn [fst snd] in *. subst c'. split; auto; eapply meet_join; eauto; exact (NE _ I).
  - left. destruct e as [c d], f as [a c']. cbn [fst snd] in *. subst c'. split; auto; eapply meet_join; eauto; exact (NE _ F).
  - exfalso. exact (apart_ok e f x M O P).
Qed.

(** ** both sides of the boundary *)
Lemma j_vals r : simple_polygon r -> exists n, vals (sym (edges_iter r)) r n /\ (n = 2%Z -> 0 < area_of r) /\ (n = 0%Z -> area_of r < 0).
Proof.
  intros J. pose proof (E_nd r J) as ND. pose proof (E_pl r J) as PL. pose proof (E_sy r) as SY. destruct (cell_vals _ SY ND PL r (j_cellr r J)) as (n & V). exists n. split; auto.
  exact (vals_area _ r n SY ND PL (j_ne r J) V).
Qed.
Lemma j_near r n p eps : simple_polygon r -> vals (sym (edges_iter r)) r n -> on_boundary r p -> 0 < eps ->
  (exists q, near eps p q /\ ~ on_boundary r q /\ wsum q r = n) /\ (exists q, near eps p q /\ ~ on_boundary r q /\ wsum q r = (n - 2)%Z).
Proof.
  intros J V B P. pose proof (E_nd r J) as ND. pose proof (E_pl r J) as PL. pose proof (E_sy r) as SY. apply on_boundary_iff in B as (e & I & O).
  assert (IE : In e (sym (edges_iter r))) by (apply sym_in; auto).
  assert (K : forall f m, In f (sym (edges_iter r)) -> on_seg f p -> NestP.side r f m -> exists q, near eps p q /\ ~ on_boundary r q /\ wsum q r = m).
  { intros f m F OF S. destruct (near_RT (sym (edges_iter r)) ND (fun z => off (sym (edges_iter r)) z /\ wsum z r = m) f p eps F OF P) as (q & N & Q1 & Q2).
    - apply (strip_RT _ ND PL); auto.
      + intros x y FR (A & C). split; [apply FR; exists 1; split; [qlra|]; split; [qlra|]; apply pteq; vec; ring|]. rewrite <- C. symmetry. apply (sym_move (edges_iter r)); auto. apply incl_refl.
      + destruct (strip _ ND PL f F) as (k & K & OK). destruct (S (at_t f (qq 1 2)) (perp f) (mid_inner f) (perp_right f (ND f F))) as (k' & K' & SK). destruct (qmin_spec k k') as (A1 & A2 & A3).
        exists (qmin k k'). split; [auto|]. split; [split; [apply OK; auto|apply SK; auto]|]. intros t T0 T1. apply OK; auto. qlra.
    - exists q. split; auto. split; auto. now apply (off_bd r). }
  split; [apply (K e); auto; now apply (vl_right _ _ _ V)|]. apply (K (rev_e e)); auto; [now apply on_rev|now apply (vl_left _ _ _ V)].
Qed.
(** the ring is bounded on all sides *)
Lemma verts_bound r : exists M, forall v, In v r -> qabs (fst v) <= M /\ qabs (snd v) <= M.
Proof.
  induction r as [|v r (M & IH)]; [exists 0; intros v []|]. exists (qmax M (qmax (qabs (fst v)) (qabs (snd v)))).
  assert (K : forall a b, a <= qmax a b /\ b <= qmax a b) by (intros a b; unfold qmax; destruct (qleb_spec a b); split; qlra).
  destruct (K M (qmax (qabs (fst v)) (qabs (snd v)))) as (K1 & K2). destruct (K (qabs (fst v)) (qabs (snd v))) as (K3 & K4).
  intros w [<-|I]; [split; qlra|]. destruct (IH w I). split; qlra.
Qed.
Lemma j_bounded r : exists M, forall p, M < qabs (fst p) \/ M < qabs (snd p) -> wsum p r = 0%Z.
Proof.
  destruct (verts_bound r) as (M & H). exists M. intros p P.
  assert (K : exists d, forall v, In v r -> 0 < dot d (vsub v p)).
  { unfold qabs in *. destruct P as [P|P].
    - destruct (qleb_spec 0 (fst p)); [exists (- (1), 0)|exists (1, 0)]; intros v V; destruct (H v V) as (A & _); clear H; destruct (qleb_spec 0 (fst v)); vec; qlra.
    - destruct (qleb_spec 0 (snd p)); [exists (0, - (1))|exists (0, 1)]; intros v V; destruct (H v V) as (_ & A); clear H; destruct (qleb_spec 0 (snd v)); vec; qlra. }
  destruct K as (d & K). now apply (wsum_half_plane r p d).
Qed.
