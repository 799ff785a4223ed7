(** * Winding number: triangle formula, constancy along paths, convex polygons. *)
From Verif.Model Require Import Primitive2d.
From Verif.Spec Require Import Plane.
From Verif.Proofs Require Import PyP PolyP WindingP.
From Coq Require Import Permutation.

Lemma sgn_cases q : (0 < q /\ sgn q = 1%Z) \/ (q = 0 /\ sgn q = 0%Z) \/ (q < 0 /\ sgn q = (-1)%Z).
Proof. unfold sgn. destruct (qltb_spec 0 q); auto. destruct (qltb_spec q 0); auto. right; left. split; auto. qlra. Qed.
Lemma sgn_opp q : sgn (- q) = (- sgn q)%Z.
Proof.
  destruct (sgn_cases q) as [[A ->]|[[A ->]|[A ->]]], (sgn_cases (- q)) as [[B ->]|[[B ->]|[B ->]]];
    auto; exfalso; qlra.
Qed.
Lemma orient_rev a b p : orient b a p = - orient a b p.
Proof. destruct a, b, p. unfold orient, cross, vsub; simpl. ring. Qed.
Lemma orient_rot3 a b c : orient a b c = orient b c a.
Proof. destruct a, b, c. unfold orient, cross, vsub; simpl. ring. Qed.

Lemma delta_rev p a b : delta p (b, a) = (- delta p (a, b))%Z.
Proof.
  unfold delta; cbn [fst snd]. rewrite xorb_comm. destruct (xorb _ _); [|reflexivity].
  rewrite orient_rev, sgn_opp. lia.
Qed.

Lemma above_spec p v : reflect (snd p < snd v) (above p v).
Proof. apply qltb_spec. Qed.

Lemma crossing_nonzero p a b : xorb (above p a) (above p b) = true -> ~ on_seg (a, b) p -> orient a b p <> 0.
Proof.
  intros X N E. apply N. apply on_seg_iff. split; auto.
  destruct (above_spec p a), (above_spec p b); try discriminate.
  - assert (Y : between (snd a) (snd p) (snd b)) by (right; split; qlra).
    split; auto. apply orient_between; auto. intros C. rewrite C in *. qlra.
  - assert (Y : between (snd a) (snd p) (snd b)) by (left; split; qlra).
    split; auto. apply orient_between; auto. intros C. rewrite C in *. qlra.
Qed.

(** A*a + B*b + C*c = 0 for the three orientations *)
Lemma tri_identity_y a b c p :
  orient b c p * (snd a - snd p) + orient c a p * (snd b - snd p) + orient a b p * (snd c - snd p) = 0.
Proof. destruct a, b, c, p. unfold orient, cross, vsub; simpl. ring. Qed.
Lemma orient_rel a b p : orient a b p = (fst a - fst p) * (snd b - snd p) - (snd a - snd p) * (fst b - fst p).
Proof. destruct a, b, p. unfold orient, cross, vsub; simpl. ring. Qed.

Definition tsum p a b c := (delta p (a, b) + delta p (b, c) + delta p (c, a))%Z.


Lemma comb_pos A B C x y z : 0 < A -> 0 < B -> 0 < C -> 0 < x -> 0 < y -> 0 < z -> A * x + B * y + C * z = 0 -> False.
Proof. intros. assert (0 < A * x) by qnra. assert (0 < B * y) by qnra. assert (0 < C * z) by qnra. qlra. Qed.
Lemma comb_nonpos A B C x y z : 0 < A -> 0 < B -> 0 < C -> x <= 0 -> y <= 0 -> z <= 0 -> A * x + B * y + C * z = 0 ->
  x = 0 /\ y = 0 /\ z = 0.
Proof.
  intros. assert (A * x <= 0) by qnra. assert (B * y <= 0) by qnra. assert (C * z <= 0) by qnra.
  assert (A * x = 0 /\ B * y = 0 /\ C * z = 0) as (E1 & E2 & E3) by (repeat split; qlra).
  apply Qcmult_integral in E1, E2, E3. repeat split; [destruct E1|destruct E2|destruct E3]; auto; exfalso; subst; qlra.
Qed.

(** the open triangle abc with p inside is impossible when all of a, b, c are on one side *)
Lemma tri_one_side p a b c : above p a = above p b -> above p b = above p c ->
  ~ (0 < orient a b p /\ 0 < orient b c p /\ 0 < orient c a p).
Proof.
  intros E1 E2 (A & B & C). pose proof (tri_identity_y a b c p) as I.
  destruct (above_spec p a), (above_spec p b); try discriminate; destruct (above_spec p c); try discriminate.
  - eapply comb_pos; [exact B|exact C|exact A| | | |exact I]; qlra.
  - destruct (comb_nonpos (orient b c p) (orient c a p) (orient a b p) (snd a - snd p) (snd b - snd p) (snd c - snd p)) as (Z1 & Z2 & Z3); auto; try qlra.
    rewrite orient_rel, Z1, Z2 in A. qlra.
Qed.
Lemma tri_ind_rev a b c p : tri_ind a c b p = (- tri_ind a b c p)%Z.
Proof.
  unfold tri_ind. rewrite (orient_rev c a p), (orient_rev b c p), (orient_rev a b p), !sgn_opp.
  destruct (sgn_cases (orient a b p)) as [[A ->]|[[A ->]|[A ->]]],
           (sgn_cases (orient b c p)) as [[B ->]|[[B ->]|[B ->]]],
           (sgn_cases (orient c a p)) as [[C ->]|[[C ->]|[C ->]]]; reflexivity.
Qed.
Lemma tri_ind_rot a b c p : tri_ind b c a p = tri_ind a b c p.
Proof.
  unfold tri_ind.
  destruct (sgn_cases (orient a b p)) as [[A ->]|[[A ->]|[A ->]]],
           (sgn_cases (orient b c p)) as [[B ->]|[[B ->]|[B ->]]],
           (sgn_cases (orient c a p)) as [[C ->]|[[C ->]|[C ->]]]; reflexivity.
Qed.
Lemma tri_ind_1 a b c p : tri_ind a b c p = 1%Z <-> (0 < orient a b p /\ 0 < orient b c p /\ 0 < orient c a p).
Proof.
  unfold tri_ind.
  destruct (sgn_cases (orient a b p)) as [[A ->]|[[A ->]|[A ->]]],
           (sgn_cases (orient b c p)) as [[B ->]|[[B ->]|[B ->]]],
           (sgn_cases (orient c a p)) as [[C ->]|[[C ->]|[C ->]]]; cbn;
    (split; [intros; try discriminate; auto | intros (? & ? & ?); try reflexivity; exfalso; qlra]).
Qed.
Lemma tri_ind_range a b c p : tri_ind a b c p = 1%Z \/ tri_ind a b c p = 0%Z \/ tri_ind a b c p = (-1)%Z.
Proof. unfold tri_ind. destruct (_ && _); auto. destruct (sgn_cases (orient a b p)) as [[A ->]|[[A ->]|[A ->]]]; auto. Qed.
Lemma tri_ind_m1 a b c p : tri_ind a b c p = (-1)%Z <-> tri_ind a c b p = 1%Z.
Proof. rewrite tri_ind_rev. lia. Qed.

Lemma tri_same p a b c : above p a = above p b -> above p b = above p c ->
  tsum p a b c = (-2 * tri_ind a b c p)%Z.
Proof.
  intros E1 E2. unfold tsum, delta; cbn [fst snd]. rewrite E1, E2, xorb_nilpotent.
  enough (tri_ind a b c p = 0%Z) by lia.
  destruct (tri_ind_range a b c p) as [H|[H|H]]; auto; exfalso.
  - apply tri_ind_1 in H. eapply tri_one_side; [exact E1|exact E2|exact H].
  - apply tri_ind_m1, tri_ind_1 in H. eapply (tri_one_side p a c b); [congruence|congruence|exact H].
Qed.

(** a alone on its side of the horizontal line through p *)
Lemma tri_odd_pos p a b c : above p a <> above p b -> above p b = above p c ->
  ~ on_seg (b, c) p -> 0 < orient a b p -> 0 < orient c a p -> 0 < orient b c p.
Proof.
  intros E1 E2 N C B. pose proof (tri_identity_y a b c p) as I.
  destruct (above_spec p a) as [Ya|Ya], (above_spec p b) as [Yb|Yb]; try congruence;
    destruct (above_spec p c) as [Yc|Yc]; try congruence.
  - rewrite orient_rel in C, B.
    destruct (qltb_spec 0 (orient b c p)) as [|G]; auto. exfalso.
    assert (Z : snd b - snd p = 0 /\ snd c - snd p = 0).
    { set (A := orient b c p) in *. rewrite (orient_rel a b p), (orient_rel c a p) in I.
      set (B' := (fst c - fst p) * (snd a - snd p) - (snd c - snd p) * (fst a - fst p)) in *.
      set (C' := (fst a - fst p) * (snd b - snd p) - (snd a - snd p) * (fst b - fst p)) in *.
      set (ya := snd a - snd p) in *. set (yb := snd b - snd p) in *. set (yc := snd c - snd p) in *.
      assert (0 < ya) by (unfold ya; qlra). assert (yb <= 0) by (unfold yb; qlra). assert (yc <= 0) by (unfold yc; qlra).
      clearbody A B' C' ya yb yc.
      assert (A * ya <= 0) by qnra. assert (B' * yb <= 0) by qnra. assert (C' * yc <= 0) by qnra.
      assert (B' * yb = 0) as X1 by qlra. assert (C' * yc = 0) as X2 by qlra.
      apply Qcmult_integral in X1 as [->|X1]; [exfalso; qlra|]. apply Qcmult_integral in X2 as [->|X2]; [exfalso; qlra|].
      auto. }
    destruct Z as [Z1 Z2]. rewrite Z1 in C. rewrite Z2 in B.
    assert (0 < snd a - snd p) by qlra. set (ya := snd a - snd p) in *. clearbody ya.
    assert (fst b - fst p < 0) by qnra. assert (0 < fst c - fst p) by qnra.
    apply N. apply on_seg_iff. split; [rewrite orient_rel, Z1, Z2; ring|].
    split; left; split; qlra.
  - set (A := orient b c p) in *. set (B' := orient c a p) in *. set (C' := orient a b p) in *.
    set (ya := snd a - snd p) in *. set (yb := snd b - snd p) in *. set (yc := snd c - snd p) in *.
    assert (ya <= 0) by (unfold ya; qlra). assert (0 < yb) by (unfold yb; qlra). assert (0 < yc) by (unfold yc; qlra).
    clearbody A B' C' ya yb yc. assert (0 < B' * yb) by qnra. assert (0 < C' * yc) by qnra.
    assert (A * ya < 0) by qlra. qnra.
Qed.
Lemma xorb_neq x y : x <> y -> xorb x y = true.
Proof. destruct x, y; simpl; congruence. Qed.

Lemma tri_odd p a b c : above p a <> above p b -> above p b = above p c ->
  ~ on_seg (a, b) p -> ~ on_seg (b, c) p -> ~ on_seg (c, a) p ->
  tsum p a b c = (-2 * tri_ind a b c p)%Z.
Proof.
  intros E1 E2 N1 N2 N3.
  assert (O1 : orient a b p <> 0) by (apply crossing_nonzero; auto using xorb_neq).
  assert (O3 : orient c a p <> 0) by (apply crossing_nonzero; auto; apply xorb_neq; congruence).
  unfold tsum, delta; cbn [fst snd]. rewrite E2, xorb_nilpotent.
  rewrite <- E2, (xorb_neq (above p a) (above p b)), (xorb_neq (above p b) (above p a)) by congruence.
  pose proof (tri_odd_pos p a b c E1 E2 N2) as P.
  assert (M : orient a b p < 0 -> orient c a p < 0 -> orient b c p < 0).
  { intros X Y. pose proof (tri_odd_pos p a c b) as Q. rewrite (orient_rev c a), (orient_rev a b), (orient_rev b c) in Q.
    assert (0 < - orient b c p); [|qlra]. apply Q; try congruence; try qlra. rewrite on_seg_sym. auto. }
  unfold tri_ind.
  destruct (sgn_cases (orient a b p)) as [[A ->]|[[A ->]|[A ->]]]; [|congruence|];
  destruct (sgn_cases (orient c a p)) as [[C ->]|[[C ->]|[C ->]]]; try congruence;
  destruct (sgn_cases (orient b c p)) as [[B ->]|[[B ->]|[B ->]]]; try reflexivity; exfalso.
  - specialize (P A C). qlra.
  - specialize (P A C). qlra.
  - specialize (M A C). qlra.
  - specialize (M A C). qlra.
Qed.

Lemma tsum_rot p a b c : tsum p b c a = tsum p a b c.
Proof. unfold tsum. lia. Qed.

Theorem triangle_formula p a b c :
  ~ on_seg (a, b) p -> ~ on_seg (b, c) p -> ~ on_seg (c, a) p ->
  tsum p a b c = (-2 * tri_ind a b c p)%Z.
Proof.
  intros N1 N2 N3.
  destruct (bool_dec (above p a) (above p b)) as [E1|E1], (bool_dec (above p b) (above p c)) as [E2|E2].
  - now apply tri_same.
  - (* c alone *) rewrite <- (tri_ind_rot a b c p), <- (tri_ind_rot b c a p).
    rewrite <- (tsum_rot p a b c), <- (tsum_rot p b c a). apply tri_odd; auto. congruence.
  - apply tri_odd; auto.
  - (* b alone *) rewrite <- (tri_ind_rot a b c p), <- (tsum_rot p a b c). apply tri_odd; auto.
    destruct (above p a), (above p b), (above p c); congruence.
Qed.

Theorem wsum_fan o poly p : ~ on_boundary poly p -> generic_apex poly o p ->
  wsum p poly = (-2 * fan_winding o poly p)%Z.
Proof.
  intros NB G. unfold wsum, fan_winding. change (cyclic_pairs poly) with (edges_iter poly).
  rewrite <- !(zsum_perm _ _ _ (pedges_perm poly)).
  rewrite <- zsum_scale.
  transitivity (zsum (fun s => tsum p o (fst s) (snd s)) (pedges poly)).
  - pose proof (pedges_tele_z (fun v => (- delta p (o, v))%Z) poly) as T.
    rewrite (zsum_ext (fun s => tsum p o (fst s) (snd s))
      (fun s => (delta p s + (- delta p (o, snd s) - - delta p (o, fst s)))%Z)).
    + rewrite zsum_plus, T, Z.add_0_r. reflexivity.
    + intros [a b] _. unfold tsum; cbn [fst snd]. rewrite (delta_rev p o b). lia.
  - apply zsum_ext. intros [a b] H. cbn [fst snd]. pose proof (pedges_in _ _ H) as [Ia Ib].
    apply triangle_formula.
    + now apply G.
    + intros S. apply NB. exists (a, b). split; auto. now apply is_edge_pedges.
    + rewrite on_seg_sym. now apply G.
Qed.

(** a generic apex exists *)
Lemma fresh_q (l : list Qc) : exists M, forall x, In x l -> x < M.
Proof.
  induction l as [|a l (M & H)]; [exists 0; intros ? []|].
  exists (qmax (a + 1) M). unfold qmax. intros x [->|Hx]; [|specialize (H _ Hx)]; qcase1; qlra.
Qed.
Lemma generic_apex_exists poly p : ~ In p poly -> exists o, generic_apex poly o p.
Proof.
  intros N. destruct (fresh_q (map (fun v => (snd v - snd p) / (fst v - fst p)) poly)) as (M & H).
  exists (fst p + 1, snd p + M). intros v Hv S.
  apply on_seg_iff in S as (O & X & Y). cbn [fst snd] in X, Y.
  destruct v as [vx vy], p as [px py]. rewrite orient_rel in O. cbn [fst snd] in *.
  destruct (qeqb_spec vx px) as [->|Nx].
  - assert (E : vy = py) by qlra. subst. tauto.
  - assert (D : vx - px <> 0) by (intros E; apply Nx; qlra).
    specialize (H ((vy - py) / (vx - px))). rewrite in_map_iff in H.
    assert (L : (vy - py) / (vx - px) < M) by (apply H; exists (vx, vy); auto).
    pose proof (qdiv_mul (vy - py) (vx - px) D) as E. set (t := (vy - py) / (vx - px)) in *. clearbody t.
    assert (G : (vx - px) * (t - M) = 0) by (rewrite <- E in O; qlra).
    apply Qcmult_integral in G as [G|G]; [tauto|]. qlra.
Qed.
Lemma vertex_on_boundary poly v : In v poly -> on_boundary poly v.
Proof.
  intros H. destruct (pedges_to poly v H) as (u & Hu). exists (u, v). split; [now apply is_edge_pedges|].
  apply on_seg_end.
Qed.

(** ** Moving the point without meeting an edge *)
Definition psi (p q u : point) : Z :=
  if xorb (above p u) (above q u) then sgn (orient p q u) else 0%Z.

Lemma frac01 X Y : (0 <= X /\ Y <= 0) \/ (X <= 0 /\ 0 <= Y) -> X - Y <> 0 -> 0 <= X / (X - Y) /\ X / (X - Y) <= 1.
Proof.
  intros H D. pose proof (qdiv_mul X (X - Y) D) as M. set (u := X / (X - Y)) in *. clearbody u.
  assert (N : X <> Y) by (intros E; apply D; qlra).
  destruct (qc_not_eq _ _ N), H as [[? ?]|[? ?]]; try (exfalso; qlra); split; qnra.
Qed.
Lemma seg_disjoint a b p q : (forall x, on_seg (a, b) x -> on_seg (p, q) x -> False) ->
  let P := orient a b p in let R := orient a b q in let A := orient p q a in let B := orient p q b in
  P = R \/ (0 < P /\ 0 < R) \/ (P < 0 /\ R < 0) \/ (0 < A /\ 0 < B) \/ (A < 0 /\ B < 0).
Proof.
  intros D P R A B.
  destruct (qeqb_spec P R) as [E|N]; [auto|].
  assert (I : A - B = R - P).
  { unfold A, B, R, P. destruct a, b, p, q. unfold orient, cross, vsub; simpl. ring. }
  assert (Dn : P - R <> 0) by (intros E; apply N; qlra).
  assert (Dn' : A - B <> 0) by (intros E; apply N; qlra).
  destruct (sgn_cases P) as [[HP _]|[[HP _]|[HP _]]], (sgn_cases R) as [[HQ _]|[[HQ _]|[HQ _]]]; try tauto;
  destruct (sgn_cases A) as [[HA _]|[[HA _]|[HA _]]], (sgn_cases B) as [[HB _]|[[HB _]|[HB _]]]; try tauto; exfalso;
  try qlra;
  (assert (F1 : 0 <= P / (P - R) /\ P / (P - R) <= 1) by (apply frac01; [(left + right); split; qlra|auto]);
   assert (F2 : 0 <= A / (A - B) /\ A / (A - B) <= 1) by (apply frac01; [(left + right); split; qlra|auto]);
   apply (D (at_t (p, q) (P / (P - R))));
   [ exists (A / (A - B)); split; [tauto|]; split; [tauto|]
   | exists (P / (P - R)); tauto ]).
  all: clear - Dn Dn'.
  all: unfold A, B, P, R in *; destruct a as [ax ay], b as [bx by'], p as [px py], q as [qx qy];
    unfold orient, cross, at_t, vadd, vscale, vsub in *; simpl in *; f_equal; field; auto.
Qed.
