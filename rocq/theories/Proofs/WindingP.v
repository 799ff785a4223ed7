(** * The crossing count of locate_point_polygon_winding_number. *)
From Verif.Model Require Import Primitive2d.
From Verif.Spec Require Import Plane.
From Verif.Proofs Require Import PyP PolyP.
From Coq Require Import Permutation.

Definition between (a x b : Qc) : Prop := (a <= x /\ x <= b) \/ (b <= x /\ x <= a).

Lemma between_t a b t : 0 <= t -> t <= 1 -> between a (a + t * (b - a)) b.
Proof. intros. unfold between. destruct (qleb_spec a b); [left|right]; split; qnra. Qed.

Lemma on_seg_iff a b p :
  on_seg (a, b) p <-> orient a b p = 0 /\ between (fst a) (fst p) (fst b) /\ between (snd a) (snd p) (snd b).
Proof.
  destruct a as [ax ay], b as [bx by'], p as [px py].
  unfold on_seg, orient, cross, at_t, vadd, vscale, vsub; simpl. split.
  - intros (t & T0 & T1 & E). apply pair_inv in E as [-> ->].
    split; [ring|]. split; now apply between_t.
  - intros (O & X & Y).
    assert (K : forall a b x : Qc, between a x b -> a <> b -> exists t, 0 <= t /\ t <= 1 /\ x = a + t * (b - a)).
    { clear. intros a b x H N. assert (D : b - a <> 0) by (intros E; apply N; qlra).
      exists ((x - a) / (b - a)). pose proof (qdiv_mul (x - a) (b - a) D) as M.
      set (t := (x - a) / (b - a)) in *. clearbody t.
      destruct (qc_not_eq _ _ N); destruct H as [[? ?]|[? ?]]; try (exfalso; qlra); repeat split; try qlra; qnra. }
    destruct (qeqb_spec ax bx) as [->|N].
    + destruct (qeqb_spec ay by') as [->|N'].
      * exists 0. split; [qlra|]. split; [qlra|]. f_equal; [destruct X as [[? ?]|[? ?]]|destruct Y as [[? ?]|[? ?]]]; qlra.
      * destruct (K _ _ _ Y N') as (t & T0 & T1 & ->). exists t. split; auto. split; auto.
        f_equal. destruct X as [[? ?]|[? ?]]; qlra.
    + destruct (K _ _ _ X N) as (t & T0 & T1 & ->). exists t. split; auto. split; auto.
      f_equal. assert (G : (bx - ax) * (py - (ay + t * (by' - ay))) = 0) by (rewrite <- O; ring).
      apply Qcmult_integral in G as [G|G]; [|qlra]. elim N. qlra.
Qed.
Lemma on_seg_sym a b p : on_seg (a, b) p <-> on_seg (b, a) p.
Proof.
  rewrite !on_seg_iff. unfold between.
  assert (orient b a p = - orient a b p) as ->.
  { destruct a, b, p. unfold orient, cross, vsub; simpl. ring. }
  split; intros (O & X & Y); (split; [qlra|]; tauto).
Qed.
Lemma on_seg_end a b : on_seg (a, b) a /\ on_seg (a, b) b.
Proof.
  split; [exists 0|exists 1]; (split; [qlra|split; [qlra|]]); destruct a, b;
    unfold at_t, vadd, vscale, vsub; simpl; f_equal; ring.
Qed.

Lemma orient_between a b p : orient a b p = 0 -> snd a <> snd b ->
  between (snd a) (snd p) (snd b) -> between (fst a) (fst p) (fst b).
Proof.
  destruct a as [ax ay], b as [bx by'], p as [px py]. unfold orient, cross, vsub; simpl. intros O N Y.
  assert (D : by' - ay <> 0) by (intros E; apply N; qlra).
  pose proof (qdiv_mul (py - ay) (by' - ay) D) as M. set (t := (py - ay) / (by' - ay)) in *. clearbody t.
  assert (T : 0 <= t /\ t <= 1).
  { clear O. destruct (qc_not_eq _ _ N), Y as [[? ?]|[? ?]]; try (exfalso; qlra); split; qnra. }
  assert (E : px = ax + t * (bx - ax)).
  { assert (G : (by' - ay) * (px - (ax + t * (bx - ax))) = 0).
    { transitivity (- ((bx - ax) * (py - ay) - (by' - ay) * (px - ax)) + (bx - ax) * ((py - ay) - t * (by' - ay))); [ring|].
      rewrite O, M. ring. }
    apply Qcmult_integral in G as [G|G]; [tauto|]. qlra. }
  rewrite E. apply between_t; tauto.
Qed.

Definition above (p v : point) : bool := qltb (snd p) (snd v).
Definition delta (p : point) (s : segment) : Z :=
  if xorb (above p (fst s)) (above p (snd s)) then (- sgn (orient (fst s) (snd s) p))%Z else 0%Z.
Definition wsum (p : point) (poly : list point) : Z := zsum (delta p) (edges_iter poly).

Definition hit (p : point) (s : segment) : bool :=
  let (a, b) := s in
  if (subsign (snd a) (snd p) * subsign (snd b) (snd p) =? 1)%Z then false
  else if pt_eqb b p then true
  else if qeqb (snd a) (snd b) then
    (qltb (fst a) (fst p) && qltb (fst p) (fst b)) || (qltb (fst p) (fst a) && qltb (fst b) (fst p))
  else if qeqb (qmax (snd b) (snd a)) (snd p) then false
  else qeqb (orient a b p) 0.

Lemma area3 a b p : area_loop 0 p [a; b; p] = - (qq 1 2 * orient a b p).
Proof.
  destruct a, b, p. cbn [area_loop fst snd]. rewrite !qdiv_half. unfold orient, cross, vsub; simpl. qlra.
Qed.

Lemma subsign_cases a b : (b < a /\ subsign a b = 1%Z) \/ (a = b /\ subsign a b = 0%Z) \/ (a < b /\ subsign a b = (-1)%Z).
Proof. unfold subsign. destruct (qltb_spec b a); auto. destruct (qeqb_spec a b); auto. right; right. split; auto. destruct (qc_not_eq _ _ n0); tauto. Qed.

Lemma locate_step p w prev v rest :
  locate_loop p w prev (subsign (snd prev) (snd p)) (v :: rest) =
  if hit p (prev, v) then 0%Z
  else locate_loop p (w + delta p (prev, v))%Z v (subsign (snd v) (snd p)) rest.
Proof.
  cbn [locate_loop]. unfold hit, delta, above. cbn [fst snd].
  rewrite area3.
  destruct (subsign_cases (snd prev) (snd p)) as [[A EA]|[[A EA]|[A EA]]],
           (subsign_cases (snd v) (snd p)) as [[B EB]|[[B EB]|[B EB]]]; rewrite EA, EB; cbn [Z.mul Z.eqb Pos.mul Pos.eqb];
    destruct (qltb_spec (snd p) (snd prev)); try (exfalso; qlra);
    destruct (qltb_spec (snd p) (snd v)); try (exfalso; qlra); cbn [xorb];
    rewrite ?Z.add_0_r; try reflexivity;
    destruct (pt_eqb v p); try reflexivity;
    destruct (qeqb_spec (snd prev) (snd v)); try (exfalso; qlra); try reflexivity;
    unfold qmax; destruct (qleb_spec (snd v) (snd prev)); try (exfalso; qlra);
    match goal with |- context [qeqb ?a (snd p)] => destruct (qeqb_spec a (snd p)); try (exfalso; qlra) end;
    try reflexivity;
    unfold sgn; set (o := orient prev v p) in *;
    destruct (qeqb_spec o 0) as [Z|Z], (qeqb_spec (- (qq 1 2 * o)) 0) as [Z'|Z']; try (exfalso; first [apply Z' | apply Z]; qlra); try reflexivity;
    destruct (qltb_spec 0 (- (qq 1 2 * o))), (qltb_spec 0 o), (qltb_spec o 0); try (exfalso; qlra);
    try reflexivity; exfalso; clearbody o; first [congruence | destruct (qc_not_eq _ _ Z); qlra].
Qed.
Lemma locate_loop_sum p w prev l :
  locate_loop p w prev (subsign (snd prev) (snd p)) l =
  if existsb (hit p) (edges_from prev l) then 0%Z
  else if (w + zsum (delta p) (edges_from prev l) =? 0)%Z then (-1)%Z else 1%Z.
Proof.
  revert w prev. induction l as [|v l IH]; intros.
  - cbn. now rewrite Z.add_0_r.
  - rewrite locate_step. cbn [edges_from existsb zsum]. destruct (hit p (prev, v)); [reflexivity|].
    rewrite IH. cbn [orb]. now rewrite Z.add_assoc.
Qed.

Lemma hit_sound p s : hit p s = true -> on_seg s p.
Proof.
  destruct s as [a b]. unfold hit.
  destruct (subsign_cases (snd a) (snd p)) as [[A EA]|[[A EA]|[A EA]]],
           (subsign_cases (snd b) (snd p)) as [[B EB]|[[B EB]|[B EB]]]; rewrite EA, EB; cbn [Z.mul Z.eqb Pos.mul Pos.eqb];
    try discriminate;
    (destruct (pt_eqb_spec b p) as [->|N]; [intros _; apply on_seg_end|]);
    rewrite on_seg_iff;
    destruct (qeqb_spec (snd a) (snd b)) as [E|E]; try (exfalso; qlra);
    try (intros H; assert (O : orient a b p = 0) by
           (destruct a, b, p; unfold orient, cross, vsub in *; simpl in *; subst; ring);
         apply orb_true_iff in H; rewrite !andb_true_iff, !qltb_lt in H;
         split; [exact O|]; unfold between;
         destruct H as [[? ?]|[? ?]]; split; (left + right); split; qlra);
    unfold qmax; destruct (qleb_spec (snd b) (snd a)); try (exfalso; qlra);
    match goal with |- context [qeqb ?a (snd p)] => destruct (qeqb_spec a (snd p)); try (exfalso; qlra) end;
    try discriminate; try (exfalso; congruence);
    intros H; apply qeqb_eq in H; (split; [exact H|]);
    assert (Y : between (snd a) (snd p) (snd b)) by (unfold between; (left + right); split; qlra);
    (split; [|exact Y]); now apply orient_between.
Qed.
Lemma hit_complete p s : on_seg s p -> hit p s = true \/ p = fst s.
Proof.
  destruct s as [a b]. rewrite on_seg_iff. intros (O & X & Y). cbn [fst].
  destruct (pt_eqb_spec a p) as [->|Na]; [auto|]. left. unfold hit.
  destruct (pt_eqb_spec b p) as [->|Nb].
  { replace (subsign (snd p) (snd p)) with 0%Z; [rewrite Z.mul_0_r; reflexivity|].
    destruct (subsign_cases (snd p) (snd p)) as [[A ?]|[[A ?]|[A ?]]]; auto; exfalso; qlra. }
  destruct (subsign_cases (snd a) (snd p)) as [[A EA]|[[A EA]|[A EA]]],
           (subsign_cases (snd b) (snd p)) as [[B EB]|[[B EB]|[B EB]]]; rewrite EA, EB; cbn [Z.mul Z.eqb Pos.mul Pos.eqb];
    try (exfalso; destruct Y as [[? ?]|[? ?]]; qlra);
    destruct (qeqb_spec (snd a) (snd b)) as [E|E]; try (exfalso; qlra); try (exfalso; congruence).
  - (* p at b's height... *)
    exfalso. destruct a as [ax ay], b as [bx by'], p as [px py]; unfold orient, cross, vsub in O; simpl in *. subst py.
    assert (G : (bx - px) * (by' - ay) = 0) by (rewrite <- O; ring).
    apply Qcmult_integral in G as [G|G]; [|qlra]. apply Nb. f_equal. qlra.
  - unfold qmax; destruct (qleb_spec (snd b) (snd a)); try (exfalso; qlra).
    destruct (qeqb_spec (snd a) (snd p)); [exfalso; qlra|]. now apply qeqb_eq.
  - exfalso. destruct a as [ax ay], b as [bx by'], p as [px py]; unfold orient, cross, vsub in O; simpl in *. subst py.
    assert (G : (ax - px) * (by' - ay) = 0) by (rewrite <- O; ring).
    apply Qcmult_integral in G as [G|G]; [|elim E; qlra]. apply Na. f_equal. qlra.
  - (* horizontal *)
    destruct a as [ax ay], b as [bx by'], p as [px py]; simpl in *. subst ay by'.
    assert (ax <> px) as Nx by (intros ->; apply Na; reflexivity).
    assert (bx <> px) as Nx' by (intros ->; apply Nb; reflexivity).
    apply qc_not_eq in Nx, Nx'. apply orb_true_iff. rewrite !andb_true_iff, !qltb_lt.
    destruct X as [[? ?]|[? ?]]; [left|right]; split; destruct Nx, Nx'; auto; exfalso; qlra.
  - exfalso. destruct a as [ax ay], b as [bx by'], p as [px py]; unfold orient, cross, vsub in O; simpl in *. subst py.
    assert (G : (ax - px) * (by' - ay) = 0) by (rewrite <- O; ring).
    apply Qcmult_integral in G as [G|G]; [|elim E; qlra]. apply Na. f_equal. qlra.
  - unfold qmax; destruct (qleb_spec (snd b) (snd a)); try (exfalso; qlra).
    destruct (qeqb_spec (snd b) (snd p)); [exfalso; qlra|]. now apply qeqb_eq.
  - exfalso. destruct a as [ax ay], b as [bx by'], p as [px py]; unfold orient, cross, vsub in O; simpl in *. subst py.
    assert (G : (bx - px) * (by' - ay) = 0) by (rewrite <- O; ring).
    apply Qcmult_integral in G as [G|G]; [|elim E; qlra]. apply Nb. f_equal. qlra.
Qed.

Lemma on_boundary_iff poly p : on_boundary poly p <-> exists s, In s (edges_iter poly) /\ on_seg s p.
Proof.
  unfold on_boundary. split; intros (s & H & S); exists s; split; auto; now apply is_edge_iter.
Qed.
Lemma hit_boundary poly p : existsb (hit p) (pedges poly) = true <-> on_boundary poly p.
Proof.
  rewrite existsb_exists. split.
  - intros (s & H & S). exists s. split; [now apply is_edge_pedges|now apply hit_sound].
  - intros (s & H & S). apply is_edge_pedges in H. destruct (hit_complete _ _ S) as [G|G]; [eauto|].
    destruct (pedges_to poly (fst s)) as (u & Hu); [eapply pedges_in; eauto|].
    exists (u, fst s). split; auto. rewrite <- G. unfold hit.
    destruct (subsign_cases (snd p) (snd p)) as [[A EA]|[[A EA]|[A EA]]]; try (exfalso; qlra).
    rewrite EA, Z.mul_0_r. simpl. destruct (pt_eqb_spec p p); congruence.
Qed.

Theorem locate_spec poly p : poly <> [] ->
  exists r, locate_point_polygon_winding_number poly p = Ok r /\
    ((on_boundary poly p /\ r = 0%Z) \/
     (~ on_boundary poly p /\ wsum p poly <> 0%Z /\ r = 1%Z) \/
     (~ on_boundary poly p /\ wsum p poly = 0%Z /\ r = (-1)%Z)).
Proof.
  intros Hne. unfold locate_point_polygon_winding_number. destruct poly as [|p0 l]; [congruence|].
  eexists; split; [reflexivity|]. rewrite locate_loop_sum. fold (pedges (p0 :: l)).
  pose proof (hit_boundary (p0 :: l) p) as HB. fold (pedges (p0 :: l)) in HB.
  destruct (existsb (hit p) _).
  - left. tauto.
  - right. assert (N : ~ on_boundary (p0 :: l) p) by (intros C; apply HB in C; discriminate).
    unfold wsum. rewrite <- (zsum_perm _ _ _ (pedges_perm (p0 :: l))). rewrite Z.add_0_l.
    destruct (Z.eqb_spec (zsum (delta p) (pedges (p0 :: l))) 0); [right|left]; tauto.
Qed.
