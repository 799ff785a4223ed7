(** * Properties C12, C13 (AABB). *)
From Verif.Model Require Import Aabb.
From Verif.Spec Require Import Plane.

(** ** C12 *)
Definition from_points (l : list point) : aabb := fold_left include_point l (AABB None None).

(** what the box must look like: attained minimum and maximum of the coordinates *)
Definition is_min (f : point -> Qc) (l : list point) (m : Qc) : Prop :=
  (exists p, In p l /\ f p = m) /\ forall p, In p l -> m <= f p.
Definition is_max (f : point -> Qc) (l : list point) (m : Qc) : Prop :=
  (exists p, In p l /\ f p = m) /\ forall p, In p l -> f p <= m.

Definition box_of (l : list point) (b : aabb) : Prop :=
  match l with
  | [] => b = AABB None None
  | _ => exists lx ly ux uy, b = AABB (Some (lx, ly)) (Some (ux, uy)) /\
           is_min fst l lx /\ is_min snd l ly /\ is_max fst l ux /\ is_max snd l uy
  end.

Lemma is_min_snoc f l m q : is_min f l m -> is_min f (l ++ [q]) (if qleb m (f q) then m else f q).
Proof.
  intros [(p & Hp & E) H]. destruct (qleb_spec m (f q)).
  - split; [exists p; rewrite in_app_iff; auto|]. intros r Hr. apply in_app_iff in Hr.
    destruct Hr as [Hr|[<-|[]]]; auto.
  - split; [exists q; rewrite in_app_iff; simpl; auto|]. intros r Hr. apply in_app_iff in Hr.
    destruct Hr as [Hr|[<-|[]]]; [|qlra]. specialize (H _ Hr). qlra.
Qed.
Lemma is_max_snoc f l m q : is_max f l m -> is_max f (l ++ [q]) (if qleb (f q) m then m else f q).
Proof.
  intros [(p & Hp & E) H]. destruct (qleb_spec (f q) m).
  - split; [exists p; rewrite in_app_iff; auto|]. intros r Hr. apply in_app_iff in Hr.
    destruct Hr as [Hr|[<-|[]]]; auto.
  - split; [exists q; rewrite in_app_iff; simpl; auto|]. intros r Hr. apply in_app_iff in Hr.
    destruct Hr as [Hr|[<-|[]]]; [|qlra]. specialize (H _ Hr). qlra.
Qed.

Lemma box_step l b q : box_of l b -> box_of (l ++ [q]) (include_point b q).
Proof.
  destruct l as [|p l].
  - intros ->. exists (fst q), (snd q), (fst q), (snd q).
    split; [reflexivity|].
    repeat split; try (exists q; simpl; auto; fail); intros r [<-|[]]; apply Qcle_refl.
  - set (L := p :: l). intros (lx & ly & ux & uy & -> & H1 & H2 & H3 & H4).
    assert (E : include_point (AABB (Some (lx, ly)) (Some (ux, uy))) q =
      AABB (Some (if qleb lx (fst q) then lx else fst q, if qleb ly (snd q) then ly else snd q))
           (Some (if qleb (fst q) ux then ux else fst q, if qleb (snd q) uy then uy else snd q))).
    { unfold include_point, contains, include_coord. simpl.
      repeat (qcase1; simpl; try reflexivity). }
    rewrite E. simpl app.
    exists (if qleb lx (fst q) then lx else fst q), (if qleb ly (snd q) then ly else snd q),
           (if qleb (fst q) ux then ux else fst q), (if qleb (snd q) uy then uy else snd q).
    split; [reflexivity|]. change (p :: l ++ [q]) with (L ++ [q]).
    split; [now apply is_min_snoc|]. split; [now apply is_min_snoc|].
    split; now apply is_max_snoc.
Qed.
Lemma box_of_from l : box_of l (from_points l).
Proof.
  unfold from_points. rewrite <- (rev_involutive l). induction (rev l) as [|q r IH]; [reflexivity|].
  simpl rev. rewrite fold_left_app. simpl. now apply box_step.
Qed.

Theorem aabb_include_point_tightest : forall l q,
  (contains (from_points l) q = true <->
   (exists p, In p l /\ fst p <= fst q) /\ (exists p, In p l /\ fst q <= fst p) /\
   (exists p, In p l /\ snd p <= snd q) /\ (exists p, In p l /\ snd q <= snd p)) /\
  (l <> [] -> exists lx ly ux uy,
     is_min fst l lx /\ is_min snd l ly /\ is_max fst l ux /\ is_max snd l uy /\
     lower (from_points l) = nv (lx, ly) /\ upper (from_points l) = nv (ux, uy) /\
     middle (from_points l) = nv ((lx + ux) / zq 2, (ly + uy) / zq 2)).
Proof.
  intros l q. pose proof (box_of_from l) as B. destruct l as [|p l].
  - simpl in B. rewrite B. simpl. split; [|congruence]. split; [discriminate|].
    intros ((? & [] & _) & _).
  - set (L := p :: l) in *. destruct B as (lx & ly & ux & uy & -> & (M1 & H1) & (M2 & H2) & (M3 & H3) & (M4 & H4)).
    split.
    + unfold contains; simpl. rewrite !andb_true_iff, !qleb_le. split.
      * destruct M1 as (a & ? & ?), M2 as (b & ? & ?), M3 as (c & ? & ?), M4 as (d & ? & ?).
        intros [[? ?] [? ?]]. repeat split; [exists a|exists c|exists b|exists d]; split; auto; congruence.
      * intros ((a & A1 & A2) & (b & B1 & B2) & (c & C1 & C2) & (d & D1 & D2)).
        apply H1 in A1. apply H3 in B1. apply H2 in C1. apply H4 in D1. repeat split; qlra.
    + intros _. exists lx, ly, ux, uy. repeat split; auto.
Qed.
Print Assumptions aabb_include_point_tightest.
Example aabb_include_point_ex :
  let b := from_points [(zq 1, zq 5); (zq (-2), zq 6); (zq 0, zq 0)] in
  contains b (zq 1, zq 6) = true /\ contains b (zq 1, zq 7) = false /\
  match middle b with (Some x, Some y) => qeqb x (qq (-1) 2) && qeqb y (zq 3) | _ => false end = true /\
  contains (from_points []) (zq 0, zq 0) = false.
Proof. vm_compute. auto. Qed.

(** ** C13 *)
Definition in_box (l u p : point) : Prop :=
  fst l <= fst p /\ fst p <= fst u /\ snd l <= snd p /\ snd p <= snd u.

(** one slab: the parameters for which a coordinate is within [l, u] form a closed interval *)
Lemma slab s d l u : d <> 0 -> l <= u ->
  exists a b, a <= b /\ (forall t, (l <= s + t * d /\ s + t * d <= u) <-> (a <= t /\ t <= b)) /\
    ((0 < d /\ a * d = l - s /\ b * d = u - s) \/ (d < 0 /\ a * d = u - s /\ b * d = l - s)).
Proof.
  intros Hd Hlu. destruct (qc_not_eq _ _ Hd) as [N|P].
  - exists ((u - s) / d), ((l - s) / d).
    pose proof (qdiv_mul (u - s) d Hd) as E1. pose proof (qdiv_mul (l - s) d Hd) as E2.
    set (a := (u - s) / d) in *. set (b := (l - s) / d) in *.
    split; [qnra|]. split; [|auto]. intros t. split; intros [? ?]; split; qnra.
  - exists ((l - s) / d), ((u - s) / d).
    pose proof (qdiv_mul (u - s) d Hd) as E1. pose proof (qdiv_mul (l - s) d Hd) as E2.
    set (b := (u - s) / d) in *. set (a := (l - s) / d) in *.
    split; [qnra|]. split; [|auto]. intros t. split; intros [? ?]; split; qnra.
Qed.

Lemma helly3 a1 b1 a2 b2 a3 b3 : a1 <= b1 -> a2 <= b2 -> a3 <= b3 ->
  a1 <= b2 -> a2 <= b1 -> a1 <= b3 -> a3 <= b1 -> a2 <= b3 -> a3 <= b2 ->
  exists t : Qc, (a1 <= t /\ t <= b1) /\ (a2 <= t /\ t <= b2) /\ (a3 <= t /\ t <= b3).
Proof.
  intros. exists (qmax a1 (qmax a2 a3)). unfold qmax.
  repeat qcase1; repeat split; qlra.
Qed.

Lemma sq_le d r : 0 <= r -> (d * d <= r * r <-> - r <= d /\ d <= r).
Proof. intros. split; [intros; split; qnra | intros [? ?]; qnra]. Qed.

Lemma conv_lt a d c t : 0 <= t -> t <= 1 -> a < c -> a + d < c -> a + t * d < c.
Proof. intros. destruct (qleb_spec d 0); qnra. Qed.
Lemma conv_gt a d c t : 0 <= t -> t <= 1 -> c < a -> c < a + d -> c < a + t * d.
Proof. intros. destruct (qleb_spec d 0); qnra. Qed.

Lemma seg_iff (lx ly ux uy x0 y0 x1 y1 : Qc) : lx <= ux -> ly <= uy ->
  let dx := x1 - x0 in let dy := y1 - y0 in
  (exists t, 0 <= t /\ t <= 1 /\ lx <= x0 + t * dx /\ x0 + t * dx <= ux /\
                                 ly <= y0 + t * dy /\ y0 + t * dy <= uy) <->
  ~ (x0 < lx /\ x1 < lx) /\ ~ (y0 < ly /\ y1 < ly) /\ ~ (ux < x0 /\ ux < x1) /\ ~ (uy < y0 /\ uy < y1) /\
  let d := dy * (qq 1 2 * (lx + ux)) - dx * (qq 1 2 * (ly + uy)) - (dy * x0 - dx * y0) in
  let r := qabs dy * (qq 1 2 * (ux - lx)) + qabs dx * (qq 1 2 * (uy - ly)) in
  - r <= d /\ d <= r.
Proof.
  intros Hx Hy dx dy. split.
  - intros (t & T0 & T1 & A & B & C & D).
    assert (X : x1 = x0 + dx) by (unfold dx; ring). assert (Y : y1 = y0 + dy) by (unfold dy; ring).
    clearbody dx dy. subst x1 y1.
    split; [intros [U V]; pose proof (conv_lt _ _ _ t T0 T1 U V); qlra|].
    split; [intros [U V]; pose proof (conv_lt _ _ _ t T0 T1 U V); qlra|].
    split; [intros [U V]; pose proof (conv_gt _ _ _ t T0 T1 U V); qlra|].
    split; [intros [U V]; pose proof (conv_gt _ _ _ t T0 T1 U V); qlra|].
    cbv zeta.
    set (px := x0 + t * dx) in *. set (py := y0 + t * dy) in *.
    assert (E : dy * x0 - dx * y0 = dy * px - dx * py) by (unfold px, py; ring).
    rewrite E. clearbody px py.
    destruct (qabs_cases dx) as [[P1 ->]|[P1 ->]], (qabs_cases dy) as [[P2 ->]|[P2 ->]]; split; qnra.
  - cbv zeta. intros (R1 & R2 & R3 & R4 & S1 & S2).
    assert (X : x1 = x0 + dx) by (unfold dx; ring). assert (Y : y1 = y0 + dy) by (unfold dy; ring).
    clearbody dx dy. subst x1 y1.
    assert (R1' : lx <= x0 \/ lx <= x0 + dx).
    { destruct (qleb_spec lx x0); auto. right. destruct (qleb_spec lx (x0 + dx)); auto. elim R1; split; qlra. }
    assert (R2' : ly <= y0 \/ ly <= y0 + dy).
    { destruct (qleb_spec ly y0); auto. right. destruct (qleb_spec ly (y0 + dy)); auto. elim R2; split; qlra. }
    assert (R3' : x0 <= ux \/ x0 + dx <= ux).
    { destruct (qleb_spec x0 ux); auto. right. destruct (qleb_spec (x0 + dx) ux); auto. elim R3; split; qlra. }
    assert (R4' : y0 <= uy \/ y0 + dy <= uy).
    { destruct (qleb_spec y0 uy); auto. right. destruct (qleb_spec (y0 + dy) uy); auto. elim R4; split; qlra. }
    clear R1 R2 R3 R4.
    destruct (qeqb_spec dx 0) as [->|Dx], (qeqb_spec dy 0) as [->|Dy].
    + exists 0. repeat split; try qlra; destruct R1', R2', R3', R4'; qlra.
    + destruct (slab y0 dy ly uy Dy Hy) as (a & b & Hab & Ht & Hs).
      assert (x0 <= ux /\ lx <= x0) as [? ?].
      { destruct (qabs_cases dy) as [[P1 Q1]|[P1 Q1]]; rewrite Q1 in *;
        replace (qabs 0) with 0 in * by reflexivity; split; destruct R1', R3'; qlra. }
      assert (a <= 1 /\ 0 <= b) as [? ?].
      { destruct Hs as [(D1 & D2 & D3)|(D1 & D2 & D3)]; split; destruct R2', R4'; qnra. }
      exists (qmax a 0). assert (a <= qmax a 0 /\ qmax a 0 <= b /\ 0 <= qmax a 0 /\ qmax a 0 <= 1) as (U1 & U2 & U3 & U4).
      { unfold qmax. qcase1; repeat split; qlra. }
      destruct (proj2 (Ht (qmax a 0)) (conj U1 U2)). repeat split; auto; qlra.
    + destruct (slab x0 dx lx ux Dx Hx) as (a & b & Hab & Ht & Hs).
      assert (y0 <= uy /\ ly <= y0) as [? ?].
      { destruct (qabs_cases dx) as [[P1 Q1]|[P1 Q1]]; rewrite Q1 in *;
        replace (qabs 0) with 0 in * by reflexivity; split; destruct R2', R4'; qlra. }
      assert (a <= 1 /\ 0 <= b) as [? ?].
      { destruct Hs as [(D1 & D2 & D3)|(D1 & D2 & D3)]; split; destruct R1', R3'; qnra. }
      exists (qmax a 0). assert (a <= qmax a 0 /\ qmax a 0 <= b /\ 0 <= qmax a 0 /\ qmax a 0 <= 1) as (U1 & U2 & U3 & U4).
      { unfold qmax. qcase1; repeat split; qlra. }
      destruct (proj2 (Ht (qmax a 0)) (conj U1 U2)). repeat split; auto; qlra.
    + destruct (slab x0 dx lx ux Dx Hx) as (a & b & Hab & Ht & Hs).
      destruct (slab y0 dy ly uy Dy Hy) as (a' & b' & Hab' & Ht' & Hs').
      assert (a <= 1 /\ 0 <= b) as [A1 A2].
      { destruct Hs as [(D1 & D2 & D3)|(D1 & D2 & D3)]; split; destruct R1', R3'; qnra. }
      assert (a' <= 1 /\ 0 <= b') as [A3 A4].
      { destruct Hs' as [(D1 & D2 & D3)|(D1 & D2 & D3)]; split; destruct R2', R4'; qnra. }
      assert (a <= b' /\ a' <= b) as [B1 B2].
      { clear R1' R2' R3' R4' Ht Ht' A1 A2 A3 A4.
        destruct (qabs_cases dx) as [[P1 Q1]|[P1 Q1]], (qabs_cases dy) as [[P2 Q2]|[P2 Q2]];
          rewrite Q1, Q2 in *; clear Q1 Q2;
          destruct Hs as [(D1 & D2 & D3)|(D1 & D2 & D3)]; try (exfalso; qlra);
          destruct Hs' as [(E1 & E2 & E3)|(E1 & E2 & E3)]; try (exfalso; qlra).
        - assert (Pos : 0 < dx * dy) by qnra.
          assert (a * (dx * dy) <= b' * (dx * dy) /\ a' * (dx * dy) <= b * (dx * dy)) as [? ?].
          { replace (a * (dx * dy)) with ((a * dx) * dy) by ring. replace (b' * (dx * dy)) with ((b' * dy) * dx) by ring.
            replace (a' * (dx * dy)) with ((a' * dy) * dx) by ring. replace (b * (dx * dy)) with ((b * dx) * dy) by ring.
            rewrite D2, D3, E2, E3. split; qlra. }
          split; qnra.
        - assert (Pos : dx * dy < 0) by qnra.
          assert (b' * (dx * dy) <= a * (dx * dy) /\ b * (dx * dy) <= a' * (dx * dy)) as [? ?].
          { replace (a * (dx * dy)) with ((a * dx) * dy) by ring. replace (b' * (dx * dy)) with ((b' * dy) * dx) by ring.
            replace (a' * (dx * dy)) with ((a' * dy) * dx) by ring. replace (b * (dx * dy)) with ((b * dx) * dy) by ring.
            rewrite D2, D3, E2, E3. split; qlra. }
          split; qnra.
        - assert (Pos : dx * dy < 0) by qnra.
          assert (b' * (dx * dy) <= a * (dx * dy) /\ b * (dx * dy) <= a' * (dx * dy)) as [? ?].
          { replace (a * (dx * dy)) with ((a * dx) * dy) by ring. replace (b' * (dx * dy)) with ((b' * dy) * dx) by ring.
            replace (a' * (dx * dy)) with ((a' * dy) * dx) by ring. replace (b * (dx * dy)) with ((b * dx) * dy) by ring.
            rewrite D2, D3, E2, E3. split; qlra. }
          split; qnra.
        - assert (Pos : 0 < dx * dy) by qnra.
          assert (a * (dx * dy) <= b' * (dx * dy) /\ a' * (dx * dy) <= b * (dx * dy)) as [? ?].
          { replace (a * (dx * dy)) with ((a * dx) * dy) by ring. replace (b' * (dx * dy)) with ((b' * dy) * dx) by ring.
            replace (a' * (dx * dy)) with ((a' * dy) * dx) by ring. replace (b * (dx * dy)) with ((b * dx) * dy) by ring.
            rewrite D2, D3, E2, E3. split; qlra. }
          split; qnra. }
      destruct (helly3 0 1 a b a' b') as (t & [T1 T2] & T3 & T4); auto; try qlra.
      apply Ht in T3. apply Ht' in T4. exists t. tauto.
Qed.

Lemma bool_eq_iff (b : bool) (P : Prop) : (b = true <-> P) -> forall c, (c = true <-> P) -> b = c.
Proof. destruct b, c; intuition congruence. Qed.

Theorem aabb_intersects_segment_exact : forall (l u : point) (s : segment),
  fst l <= fst u -> snd l <= snd u ->
  (intersects_segment (AABB (Some l) (Some u)) s = true <-> exists p, in_box l u p /\ on_seg s p).
Proof.
  intros [lx ly] [ux uy] [[x0 y0] [x1 y1]] Hx Hy. simpl in Hx, Hy.
  assert (S := seg_iff lx ly ux uy x0 y0 x1 y1 Hx Hy). cbv zeta in S.
  transitivity (exists t, 0 <= t /\ t <= 1 /\ lx <= x0 + t * (x1 - x0) /\ x0 + t * (x1 - x0) <= ux /\
                       ly <= y0 + t * (y1 - y0) /\ y0 + t * (y1 - y0) <= uy).
  - rewrite S. clear S.
    unfold intersects_segment. cbn [AABB nv fst snd lower upper middle update_middle n_lt n_add n_half n2 n_sub n_mul n_abs n_le].
    rewrite <- sq_le.
    2: { destruct (qabs_cases (x1 - x0)) as [[P1 ->]|[P1 ->]], (qabs_cases (y1 - y0)) as [[P2 ->]|[P2 ->]]; qnra. }
    assert (L : forall a b, qltb a b = true <-> a < b) by apply qltb_lt.
    destruct ((qltb x0 lx && qltb x1 lx) || (qltb y0 ly && qltb y1 ly)) eqn:E1.
    { split; [discriminate|]. intros (N1 & N2 & _). apply orb_true_iff in E1.
      rewrite !andb_true_iff, !L in E1. tauto. }
    destruct ((qltb ux x0 && qltb ux x1) || (qltb uy y0 && qltb uy y1)) eqn:E2.
    { split; [discriminate|]. intros (_ & _ & N1 & N2 & _). apply orb_true_iff in E2.
      rewrite !andb_true_iff, !L in E2. tauto. }
    assert (F : forall a b, ~ (a = true /\ b = true) <-> a && b = false).
    { intros [] []; simpl; intuition congruence. }
    rewrite !orb_false_iff, <- !F, !L in E1, E2. rewrite qleb_le.
    assert (Q : forall P : Prop, (P <-> ~ (x0 < lx /\ x1 < lx) /\ ~ (y0 < ly /\ y1 < ly) /\ ~ (ux < x0 /\ ux < x1) /\ ~ (uy < y0 /\ uy < y1) /\ P)) by (intros; tauto).
    rewrite <- Q. clear Q E1 E2.
    rewrite !qdiv_half.
    assert (A : qabs ((x1 - x0) * (- (1))) = qabs (x1 - x0)).
    { destruct (qabs_cases (x1 - x0)) as [[P1 ->]|[P1 ->]], (qabs_cases ((x1 - x0) * -(1))) as [[P2 ->]|[P2 ->]]; try qlra. }
    rewrite A.
    match goal with |- ?a <= ?b <-> ?c <= ?d => assert (a = c) as -> by ring; assert (b = d) as ->; [|reflexivity] end.
    assert (H2 : qq 1 2 * (lx + ux) = ux - qq 1 2 * (ux - lx)) by qlra.
    assert (H3 : qq 1 2 * (ly + uy) = uy - qq 1 2 * (uy - ly)) by qlra.
    rewrite H2, H3. ring.
  - unfold in_box, on_seg, at_t, vadd, vscale, vsub. simpl. split.
    + intros (t & T0 & T1 & A & B & C & D). exists (x0 + t * (x1 - x0), y0 + t * (y1 - y0)). simpl.
      repeat split; auto. exists t. auto.
    + intros (p & (A & B & C & D) & t & T0 & T1 & ->). simpl in *. exists t. tauto.
Qed.
Print Assumptions aabb_intersects_segment_exact.

Theorem aabb_intersects_aabb_exact : forall l u l' u' : point,
  fst l <= fst u -> snd l <= snd u -> fst l' <= fst u' -> snd l' <= snd u' ->
  (intersects_aabb (AABB (Some l) (Some u)) (AABB (Some l') (Some u')) = true <->
   exists p, in_box l u p /\ in_box l' u' p).
Proof.
  intros [lx ly] [ux uy] [lx' ly'] [ux' uy'] H1 H2 H3 H4. unfold intersects_aabb, in_box. simpl in *.
  rewrite !andb_true_iff, !qleb_le. split.
  - intros [[? ?] [? ?]]. exists (qmax lx lx', qmax ly ly'). simpl. unfold qmax. repeat qcase1; repeat split; qlra.
  - intros (p & ? & ?). repeat split; qlra || (decompose [and] H; decompose [and] H0; qlra).
Qed.
Print Assumptions aabb_intersects_aabb_exact.

Theorem aabb_empty_intersects_nothing : forall s b p,
  intersects_segment (AABB None None) s = false /\
  intersects_aabb (AABB None None) b = false /\ intersects_aabb b (AABB None None) = false /\
  contains (AABB None None) p = false.
Proof.
  intros s b p. unfold intersects_segment, intersects_aabb, contains. simpl.
  assert (N : forall a, n_lt a None = false) by (intros []; reflexivity).
  assert (N' : forall a, n_le a None = false) by (intros []; reflexivity).
  rewrite ?N, ?N'. simpl. rewrite ?N, ?N', ?andb_false_r. repeat split.
Qed.
Print Assumptions aabb_empty_intersects_nothing.
Example aabb_intersects_ex :
  let b := AABB (Some (zq 0, zq 0)) (Some (zq 2, zq 1)) in
  intersects_segment b ((zq (-1), zq 0), (zq 1, zq 3)) = false /\
  intersects_segment b ((zq (-1), zq 0), (zq 3, zq 2)) = true /\
  intersects_segment b ((zq 1, qq 1 2), (zq 1, qq 1 2)) = true.
Proof. vm_compute. auto. Qed.
