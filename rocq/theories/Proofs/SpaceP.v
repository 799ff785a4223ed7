(** * Linear algebra of two crossing sheets. *)
From Verif.Spec Require Import Plane Fingers Space.
From Verif.Model Require Import Frames.
From Verif.Proofs Require Import PyP WindingR CoverP FingerP.
From Verif.Props Require Import JointProps.
From Coq Require Import String.
Open Scope Qc_scope.

Ltac v3 := unfold dot3, cross3, scale3, add3; cbn [vx vy vz].
Lemma dot3_sym a b : dot3 a b = dot3 b a.
Proof. v3; ring. Qed.
Lemma dot3_add a b c : dot3 a (add3 b c) = dot3 a b + dot3 a c.
Proof. v3; ring. Qed.
Lemma dot3_scale a k b : dot3 a (scale3 k b) = k * dot3 a b.
Proof. v3; ring. Qed.
Lemma dot3_add_l a b c : dot3 (add3 b c) a = dot3 b a + dot3 c a.
Proof. v3; ring. Qed.
Lemma dot3_scale_l a k b : dot3 (scale3 k b) a = k * dot3 b a.
Proof. v3; ring. Qed.
Lemma cross3_l a b : dot3 a (cross3 a b) = 0.
Proof. v3; ring. Qed.
Lemma cross3_r a b : dot3 b (cross3 a b) = 0.
Proof. v3; ring. Qed.
Lemma vec3_ext a b : vx a = vx b -> vy a = vy b -> vz a = vz b -> a = b.
Proof. destruct a, b; cbn; intros -> -> ->; reflexivity. Qed.
(** Cramer *)
Lemma cramer a b c u v : dot3 c (cross3 a b) * dot3 u v = dot3 a u * dot3 (cross3 b c) v + dot3 b u * dot3 (cross3 c a) v + dot3 c u * dot3 (cross3 a b) v.
Proof. v3; ring. Qed.
Lemma gram a b : dot3 (cross3 a b) (cross3 a b) = dot3 a a * dot3 b b - dot3 a b * dot3 a b.
Proof. v3; ring. Qed.
Lemma lagrange a b x d : dot3 a x * dot3 b d - dot3 b x * dot3 a d = dot3 (cross3 a b) (cross3 x d).
Proof. v3; ring. Qed.
Lemma triple a b c : dot3 a (cross3 b c) = dot3 b (cross3 c a).
Proof. v3; ring. Qed.
Lemma ortho_gram a b c : orthonormal a b c -> dot3 c (cross3 a b) * dot3 c (cross3 a b) = 1.
Proof.
  intros (A & B & C & AB & AC & BC).
  assert (E : dot3 c (cross3 a b) * dot3 c (cross3 a b) = dot3 a a * (dot3 b b * dot3 c c - dot3 b c * dot3 b c) - dot3 a b * (dot3 a b * dot3 c c - dot3 b c * dot3 a c) + dot3 a c * (dot3 a b * dot3 b c - dot3 b b * dot3 a c)) by (v3; ring).
  rewrite E, A, B, C, AB, AC, BC. ring.
Qed.
Lemma ortho_cross a b c v : orthonormal a b c -> let D := dot3 c (cross3 a b) in
  dot3 (cross3 a b) v = D * dot3 c v /\ dot3 (cross3 b c) v = D * dot3 a v /\ dot3 (cross3 c a) v = D * dot3 b v.
Proof.
  intros (A & B & C & AB & AC & BC) D. unfold D. rewrite !(cramer a b c). rewrite (dot3_sym b a), (dot3_sym c a), (dot3_sym c b), A, B, C, AB, AC, BC. repeat split; ring.
Qed.
Lemma parseval a b c u v : orthonormal a b c -> dot3 u v = dot3 a u * dot3 a v + dot3 b u * dot3 b v + dot3 c u * dot3 c v.
Proof.
  intros O. pose proof (ortho_gram a b c O) as DD. pose proof (cramer a b c u v) as CR. destruct (ortho_cross a b c v O) as (E1 & E2 & E3). rewrite E1, E2, E3 in CR. set (D := dot3 c (cross3 a b)) in *.
  transitivity (D * D * dot3 u v); [rewrite DD; ring|]. rewrite <- Qcmult_assoc, CR. transitivity (D * D * (dot3 a u * dot3 a v + dot3 b u * dot3 b v + dot3 c u * dot3 c v)); [ring|rewrite DD; ring].
Qed.
Lemma ortho_zero a b c u : orthonormal a b c -> dot3 a u = 0 -> dot3 b u = 0 -> dot3 c u = 0 -> u = V3 0 0 0.
Proof.
  intros O E1 E2 E3. assert (K : forall v, dot3 u v = 0) by (intros v; rewrite (parseval a b c u v O), E1, E2, E3; ring).
  apply vec3_ext; cbn [vx vy vz]; [specialize (K (V3 1 0 0))|specialize (K (V3 0 1 0))|specialize (K (V3 0 0 1))]; revert K; v3; intros K; rewrite <- K; ring.
Qed.

(** ** plates *)
Section Plate.
Variable pl : plate.
Hypothesis PO : plate_ok pl.
Let e1 := v4 (row0 (pl_inverse pl)).
Let e2 := v4 (row1 (pl_inverse pl)).
Let n := pl_normal pl false.
Lemma plate_ortho : orthonormal e1 e2 n.
Proof. destruct PO as (O & E & _). unfold n. rewrite <- E. exact O. Qed.
Lemma plate_unit : dot3 n n = 1.
Proof. apply plate_ortho. Qed.
Lemma footprint_eq x : footprint pl x = (dot3 e1 x, dot3 e2 x).
Proof.
  destruct PO as (_ & _ & W0 & W1 & R3 & _). unfold footprint, project_point4. rewrite R3.
  assert (E : dot4 (V4 (V3 0 0 0) 1) (V4 x 1) = 1) by (unfold dot4; cbn [v4 vw]; v3; ring). rewrite E. destruct (qeqb_spec 1 0) as [X|_]; [discriminate X|].
  cbn [fst snd]. unfold dot4. cbn [v4 vw]. rewrite W0, W1. unfold Qcdiv. fold e1 e2. replace (/ 1) with 1 by (apply Qc_is_canon; reflexivity). f_equal; ring.
Qed.
Lemma project_dir x : project_point4 pl (V4 x 0) = (dot3 e1 x, dot3 e2 x).
Proof.
  destruct PO as (_ & _ & W0 & W1 & R3 & _). unfold project_point4. rewrite R3.
  assert (E : dot4 (V4 (V3 0 0 0) 1) (V4 x 0) = 0) by (unfold dot4; cbn [v4 vw]; v3; ring). rewrite E. destruct (qeqb_spec 0 0) as [_|X]; [|congruence].
  unfold dot4. cbn [v4 vw]. fold e1 e2. f_equal; ring.
Qed.
(** the height of a face, measured along the normal *)
Definition face_at (t : bool) : Qc := if t then - pl_offset pl true else pl_offset pl false.
Lemma faces_apart : face_at true < face_at false.
Proof. destruct PO as (_ & _ & _ & _ & _ & _ & T). unfold face_at. qlra. Qed.
Lemma slab_iff x : in_slab pl x <-> face_at true <= dot3 n x /\ dot3 n x <= face_at false.
Proof.
  destruct PO as (_ & _ & _ & _ & _ & N & _). unfold in_slab, face_at. rewrite N. fold n. rewrite dot3_scale_l. split; intros (A & B); split; qlra.
Qed.
Lemma inside_slab_iff x : inside_slab pl x <-> face_at true < dot3 n x /\ dot3 n x < face_at false.
Proof.
  destruct PO as (_ & _ & _ & _ & _ & N & _). unfold inside_slab, face_at. rewrite N. fold n. rewrite dot3_scale_l. split; intros (A & B); split; qlra.
Qed.
End Plate.

(** ** a linear function on a rectangle *)
Lemma rect_range A B l1 h1 l2 h2 m M (a b : Qc) : l1 <= a -> a <= h1 -> l2 <= b -> b <= h2 ->
  (forall x y, (x = l1 \/ x = h1) -> (y = l2 \/ y = h2) -> m <= A * x + B * y /\ A * x + B * y <= M) -> m <= A * a + B * b /\ A * a + B * b <= M.
Proof.
  intros L1 H1 L2 H2 C.
  assert (KA : exists x y, (x = l1 \/ x = h1) /\ (y = l1 \/ y = h1) /\ A * x <= A * a /\ A * a <= A * y).
  { destruct (qleb_spec 0 A) as [P|P]; [exists l1, h1|exists h1, l1]; split; auto; split; auto.
    - assert (0 <= A * (a - l1)) by (apply mnn; qlra). assert (0 <= A * (h1 - a)) by (apply mnn; qlra). split; qlra.
    - assert (0 <= - A * (a - l1)) by (apply mnn; qlra). assert (0 <= - A * (h1 - a)) by (apply mnn; qlra). split; qlra. }
  assert (KB : exists x y, (x = l2 \/ x = h2) /\ (y = l2 \/ y = h2) /\ B * x <= B * b /\ B * b <= B * y).
  { destruct (qleb_spec 0 B) as [P|P]; [exists l2, h2|exists h2, l2]; split; auto; split; auto.
    - assert (0 <= B * (b - l2)) by (apply mnn; qlra). assert (0 <= B * (h2 - b)) by (apply mnn; qlra). split; qlra.
    - assert (0 <= - B * (b - l2)) by (apply mnn; qlra). assert (0 <= - B * (h2 - b)) by (apply mnn; qlra). split; qlra. }
  destruct KA as (x & x' & X & X' & XL & XH), KB as (y & y' & Y & Y' & YL & YH). destruct (C x y X Y) as (C1 & _), (C x' y' X' Y') as (_ & C2). clear -XL XH YL YH C1 C2. split; qlra.
Qed.
Lemma rect_inside A B l1 h1 l2 h2 m M (a b : Qc) : B <> 0 -> l1 <= a -> a <= h1 -> l2 < b -> b < h2 ->
  (forall x y, (x = l1 \/ x = h1) -> (y = l2 \/ y = h2) -> m <= A * x + B * y /\ A * x + B * y <= M) -> m < A * a + B * b /\ A * a + B * b < M.
Proof.
  intros NB L1 H1 L2 H2 C. pose proof (rect_range A B l1 h1 l2 h2 m M a l2 L1 H1 ltac:(qlra) ltac:(qlra) C) as (P1 & P2). pose proof (rect_range A B l1 h1 l2 h2 m M a h2 L1 H1 ltac:(qlra) ltac:(qlra) C) as (P3 & P4).
  clear C. destruct (qc_not_eq _ _ NB) as [N|N].
  - assert (0 < - B * (b - l2)) by (apply mpp; qlra). assert (0 < - B * (h2 - b)) by (apply mpp; qlra). split; qlra.
  - assert (0 < B * (b - l2)) by (apply mpp; qlra). assert (0 < B * (h2 - b)) by (apply mpp; qlra). split; qlra.
Qed.
(** a value strictly between the extreme values at the corners is taken inside *)
Lemma corner_onto A B l1 h1 l2 h2 (x y v : Qc) : l1 < h1 -> l2 < h2 -> (x = l1 \/ x = h1) -> (y = l2 \/ y = h2) ->
  (let c := A * ((l1 + h1) * qq 1 2) + B * ((l2 + h2) * qq 1 2) in let f := A * x + B * y in (f < v /\ v <= c) \/ (c <= v /\ v < f)) ->
  exists a b, l1 < a /\ a < h1 /\ l2 < b /\ b < h2 /\ A * a + B * b = v.
Proof.
  intros LH1 LH2 X Y H. cbv zeta in H. set (a0 := (l1 + h1) * qq 1 2) in *. set (b0 := (l2 + h2) * qq 1 2) in *.
  assert (HF : qq 1 2 + qq 1 2 = 1) by (apply Qc_is_canon; reflexivity).
  assert (EA : a0 + a0 = l1 + h1) by (unfold a0; transitivity ((l1 + h1) * (qq 1 2 + qq 1 2)); [ring|rewrite HF; ring]).
  assert (EB : b0 + b0 = l2 + h2) by (unfold b0; transitivity ((l2 + h2) * (qq 1 2 + qq 1 2)); [ring|rewrite HF; ring]). clearbody a0 b0.
  set (c := A * a0 + B * b0) in *. set (f := A * x + B * y) in *. assert (NZ : c - f <> 0) by (intros Z; destruct H as [(?&?)|(?&?)]; qlra).
  pose proof (qdiv_mul (v - f) (c - f) NZ) as TE. set (t := (v - f) / (c - f)) in *. clearbody t.
  assert (T : 0 < t /\ t <= 1).
  { clear -H TE NZ. set (u := c - f) in *. destruct H as [(H1 & H2)|(H1 & H2)].
    - assert (0 < u) by (unfold u in *; qlra). split; [destruct (qltb_spec 0 t); auto; exfalso; assert (0 <= - t * u) by (apply mnn; qlra); qlra|destruct (qleb_spec t 1); auto; exfalso; assert (0 < (t - 1) * u) by (apply mpp; qlra); unfold u in *; qlra].
    - assert (0 < - u) by (unfold u in *; qlra). split; [destruct (qltb_spec 0 t); auto; exfalso; assert (0 <= - t * - u) by (apply mnn; qlra); qlra|destruct (qleb_spec t 1); auto; exfalso; assert (0 < (t - 1) * - u) by (apply mpp; qlra); unfold u in *; qlra]. }
  destruct T as (T0 & T1). exists (x + t * (a0 - x)), (y + t * (b0 - y)).
  assert (K : forall l h z c0, l < h -> (z = l \/ z = h) -> c0 + c0 = l + h -> l < z + t * (c0 - z) /\ z + t * (c0 - z) < h).
  { clear -T0 T1. intros l h z c0 LH [->| ->] E.
    - assert (0 < t * (c0 - l)) by (apply mpp; qlra). assert (0 <= (1 - t) * (c0 - l)) by (apply mnn; qlra). split; qlra.
    - assert (0 < t * (h - c0)) by (apply mpp; qlra). assert (0 <= (1 - t) * (h - c0)) by (apply mnn; qlra). split; qlra. }
  destruct (K l1 h1 x a0 LH1 X EA) as (K1 & K2), (K l2 h2 y b0 LH2 Y EB) as (K3 & K4). repeat (split; [assumption|]).
  transitivity (f + t * (c - f)); [unfold f, c; ring|]. rewrite TE. ring.
Qed.
Lemma rect_onto A B l1 h1 l2 h2 m M v : l1 < h1 -> l2 < h2 -> (exists x y, (x = l1 \/ x = h1) /\ (y = l2 \/ y = h2) /\ m = A * x + B * y) -> (exists x y, (x = l1 \/ x = h1) /\ (y = l2 \/ y = h2) /\ M = A * x + B * y) ->
  m < v -> v < M -> exists a b, l1 < a /\ a < h1 /\ l2 < b /\ b < h2 /\ A * a + B * b = v.
Proof.
  intros LH1 LH2 (x & y & X & Y & Em) (x' & y' & X' & Y' & EM) Lm LM. set (c := A * ((l1 + h1) * qq 1 2) + B * ((l2 + h2) * qq 1 2)). destruct (qleb_spec v c) as [L|L].
  - apply (corner_onto A B l1 h1 l2 h2 x y v LH1 LH2 X Y). left. fold c. rewrite <- Em. auto.
  - apply (corner_onto A B l1 h1 l2 h2 x' y' v LH1 LH2 X' Y'). right. fold c. rewrite <- EM. split; auto. qlra.
Qed.

(** ** one side of a joint: a sheet with normal [n], the other sheet with normal [m] and heights [l2], [h2] *)
Section Side.
Variable pl : plate.
Hypothesis PO : plate_ok pl.
Variable m d : vec3.
Variable k : Qc.
Let n := pl_normal pl false.
Hypothesis MU : dot3 m m = 1.
Hypothesis DE : d = scale3 k (cross3 n m).
Hypothesis DU : dot3 d d = 1.
Variable s : interside.
Variable os : list vec3.
Hypothesis SD : is_dir s = project_point4 pl (V4 d 0).
Hypothesis SN : is_normal s = (snd (is_dir s), - fst (is_dir s)).
Variable o : vec3.
Hypothesis SO : is_offs s = Geom2d.dot (is_dir s) (footprint pl o).
Hypothesis OD : dot3 d o = 0.
Let e1 := v4 (row0 (pl_inverse pl)).
Let e2 := v4 (row1 (pl_inverse pl)).
(** which way round the sheet's axes are: 1 or -1 *)
Definition hand : Qc := dot3 (pl_normal pl false) (cross3 (v4 (row0 (pl_inverse pl))) (v4 (row1 (pl_inverse pl)))).
Lemma nd0 : dot3 n d = 0.
Proof. rewrite DE, dot3_scale, cross3_l. ring. Qed.
Lemma dir_unit : Geom2d.dot (is_dir s) (is_dir s) = 1.
Proof.
  rewrite SD, (project_dir pl PO). unfold Geom2d.dot. cbn [fst snd]. rewrite <- DU, (parseval _ _ _ d d (plate_ortho pl PO)). fold n. rewrite nd0. ring.
Qed.
Lemma normal_unit : Geom2d.dot (is_normal s) (is_normal s) = 1.
Proof. rewrite <- dir_unit, SN. unfold Geom2d.dot. cbn [fst snd]. ring. Qed.
Lemma side_frame_ok : frame_ok s.
Proof. split; auto. intros E. pose proof dir_unit as U. rewrite E in U. discriminate U. Qed.
Lemma along_space x : along s (footprint pl x) = dot3 d x.
Proof.
  unfold along. rewrite dir_unit. unfold Qcdiv. replace (/ 1) with 1 by (apply Qc_is_canon; reflexivity). rewrite SO, SD, (project_dir pl PO), !(footprint_eq pl PO). unfold Geom2d.dot. cbn [fst snd].
  pose proof (parseval _ _ _ d x (plate_ortho pl PO)) as P1. pose proof (parseval _ _ _ d o (plate_ortho pl PO)) as P2. rewrite OD in P2. fold n in P1, P2. rewrite nd0 in P1, P2. fold e1 e2 in P1, P2. fold e1 e2.
  rewrite P1. transitivity (dot3 e1 x * dot3 e1 d + dot3 e2 x * dot3 e2 d - 0); [|ring]. rewrite P2. ring.
Qed.
Lemma across_space x : across s (footprint pl x) = - (hand * k * dot3 n m) * dot3 n x + hand * k * dot3 m x.
Proof.
  unfold across. rewrite normal_unit. unfold Qcdiv. replace (/ 1) with 1 by (apply Qc_is_canon; reflexivity). rewrite SN, SD, (project_dir pl PO), (footprint_eq pl PO). unfold Geom2d.dot. cbn [fst snd]. fold e1 e2.
  transitivity (dot3 e1 x * dot3 e2 d - dot3 e2 x * dot3 e1 d); [ring|]. rewrite lagrange. rewrite (proj1 (ortho_cross e1 e2 n _ (plate_ortho pl PO))). fold hand. change (dot3 n (cross3 e1 e2)) with hand. rewrite DE.
  assert (E : dot3 n (cross3 x (scale3 k (cross3 n m))) = k * (dot3 n n * dot3 m x - dot3 n m * dot3 n x)) by (v3; ring). rewrite E, (plate_unit pl PO : dot3 n n = 1). ring.
Qed.
Lemma hand_sq : hand * hand = 1.
Proof. exact (ortho_gram _ _ _ (plate_ortho pl PO)). Qed.
Lemma k_nz : k <> 0.
Proof. intros E. rewrite DE, E, dot3_scale, dot3_scale_l in DU. assert (Z : (0 : Qc) = 1) by (rewrite <- DU; ring). discriminate Z. Qed.
Lemma coef_nz : hand * k <> 0.
Proof. intros E. apply Qcmult_integral in E as [E|E]; [pose proof hand_sq as H; rewrite E in H; discriminate H|exact (k_nz E)]. Qed.
End Side.

(** ** the point closest to the origin *)
Lemma lstsq2_solves a b c d : dot3 a a * dot3 b b - dot3 a b * dot3 a b <> 0 -> dot3 a (lstsq2 a b c d) = c /\ dot3 b (lstsq2 a b c d) = d.
Proof.
  intros G. unfold lstsq2. rewrite !dot3_add, !dot3_scale, (dot3_sym b a). set (g := dot3 a a * dot3 b b - dot3 a b * dot3 a b) in *.
  assert (E : g * / g = 1) by (now apply Qcmult_inv_r). unfold Qcdiv. split.
  - transitivity (c * (g * / g)); [unfold g at 3; ring|rewrite E; ring].
  - transitivity (d * (g * / g)); [unfold g at 3; ring|rewrite E; ring].
Qed.
Lemma lstsq2_perp a b c d v : dot3 v a = 0 -> dot3 v b = 0 -> dot3 v (lstsq2 a b c d) = 0.
Proof. intros A B. unfold lstsq2. rewrite dot3_add, !dot3_scale, A, B. ring. Qed.
Lemma dot3_nneg v : 0 <= dot3 v v.
Proof. unfold dot3. assert (K : forall z : Qc, 0 <= z * z) by (intros z; qnra). pose proof (K (vx v)). pose proof (K (vy v)). pose proof (K (vz v)). qlra. Qed.
(** no solution is closer *)
Lemma lstsq2_closest a b c d y : dot3 a a * dot3 b b - dot3 a b * dot3 a b <> 0 -> dot3 a y = c -> dot3 b y = d -> dot3 (lstsq2 a b c d) (lstsq2 a b c d) <= dot3 y y.
Proof.
  intros G A B. destruct (lstsq2_solves a b c d G) as (A' & B'). set (x := lstsq2 a b c d) in *. set (z := add3 y (scale3 (- (1)) x)).
  assert (ZA : dot3 z a = 0) by (unfold z; rewrite dot3_add_l, dot3_scale_l, !(dot3_sym _ a), A, A'; ring). assert (ZB : dot3 z b = 0) by (unfold z; rewrite dot3_add_l, dot3_scale_l, !(dot3_sym _ b), B, B'; ring).
  pose proof (lstsq2_perp a b c d z ZA ZB) as ZX. fold x in ZX. pose proof (dot3_nneg z) as ZZ.
  assert (E : dot3 y y = dot3 x x + dot3 z z + (1 + 1) * dot3 z x) by (unfold z; v3; ring). rewrite E, ZX. clear -ZZ. generalize dependent (dot3 z z). generalize (dot3 x x). intros. qlra.
Qed.

(** the offsets of a side made from the corners of the crossing *)
Lemma side_offsets pl m d k id sh idx o0 os (fo : bool -> Qc) s :
  s = create_inter_side id sh idx (project_point4 pl (V4 d 0), (footprint pl o0, map (footprint pl) os)) -> plate_ok pl -> d = scale3 k (cross3 (pl_normal pl false) m) -> dot3 d d = 1 ->
  (forall o, In o (o0 :: os) -> exists t u, dot3 (pl_normal pl false) o = face_at pl t /\ dot3 m o = fo u) ->
  (forall t u, exists o, In o (o0 :: os) /\ dot3 (pl_normal pl false) o = face_at pl t /\ dot3 m o = fo u) -> dot3 d o0 = 0 ->
  Geom2d.dot (is_dir s) (is_dir s) = 1 /\ frame_ok s /\ (forall x, along s (footprint pl x) = dot3 d x) /\
  exists A B, B <> 0 /\ (forall x, across s (footprint pl x) = A * dot3 (pl_normal pl false) x + B * dot3 m x) /\
    (forall t u, is_min s <= A * face_at pl t + B * fo u /\ A * face_at pl t + B * fo u <= is_max s) /\
    (exists t u, is_min s = A * face_at pl t + B * fo u) /\ (exists t u, is_max s = A * face_at pl t + B * fo u).
Proof.
  intros Es PO DE DU C1 C2 O0. destruct (inter_side_frame id sh idx (project_point4 pl (V4 d 0)) (footprint pl o0) (map (footprint pl) os)) as (_ & _ & _ & _ & SD & SN & _ & SO & RG & MN & MX).
  rewrite <- Es in *. rewrite <- SD in SN, SO. clear Es.
  assert (DU2 : Geom2d.dot (is_dir s) (is_dir s) = 1) by (apply (dir_unit pl PO m d k DE DU s SD)).
  assert (NU : Geom2d.dot (is_normal s) (is_normal s) = 1) by (apply (normal_unit pl PO m d k DE DU s SD SN)).
  assert (AC : forall x, Geom2d.dot (footprint pl x) (is_normal s) = - (hand pl * k * dot3 (pl_normal pl false) m) * dot3 (pl_normal pl false) x + hand pl * k * dot3 m x).
  { intros x. rewrite <- (across_space pl PO m d k DE DU s SD SN x). unfold across. rewrite NU. unfold Qcdiv. replace (/ 1) with 1 by (apply Qc_is_canon; reflexivity). ring. }
  split; auto. split; [exact (side_frame_ok pl PO m d k DE DU s SD SN)|]. split; [exact (along_space pl PO m d k DE DU s SD o0 SO O0)|].
  set (A := - (hand pl * k * dot3 (pl_normal pl false) m)) in *. set (B := hand pl * k) in *. exists A, B. split; [exact (coef_nz pl PO m d k DE DU)|].
  split; [exact (across_space pl PO m d k DE DU s SD SN)|]. change (footprint pl o0 :: map (footprint pl) os) with (map (footprint pl) (o0 :: os)) in *. split; [|split].
  - intros t u. destruct (C2 t u) as (o & Ho & E1 & E2). specialize (RG _ (in_map (footprint pl) _ _ Ho)). rewrite AC, E1, E2 in RG. exact RG.
  - destruct MN as (p & Hp & E). apply in_map_iff in Hp as (o & <- & Ho). destruct (C1 o Ho) as (t & u & E1 & E2). exists t, u. rewrite E, AC, E1, E2. reflexivity.
  - destruct MX as (p & Hp & E). apply in_map_iff in Hp as (o & <- & Ho). destruct (C1 o Ho) as (t & u & E1 & E2). exists t, u. rewrite E, AC, E1, E2. reflexivity.
Qed.

(** ** two crossing plates *)
Record crossing (p1 p2 : plate) (s1 s2 : interside) (d : vec3) : Prop := {
  cr_dir : dot3 d d = 1 /\ dot3 d (pl_normal p1 false) = 0 /\ dot3 d (pl_normal p2 false) = 0;
  cr_unit1 : Geom2d.dot (is_dir s1) (is_dir s1) = 1;
  cr_unit2 : Geom2d.dot (is_dir s2) (is_dir s2) = 1;
  cr_frame1 : frame_ok s1;
  cr_frame2 : frame_ok s2;
  cr_along1 : forall x, along s1 (footprint p1 x) = dot3 d x;
  cr_along2 : forall x, along s2 (footprint p2 x) = dot3 d x;
  cr_band1 : exists A B, B <> 0 /\ (forall x, across s1 (footprint p1 x) = A * dot3 (pl_normal p1 false) x + B * dot3 (pl_normal p2 false) x) /\
    (forall t1 t2, is_min s1 <= A * face_at p1 t1 + B * face_at p2 t2 /\ A * face_at p1 t1 + B * face_at p2 t2 <= is_max s1) /\
    (exists t1 t2, is_min s1 = A * face_at p1 t1 + B * face_at p2 t2) /\ (exists t1 t2, is_max s1 = A * face_at p1 t1 + B * face_at p2 t2);
  cr_band2 : exists A B, B <> 0 /\ (forall x, across s2 (footprint p2 x) = A * dot3 (pl_normal p2 false) x + B * dot3 (pl_normal p1 false) x) /\
    (forall t2 t1, is_min s2 <= A * face_at p2 t2 + B * face_at p1 t1 /\ A * face_at p2 t2 + B * face_at p1 t1 <= is_max s2) /\
    (exists t2 t1, is_min s2 = A * face_at p2 t2 + B * face_at p1 t1) /\ (exists t2 t1, is_max s2 = A * face_at p2 t2 + B * face_at p1 t1);
  cr_point : forall y a b, exists x, dot3 d x = y /\ dot3 (pl_normal p1 false) x = a /\ dot3 (pl_normal p2 false) x = b }.
Lemma crossing_sym p1 p2 s1 s2 d : crossing p1 p2 s1 s2 d -> crossing p2 p1 s2 s1 d.
Proof.
  intros [D U1 U2 F1 F2 A1 A2 B1 B2 P]. constructor; auto; [intuition|]. intros y a b. destruct (P y b a) as (x & E1 & E2 & E3). eauto.
Qed.
Lemma plates_cross norm p1 p2 f1 f2 id i1 i2 : plate_ok p1 -> plate_ok p2 -> norm_of norm (cross3 (pl_normal p1 false) (pl_normal p2 false)) ->
  inter_frames norm p1 p2 = Ok (Some (f1, f2)) ->
  exists d, inter_direction norm p1 p2 = Some d /\ crossing p1 p2 (create_inter_side id i1 0 f1) (create_inter_side id i2 1 f2) d.
Proof.
  intros P1 P2 (N0 & NN) H. unfold inter_frames in H. destruct (inter_direction norm p1 p2) as [d|] eqn:ED; [|discriminate H].
  unfold inter_direction in ED. set (n1 := pl_normal p1 false) in *. set (n2 := pl_normal p2 false) in *. set (c := cross3 n1 n2) in *. destruct (qltb_spec (norm c) (qq 1 10000)) as [|L]; [discriminate ED|].
  apply some_inv in ED. subst d. set (ilen := norm c) in *. assert (IP : 0 < ilen). { assert (0 < qq 1 10000) by (vm_compute; reflexivity). qlra. }
  assert (INZ : ilen <> 0) by (intros E; rewrite E in IP; qlra). assert (II : / ilen * ilen = 1) by (rewrite Qcmult_comm; now apply Qcmult_inv_r).
  pose proof (plate_unit p1 P1) as U1. fold n1 in U1. pose proof (plate_unit p2 P2) as U2. fold n2 in U2.
  assert (G : dot3 n1 n1 * dot3 n2 n2 - dot3 n1 n2 * dot3 n1 n2 <> 0).
  { rewrite <- gram. fold c. rewrite <- NN. intros E. apply Qcmult_integral in E as [E|E]; auto. }
  set (d := scale3 (/ ilen) c) in *. assert (DU : dot3 d d = 1).
  { unfold d. rewrite dot3_scale, dot3_scale_l, <- NN. transitivity ((/ ilen * ilen) * (/ ilen * ilen)); [ring|rewrite II; ring]. }
  assert (D1 : dot3 d n1 = 0) by (unfold d; rewrite dot3_scale_l, dot3_sym; unfold c; rewrite cross3_l; ring).
  assert (D2 : dot3 d n2 = 0) by (unfold d; rewrite dot3_scale_l, dot3_sym; unfold c; rewrite cross3_r; ring).
  pose proof P1 as (_ & _ & _ & _ & _ & M1 & _). pose proof P2 as (_ & _ & _ & _ & _ & M2 & _). fold n1 in M1. fold n2 in M2.
  assert (CO : forall t1 t2, let o := corner_origin p1 p2 t1 t2 in dot3 d o = 0 /\ dot3 n1 o = face_at p1 t1 /\ dot3 n2 o = face_at p2 t2).
  { intros t1 t2. cbv zeta. unfold corner_origin. assert (NN1 : pl_normal p1 t1 = n1 \/ pl_normal p1 t1 = scale3 (- (1)) n1) by (destruct t1; auto). assert (NN2 : pl_normal p2 t2 = n2 \/ pl_normal p2 t2 = scale3 (- (1)) n2) by (destruct t2; auto).
    set (a := pl_normal p1 t1). set (b := pl_normal p2 t2).
    assert (G' : dot3 a a * dot3 b b - dot3 a b * dot3 a b <> 0).
    { unfold a, b. intros E. apply G. rewrite <- E. destruct NN1 as [-> | ->], NN2 as [-> | ->]; rewrite ?dot3_scale, ?dot3_scale_l, ?dot3_scale; ring. }
    destruct (lstsq2_solves a b (pl_offset p1 t1) (pl_offset p2 t2) G') as (S1 & S2). split; [|split].
    - apply lstsq2_perp; unfold a, b; [destruct NN1 as [-> | ->]|destruct NN2 as [-> | ->]]; rewrite ?dot3_scale, ?D1, ?D2; ring.
    - set (o := lstsq2 a b (pl_offset p1 t1) (pl_offset p2 t2)) in *. unfold a in S1. unfold face_at. destruct t1; [rewrite M1, dot3_scale_l in S1; rewrite <- S1; ring|exact S1].
    - set (o := lstsq2 a b (pl_offset p1 t1) (pl_offset p2 t2)) in *. unfold b in S2. unfold face_at. destruct t2; [rewrite M2, dot3_scale_l in S2; rewrite <- S2; ring|exact S2]. }
  apply bind_ok in H as (g1 & H1 & H). apply bind_ok in H as (g2 & H2 & H). apply Ok_inv in H. apply some_inv in H. apply pair_inv in H as (-> & ->).
  unfold corner_origins, side_frame in H1, H2. cbn [flat_map map app] in H1, H2. apply Ok_inv in H1, H2.
  set (o00 := corner_origin p1 p2 false false) in *. set (o01 := corner_origin p1 p2 false true) in *. set (o10 := corner_origin p1 p2 true false) in *. set (o11 := corner_origin p1 p2 true true) in *.
  exists d. split; [reflexivity|].
  assert (IN : forall o, In o [o00; o01; o10; o11] <-> exists t1 t2, o = corner_origin p1 p2 t1 t2).
  { intros o. cbn [In]. split; [intros [<-|[<-|[<-|[<-|[]]]]]; unfold o00, o01, o10, o11; eauto|intros (t1 & t2 & ->); destruct t1, t2; auto]. }
  assert (CL : forall o, In o [o00; o01; o10; o11] -> exists t u, dot3 n1 o = face_at p1 t /\ dot3 n2 o = face_at p2 u).
  { intros o Ho. apply IN in Ho as (t1 & t2 & ->). exists t1, t2. exact (proj2 (CO t1 t2)). }
  assert (CR : forall t u, exists o, In o [o00; o01; o10; o11] /\ dot3 n1 o = face_at p1 t /\ dot3 n2 o = face_at p2 u).
  { intros t u. exists (corner_origin p1 p2 t u). split; [apply IN; exists t, u; reflexivity|exact (proj2 (CO t u))]. }
  pose proof (proj1 (CO false false)) as C0. cbv zeta in C0. fold o00 in C0. clear CO IN. clearbody o00 o01 o10 o11.
  assert (DE2 : d = scale3 (- / ilen) (cross3 n2 n1)) by (unfold d, c; apply vec3_ext; v3; ring).
  assert (DE1 : d = scale3 (/ ilen) (cross3 n1 n2)) by reflexivity. clearbody d.
  assert (ES1 : create_inter_side id i1 0 f1 = create_inter_side id i1 0 (project_point4 p1 (V4 d 0), (footprint p1 o00, map (footprint p1) [o01; o10; o11]))) by (rewrite <- H1; reflexivity).
  assert (ES2 : create_inter_side id i2 1 f2 = create_inter_side id i2 1 (project_point4 p2 (V4 d 0), (footprint p2 o00, map (footprint p2) [o01; o10; o11]))) by (rewrite <- H2; reflexivity).
  clear H1 H2. revert ES1 ES2. generalize (create_inter_side id i1 0 f1) as s1, (create_inter_side id i2 1 f2) as s2. intros s1 s2 ES1 ES2.
  destruct (side_offsets p1 n2 d (/ ilen) id i1 0 o00 [o01; o10; o11] (face_at p2) s1 ES1 P1 DE1 DU CL CR C0) as (U1' & F1 & A1 & B1).
  destruct (side_offsets p2 n1 d (- / ilen) id i2 1 o00 [o01; o10; o11] (face_at p1) s2 ES2 P2 DE2 DU) as (U2' & F2 & A2 & B2).
  { intros o Ho. destruct (CL o Ho) as (t & u & E1 & E2). exists u, t. auto. }
  { intros t u. destruct (CR u t) as (o & Ho & E1 & E2). exists o. auto. }
  { exact C0. }
  refine (Build_crossing p1 p2 _ _ d (conj DU (conj D1 D2)) U1' U2' F1 F2 A1 A2 B1 B2 _). clear -G DU D1 D2.
  intros y a b. exists (add3 (scale3 y d) (lstsq2 n1 n2 a b)). destruct (lstsq2_solves n1 n2 a b G) as (S1 & S2). fold n1 n2. rewrite !dot3_add, !dot3_scale, DU, S1, S2, (dot3_sym n1), (dot3_sym n2), D1, D2, (lstsq2_perp n1 n2 a b d D1 D2). repeat split; ring.
Qed.

(** the part of the band on the first sheet that is shared with the second sheet *)
Lemma band_strict p1 p2 s1 s2 d : plate_ok p1 -> plate_ok p2 -> crossing p1 p2 s1 s2 d -> forall p,
  (is_min s1 < across s1 p /\ across s1 p < is_max s1) <-> exists x, inside_slab p1 x /\ inside_slab p2 x /\ footprint p1 x = p.
Proof.
  intros P1 P2 CR p. destruct (cr_band1 _ _ _ _ _ CR) as (A & B & NB & AC & RG & (t1 & t2 & MN) & (u1 & u2 & MX)). pose proof (faces_apart p1 P1) as L1. pose proof (faces_apart p2 P2) as L2.
  assert (TT : forall pl t, face_at pl t = face_at pl true \/ face_at pl t = face_at pl false) by (intros pl []; auto). split.
  - intros (Lm & LM). destruct (rect_onto A B (face_at p1 true) (face_at p1 false) (face_at p2 true) (face_at p2 false) (is_min s1) (is_max s1) (across s1 p) L1 L2) as (a & b & A1 & A2 & B1 & B2 & E); auto.
    + exists (face_at p1 t1), (face_at p2 t2). auto.
    + exists (face_at p1 u1), (face_at p2 u2). auto.
    + destruct (cr_point _ _ _ _ _ CR (along s1 p) a b) as (x & X1 & X2 & X3). exists x. rewrite (inside_slab_iff p1 P1), (inside_slab_iff p2 P2), X2, X3. repeat (split; auto).
      pose proof (cr_along1 _ _ _ _ _ CR x) as EA. rewrite X1 in EA. pose proof (AC x) as EC. rewrite X2, X3, E in EC.
      rewrite <- (frame_pt s1 (footprint p1 x) (cr_frame1 _ _ _ _ _ CR)), <- (frame_pt s1 p (cr_frame1 _ _ _ _ _ CR)), EA, EC. reflexivity.
  - intros (x & X1 & X2 & <-). apply (inside_slab_iff p1 P1) in X1 as (X1 & X1'). apply (inside_slab_iff p2 P2) in X2 as (X2 & X2'). rewrite AC.
    apply (rect_inside A B (face_at p1 true) (face_at p1 false) (face_at p2 true) (face_at p2 false)); auto; [qlra|qlra|].
    intros y z Y Z. destruct Y as [-> | ->], Z as [-> | ->]; apply RG.
Qed.
Lemma band_closed p1 p2 s1 s2 d : plate_ok p1 -> plate_ok p2 -> crossing p1 p2 s1 s2 d -> forall p,
  (is_min s1 <= across s1 p /\ across s1 p <= is_max s1) <-> exists x, in_slab p1 x /\ in_slab p2 x /\ footprint p1 x = p.
Proof.
  intros P1 P2 CR p. pose proof (band_strict p1 p2 s1 s2 d P1 P2 CR p) as ST. destruct (cr_band1 _ _ _ _ _ CR) as (A & B & NB & AC & RG & (t1 & t2 & MN) & (u1 & u2 & MX)). pose proof (faces_apart p1 P1) as L1. pose proof (faces_apart p2 P2) as L2.
  assert (CN : forall t u, across s1 p = A * face_at p1 t + B * face_at p2 u -> exists x, in_slab p1 x /\ in_slab p2 x /\ footprint p1 x = p).
  { intros t u E. destruct (cr_point _ _ _ _ _ CR (along s1 p) (face_at p1 t) (face_at p2 u)) as (x & X1 & X2 & X3). exists x. rewrite (slab_iff p1 P1), (slab_iff p2 P2), X2, X3.
    split; [destruct t; split; qlra|]. split; [destruct u; split; qlra|].
    pose proof (cr_along1 _ _ _ _ _ CR x) as EA. rewrite X1 in EA. pose proof (AC x) as EC. rewrite X2, X3, <- E in EC.
    rewrite <- (frame_pt s1 (footprint p1 x) (cr_frame1 _ _ _ _ _ CR)), <- (frame_pt s1 p (cr_frame1 _ _ _ _ _ CR)), EA, EC. reflexivity. }
  split.
  - intros (Lm & LM). destruct (qeqb_spec (is_min s1) (across s1 p)) as [E|N1]; [apply (CN t1 t2); rewrite <- E; exact MN|]. destruct (qeqb_spec (across s1 p) (is_max s1)) as [E|N2]; [apply (CN u1 u2); rewrite E; exact MX|].
    destruct (proj1 ST) as (x & (X1 & X2) & (X3 & X4) & E); [split; [destruct (qc_not_eq _ _ N1); [auto|exfalso; qlra]|destruct (qc_not_eq _ _ N2); [auto|exfalso; qlra]]|].
    exists x. split; [split; now apply Qclt_le_weak|]. split; [split; now apply Qclt_le_weak|exact E].
  - intros (x & X1 & X2 & <-). apply (slab_iff p1 P1) in X1 as (X1 & X1'). apply (slab_iff p2 P2) in X2 as (X2 & X2'). rewrite AC.
    apply (rect_range A B (face_at p1 true) (face_at p1 false) (face_at p2 true) (face_at p2 false)); auto.
    intros y z Y Z. destruct Y as [-> | ->], Z as [-> | ->]; apply RG.
Qed.
Lemma band_wide p1 p2 s1 s2 d : plate_ok p1 -> plate_ok p2 -> crossing p1 p2 s1 s2 d -> is_min s1 < is_max s1.
Proof.
  intros P1 P2 CR. destruct (cr_band1 _ _ _ _ _ CR) as (A & B & NB & _ & RG & _). pose proof (faces_apart p2 P2) as L2. destruct (RG true true) as (R1 & R2), (RG true false) as (R3 & R4). clear -NB R1 R2 R3 R4 L2.
  destruct (qc_not_eq _ _ NB) as [N|N]; [assert (0 < - B * (face_at p2 false - face_at p2 true)) by (apply mpp; qlra)|assert (0 < B * (face_at p2 false - face_at p2 true)) by (apply mpp; qlra)]; qlra.
Qed.
