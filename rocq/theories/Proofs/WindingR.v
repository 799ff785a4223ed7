(** * Winding number: constancy along paths, convex polygons. *)
From Verif.Model Require Import Primitive2d.
From Verif.Spec Require Import Plane.
From Verif.Proofs Require Import PyP PolyP WindingP WindingQ.
From Coq Require Import Permutation.

Lemma height_id a b p q c :
  orient p q a * (snd b - c) - orient p q b * (snd a - c) = orient a b q * (snd p - c) - orient a b p * (snd q - c).
Proof. destruct a, b, p, q. unfold orient, cross, vsub; simpl. ring. Qed.

Lemma sgn_pos q : 0 < q -> sgn q = 1%Z.
Proof. intros. destruct (sgn_cases q) as [[A ->]|[[A ->]|[A ->]]]; auto; exfalso; qlra. Qed.
Lemma sgn_neg q : q < 0 -> sgn q = (-1)%Z.
Proof. intros. destruct (sgn_cases q) as [[A ->]|[[A ->]|[A ->]]]; auto; exfalso; qlra. Qed.

(** x*k = -(y*m) with positive k, m: opposite signs *)
Lemma opp_sign x y k m : 0 < k -> 0 < m -> x * k = - (y * m) -> sgn x = (- sgn y)%Z.
Proof.
  intros. destruct (sgn_cases x) as [[A ->]|[[A ->]|[A ->]]], (sgn_cases y) as [[B ->]|[[B ->]|[B ->]]]; auto; exfalso;
    subst; qnra.
Qed.

Lemma mpp x k : 0 < x -> 0 < k -> 0 < x * k.
Proof. intros. qnra. Qed.
Lemma mpp' x k : 0 < x -> 0 <= k -> 0 <= x * k.
Proof. intros. qnra. Qed.
Lemma mnp x k : x < 0 -> 0 < k -> x * k < 0.
Proof. intros. qnra. Qed.
Lemma mnp' x k : x < 0 -> 0 <= k -> x * k <= 0.
Proof. intros. qnra. Qed.
Lemma dpos x k : 0 <= k -> 0 < x * k -> 0 < x.
Proof. intros. qnra. Qed.
Lemma dneg x k : 0 <= k -> x * k < 0 -> x < 0.
Proof. intros. qnra. Qed.
Ltac fin a b p q :=
  match goal with
  | |- ?x < 0 => first [apply (dneg x (snd b - snd a)); qlra | apply (dneg x (snd q - snd p)); qlra]
  | |- 0 < ?x => first [apply (dpos x (snd b - snd a)); qlra | apply (dpos x (snd q - snd p)); qlra]
  end.

Lemma edge_move_ord a b p q : snd p <= snd q -> snd a <= snd b ->
  (forall x, on_seg (a, b) x -> on_seg (p, q) x -> False) ->
  (delta p (a, b) - delta q (a, b) = psi p q b - psi p q a)%Z.
Proof.
  intros Hpq Hab D. pose proof (seg_disjoint a b p q D) as S. cbv zeta in S.
  pose proof (height_id a b p q) as H.
  assert (I : orient p q a - orient p q b = orient a b q - orient a b p).
  { destruct a, b, p, q. unfold orient, cross, vsub; simpl. ring. }
  unfold delta, psi; cbn [fst snd].
  set (P := orient a b p) in *. set (R := orient a b q) in *. set (A := orient p q a) in *. set (B := orient p q b) in *.
  clearbody P R A B. clear D.
  destruct (above_spec p a) as [a1|a1], (above_spec p b) as [b1|b1], (above_spec q a) as [a2|a2], (above_spec q b) as [b2|b2];
    cbn [xorb]; try reflexivity; try (exfalso; qlra).
  - (* S, H: p < a <= q < b *)
    enough (sgn A = (- sgn R)%Z) by lia.
    destruct S as [E|[[S1 S2]|[[S1 S2]|[[S1 S2]|[S1 S2]]]]].
    + subst R. assert (B = A) by qlra. subst B.
      apply (opp_sign A P (snd b - snd a) (snd q - snd p)); try qlra. specialize (H (snd a)). qlra.
    + rewrite (sgn_pos R) by auto. apply sgn_neg. specialize (H (snd a)).
      pose proof (mpp R (snd a - snd p) ltac:(qlra) ltac:(qlra)). pose proof (mpp' P (snd q - snd a) ltac:(qlra) ltac:(qlra)). fin a b p q.
    + rewrite (sgn_neg R) by auto. apply sgn_pos. specialize (H (snd a)).
      pose proof (mnp R (snd a - snd p) ltac:(qlra) ltac:(qlra)). pose proof (mnp' P (snd q - snd a) ltac:(qlra) ltac:(qlra)). fin a b p q.
    + rewrite (sgn_pos A) by auto. enough (sgn R = (-1)%Z) by lia. apply sgn_neg. specialize (H (snd q)).
      pose proof (mpp A (snd b - snd q) ltac:(qlra) ltac:(qlra)). pose proof (mpp' B (snd q - snd a) ltac:(qlra) ltac:(qlra)). fin a b p q.
    + rewrite (sgn_neg A) by auto. enough (sgn R = 1%Z) by lia. apply sgn_pos. specialize (H (snd q)).
      pose proof (mnp A (snd b - snd q) ltac:(qlra) ltac:(qlra)). pose proof (mnp' B (snd q - snd a) ltac:(qlra) ltac:(qlra)). fin a b p q.
  - (* S, S *)
    enough (sgn A = sgn B) by lia.
    destruct S as [E|[[S1 S2]|[[S1 S2]|[[S1 S2]|[S1 S2]]]]].
    + f_equal. qlra.
    + rewrite (sgn_neg A), (sgn_neg B); auto.
      * specialize (H (snd b)). pose proof (mpp R (snd b - snd p) ltac:(qlra) ltac:(qlra)). pose proof (mpp' P (snd q - snd b) ltac:(qlra) ltac:(qlra)). fin a b p q.
      * specialize (H (snd a)). pose proof (mpp R (snd a - snd p) ltac:(qlra) ltac:(qlra)). pose proof (mpp' P (snd q - snd a) ltac:(qlra) ltac:(qlra)). fin a b p q.
    + rewrite (sgn_pos A), (sgn_pos B); auto.
      * specialize (H (snd b)). pose proof (mnp R (snd b - snd p) ltac:(qlra) ltac:(qlra)). pose proof (mnp' P (snd q - snd b) ltac:(qlra) ltac:(qlra)). fin a b p q.
      * specialize (H (snd a)). pose proof (mnp R (snd a - snd p) ltac:(qlra) ltac:(qlra)). pose proof (mnp' P (snd q - snd a) ltac:(qlra) ltac:(qlra)). fin a b p q.
    + rewrite !sgn_pos; auto.
    + rewrite !sgn_neg; auto.
  - (* L, H *)
    enough (sgn P = sgn R) by lia.
    destruct S as [E|[[S1 S2]|[[S1 S2]|[[S1 S2]|[S1 S2]]]]].
    + congruence.
    + rewrite !sgn_pos; auto.
    + rewrite !sgn_neg; auto.
    + rewrite !sgn_neg; auto.
      * specialize (H (snd q)). pose proof (mpp A (snd b - snd q) ltac:(qlra) ltac:(qlra)). pose proof (mpp' B (snd q - snd a) ltac:(qlra) ltac:(qlra)). fin a b p q.
      * specialize (H (snd p)). pose proof (mpp A (snd b - snd p) ltac:(qlra) ltac:(qlra)). pose proof (mpp' B (snd p - snd a) ltac:(qlra) ltac:(qlra)). fin a b p q.
    + rewrite !sgn_pos; auto.
      * specialize (H (snd q)). pose proof (mnp A (snd b - snd q) ltac:(qlra) ltac:(qlra)). pose proof (mnp' B (snd q - snd a) ltac:(qlra) ltac:(qlra)). fin a b p q.
      * specialize (H (snd p)). pose proof (mnp A (snd b - snd p) ltac:(qlra) ltac:(qlra)). pose proof (mnp' B (snd p - snd a) ltac:(qlra) ltac:(qlra)). fin a b p q.
  - (* L, S *)
    enough (sgn B = (- sgn P)%Z) by lia.
    destruct S as [E|[[S1 S2]|[[S1 S2]|[[S1 S2]|[S1 S2]]]]].
    + subst R. assert (B = A) by qlra. subst B.
      apply (opp_sign A P (snd b - snd a) (snd q - snd p)); try qlra. specialize (H (snd a)). qlra.
    + rewrite (sgn_pos P) by auto. apply sgn_neg. specialize (H (snd b)).
      pose proof (mpp R (snd b - snd p) ltac:(qlra) ltac:(qlra)). pose proof (mpp' P (snd q - snd b) ltac:(qlra) ltac:(qlra)). fin a b p q.
    + rewrite (sgn_neg P) by auto. apply sgn_pos. specialize (H (snd b)).
      pose proof (mnp R (snd b - snd p) ltac:(qlra) ltac:(qlra)). pose proof (mnp' P (snd q - snd b) ltac:(qlra) ltac:(qlra)). fin a b p q.
    + rewrite (sgn_pos B) by auto. enough (sgn P = (-1)%Z) by lia. apply sgn_neg. specialize (H (snd p)).
      pose proof (mpp A (snd b - snd p) ltac:(qlra) ltac:(qlra)). pose proof (mpp' B (snd p - snd a) ltac:(qlra) ltac:(qlra)). fin a b p q.
    + rewrite (sgn_neg B) by auto. enough (sgn P = 1%Z) by lia. apply sgn_pos. specialize (H (snd p)).
      pose proof (mnp A (snd b - snd p) ltac:(qlra) ltac:(qlra)). pose proof (mnp' B (snd p - snd a) ltac:(qlra) ltac:(qlra)). fin a b p q.
Qed.

Lemma psi_rev p q u : psi q p u = (- psi p q u)%Z.
Proof. unfold psi. rewrite xorb_comm, orient_rev, sgn_opp. destruct (xorb _ _); lia. Qed.
Lemma edge_move a b p q :
  (forall x, on_seg (a, b) x -> on_seg (p, q) x -> False) ->
  (delta p (a, b) - delta q (a, b) = psi p q b - psi p q a)%Z.
Proof.
  intros D.
  assert (D2 : forall x, on_seg (b, a) x -> on_seg (p, q) x -> False) by (intros x; rewrite on_seg_sym; apply D).
  assert (D3 : forall x, on_seg (a, b) x -> on_seg (q, p) x -> False) by (intros x; rewrite (on_seg_sym q p); apply D).
  assert (D4 : forall x, on_seg (b, a) x -> on_seg (q, p) x -> False) by (intros x; rewrite (on_seg_sym q p); apply D2).
  destruct (qleb_spec (snd p) (snd q)) as [L|L], (qleb_spec (snd a) (snd b)) as [M|M].
  - now apply edge_move_ord.
  - pose proof (edge_move_ord b a p q ltac:(qlra) ltac:(qlra) D2) as H.
    rewrite (delta_rev p a b), (delta_rev q a b) in H. lia.
  - pose proof (edge_move_ord a b q p ltac:(qlra) ltac:(qlra) D3) as H.
    rewrite (psi_rev p q a), (psi_rev p q b) in H. lia.
  - pose proof (edge_move_ord b a q p ltac:(qlra) ltac:(qlra) D4) as H.
    rewrite (psi_rev p q a), (psi_rev p q b), (delta_rev p a b), (delta_rev q a b) in H. lia.
Qed.

Theorem wsum_move poly p q :
  (forall x, on_seg (p, q) x -> ~ on_boundary poly x) -> wsum p poly = wsum q poly.
Proof.
  intros D. unfold wsum. rewrite <- !(zsum_perm _ _ _ (pedges_perm poly)).
  pose proof (pedges_tele_z (psi p q) poly) as T.
  rewrite (zsum_ext (delta p) (fun s => (delta q s + (psi p q (snd s) - psi p q (fst s)))%Z)).
  - rewrite zsum_plus, T, Z.add_0_r. reflexivity.
  - intros [a b] H. cbn [fst snd]. rewrite <- edge_move; [lia|].
    intros x Hx Hy. apply (D x Hy). exists (a, b). split; auto. now apply is_edge_pedges.
Qed.

(** ** All vertices strictly on one side of a line through p *)
Theorem wsum_half_plane poly p n :
  (forall v, In v poly -> 0 < dot n (vsub v p)) -> wsum p poly = 0%Z.
Proof.
  intros H. unfold wsum. rewrite <- !(zsum_perm _ _ _ (pedges_perm poly)).
  set (k := sgn (fst n)).
  rewrite (zsum_ext _ (fun s => (-k * (if above p (snd s) then 1 else 0)) - (-k * (if above p (fst s) then 1 else 0)))%Z).
  2: { intros [a b] Hs. pose proof (pedges_in _ _ Hs) as [Ia Ib]. apply H in Ia, Ib. cbn [fst snd] in *.
       unfold delta, k; cbn [fst snd]. rewrite orient_rel. unfold dot, vsub in Ia, Ib; cbn [fst snd] in *.
       destruct (above_spec p a) as [Ya|Ya], (above_spec p b) as [Yb|Yb]; cbn [xorb]; try lia.
       - enough (sgn (fst n) = (- sgn ((fst a - fst p) * (snd b - snd p) - (snd a - snd p) * (fst b - fst p)))%Z) by lia.
         set (xa := fst a - fst p) in *. set (ya := snd a - snd p) in *. set (xb := fst b - fst p) in *. set (yb := snd b - snd p) in *.
         assert (0 < ya) by (unfold ya; qlra). assert (yb <= 0) by (unfold yb; qlra). clearbody xa ya xb yb.
         set (nx := fst n) in *. set (ny := snd n) in *. clearbody nx ny.
         (* nx * (ya*xb - xa*yb) > 0 *)
         assert (G : 0 < nx * (ya * xb - xa * yb)).
         { assert (0 < ya * (nx * xb + ny * yb)) by qnra. assert (0 <= (- yb) * (nx * xa + ny * ya)) by qnra. qlra. }
         set (X := ya * xb - xa * yb) in *. replace (xa * yb - ya * xb) with (- X) by (unfold X; ring).
         clearbody X. rewrite sgn_opp, Z.opp_involutive.
         destruct (sgn_cases nx) as [[A ->]|[[A ->]|[A ->]]], (sgn_cases X) as [[B ->]|[[B ->]|[B ->]]]; auto; exfalso; subst; qnra.
       - enough (sgn (fst n) = (sgn ((fst a - fst p) * (snd b - snd p) - (snd a - snd p) * (fst b - fst p)))%Z) by lia.
         set (xa := fst a - fst p) in *. set (ya := snd a - snd p) in *. set (xb := fst b - fst p) in *. set (yb := snd b - snd p) in *.
         assert (0 < yb) by (unfold yb; qlra). assert (ya <= 0) by (unfold ya; qlra). clearbody xa ya xb yb.
         set (nx := fst n) in *. set (ny := snd n) in *. clearbody nx ny.
         assert (G : 0 < nx * (xa * yb - ya * xb)).
         { assert (0 < yb * (nx * xa + ny * ya)) by qnra. assert (0 <= (- ya) * (nx * xb + ny * yb)) by qnra. qlra. }
         set (X := xa * yb - ya * xb) in *. clearbody X.
         destruct (sgn_cases nx) as [[A ->]|[[A ->]|[A ->]]], (sgn_cases X) as [[B ->]|[[B ->]|[B ->]]]; auto; exfalso; subst; qnra. }
  pose proof (pedges_tele_z (fun v => -k * (if above p v then 1 else 0))%Z poly) as T.
  exact T.
Qed.

(** ** Strictly right of every edge of a closed polygon: non-zero *)
Lemma edges_from_mono_z (P : point -> point -> Prop) (f : point -> Qc) a l :
  (forall s, In s (edges_from a l) -> f (fst s) < f (snd s)) -> l = [] \/ f a < f (last l a).
Proof.
  revert a. induction l as [|b l IH]; intros a H; [auto|]. right.
  rewrite (last_dep l b a b), last_cons.
  assert (f a < f b) by (apply (H (a, b)); left; reflexivity).
  destruct (IH b) as [->|L]; [intros; apply H; right; auto|simpl; auto|qlra].
Qed.
Lemma no_mono_cycle (f : point -> Qc) poly : poly <> [] ->
  (forall s, In s (pedges poly) -> f (fst s) < f (snd s)) -> False.
Proof.
  destruct poly as [|a l]; [congruence|]. intros _ H. rewrite pedges_cons in H.
  assert (L : f (last (a :: l) a) < f a) by (apply (H (last (a :: l) a, a)); left; reflexivity).
  destruct (edges_from_mono_z (fun _ _ => True) f a l) as [->|M].
  - intros; apply H; right; auto.
  - simpl in L. qlra.
  - rewrite last_cons in L. qlra.
Qed.

Lemma mixed_crossing (f : point -> bool) a l : f a <> f (last l a) -> exists s, In s (edges_from a l) /\ f (fst s) <> f (snd s).
Proof.
  revert a. induction l as [|b l IH]; intros a H; [simpl in H; congruence|].
  rewrite (last_dep l b a b), last_cons in H.
  destruct (bool_dec (f a) (f b)) as [E|E].
  - destruct (IH b) as (s & Hs & N); [congruence|]. exists s. split; auto. right; auto.
  - exists (a, b). split; auto. left; reflexivity.
Qed.
Lemma all_or_cross (f : point -> bool) poly : (exists b, forall v, In v poly -> f v = b) \/
  exists s, In s (pedges poly) /\ f (fst s) <> f (snd s).
Proof.
  destruct poly as [|a l]; [left; exists true; intros ? []|].
  destruct (forallb (fun v => eqb (f v) (f a)) (a :: l)) eqn:E.
  - left. exists (f a). intros v Hv. rewrite forallb_forall in E. apply E in Hv. now apply eqb_prop.
  - right. assert (exists v, In v (a :: l) /\ f v <> f a) as (v & Hv & N).
    { clear -E. induction (a :: l) as [|x r IH]; [discriminate|]. simpl in E.
      destruct (eqb (f x) (f a)) eqn:F; simpl in E.
      - destruct (IH E) as (v & ? & ?). exists v. simpl; auto.
      - exists x. split; [left; reflexivity|]. intros C. rewrite C, eqb_reflx in F. discriminate. }
    apply in_split in Hv as (l1 & l2 & E'). destruct l1 as [|a' l1].
    + simpl in E'. injection E' as -> ->. congruence.
    + simpl in E'. injection E' as <- ->.
      destruct (mixed_crossing f a (l1 ++ [v])) as (s & Hs & M).
      { rewrite last_last. congruence. }
      exists s. split; auto. rewrite pedges_cons. right. rewrite edges_from_app. apply in_or_app. left. exact Hs.
Qed.

Theorem wsum_strict_right poly p : poly <> [] ->
  (forall s, In s (pedges poly) -> orient (fst s) (snd s) p < 0) -> (0 < wsum p poly)%Z.
Proof.
  intros Hne H. unfold wsum. rewrite <- !(zsum_perm _ _ _ (pedges_perm poly)). apply zsum_pos.
  - intros s Hs. specialize (H _ Hs). unfold delta. rewrite (sgn_neg _ H). destruct (xorb _ _); lia.
  - destruct (all_or_cross (above p) poly) as [[b Hb]|(s & Hs & N)].
    2: { exists s. split; auto. specialize (H _ Hs). unfold delta. rewrite (sgn_neg _ H), xorb_neq; auto. lia. }
    exfalso.
    assert (NZ : forall v, In v poly -> snd v - snd p <> 0 /\ (if b then 0 < snd v - snd p else snd v - snd p < 0)).
    { intros v Hv. pose proof (Hb _ Hv) as Av.
      destruct (pedges_of poly v Hv) as (w & Hw). destruct (pedges_to poly v Hv) as (u & Hu).
      pose proof (H _ Hw) as Ow. pose proof (H _ Hu) as Ou. rewrite orient_rel in Ow, Ou. cbn [fst snd] in *.
      pose proof (pedges_in _ _ Hw) as [_ Iw]. pose proof (pedges_in _ _ Hu) as [Iu _]. cbn [fst snd] in *.
      pose proof (Hb _ Iw) as Aw. pose proof (Hb _ Iu) as Au.
      destruct b.
      - destruct (above_spec p v) as [Y|Y]; [|discriminate]. split; [intros E; qlra|qlra].
      - destruct (above_spec p v) as [Y|Y]; [discriminate|].
        destruct (above_spec p w) as [Yw|Yw]; [discriminate|]. destruct (above_spec p u) as [Yu|Yu]; [discriminate|].
        assert (NN : snd v - snd p <> 0).
        { intros E. rewrite E in *. set (x := fst v - fst p) in *. clearbody x.
          assert (0 < x) by qnra. assert (x < 0) by qnra. qlra. }
        split; auto. destruct (qc_not_eq _ _ NN); auto. exfalso; qlra. }
    destruct b.
    + apply (no_mono_cycle (fun v => (fst v - fst p) / (snd v - snd p)) poly Hne). intros [u v] Hs.
      pose proof (H _ Hs) as O. rewrite orient_rel in O. pose proof (pedges_in _ _ Hs) as [Iu Iv]. cbn [fst snd] in *.
      destruct (NZ _ Iu) as [N1 P1], (NZ _ Iv) as [N2 P2].
      pose proof (qdiv_mul (fst u - fst p) _ N1) as E1. pose proof (qdiv_mul (fst v - fst p) _ N2) as E2.
      set (r := (fst u - fst p) / (snd u - snd p)) in *. set (t := (fst v - fst p) / (snd v - snd p)) in *. clearbody r t.
      rewrite <- E1, <- E2 in O. clear - P1 P2 O. set (y1 := snd u - snd p) in *. set (y2 := snd v - snd p) in *. clearbody y1 y2.
      assert ((r - t) * (y1 * y2) < 0) by qlra. assert (0 < y1 * y2) by qnra. qnra.
    + apply (no_mono_cycle (fun v => (fst v - fst p) / (snd v - snd p)) poly Hne). intros [u v] Hs.
      pose proof (H _ Hs) as O. rewrite orient_rel in O. pose proof (pedges_in _ _ Hs) as [Iu Iv]. cbn [fst snd] in *.
      destruct (NZ _ Iu) as [N1 P1], (NZ _ Iv) as [N2 P2].
      pose proof (qdiv_mul (fst u - fst p) _ N1) as E1. pose proof (qdiv_mul (fst v - fst p) _ N2) as E2.
      set (r := (fst u - fst p) / (snd u - snd p)) in *. set (t := (fst v - fst p) / (snd v - snd p)) in *. clearbody r t.
      rewrite <- E1, <- E2 in O. clear - P1 P2 O. set (y1 := snd u - snd p) in *. set (y2 := snd v - snd p) in *. clearbody y1 y2.
      assert ((r - t) * (y1 * y2) < 0) by qlra. assert (0 < y1 * y2) by qnra. qnra.
Qed.

Lemma on_seg_half_plane a b e f p : orient e f a <= 0 -> orient e f b <= 0 -> on_seg (a, b) p -> orient e f p <= 0.
Proof.
  intros HA HB (t & T0 & T1 & ->). unfold at_t; cbn [fst snd].
  assert (E : orient e f (vadd a (vscale t (vsub b a))) = (1 - t) * orient e f a + t * orient e f b).
  { destruct a, b, e, f. unfold orient, cross, vadd, vscale, vsub; simpl. ring. }
  rewrite E. set (x := orient e f a) in *. set (y := orient e f b) in *. clearbody x y.
  assert (0 <= (1 - t) * - x) by qnra. assert (0 <= t * - y) by qnra. qlra.
Qed.
(** p not strictly right of some proper edge of a polygon lying weakly right of that edge: zero *)
Theorem wsum_convex_outside poly p a b : ~ on_boundary poly p -> a <> b ->
  (forall v, In v poly -> orient a b v <= 0) -> 0 <= orient a b p -> wsum p poly = 0%Z.
Proof.
  intros NB Nab H Hp.
  (* outward normal of a -> b *)
  set (n := (- (snd b - snd a), fst b - fst a)).
  assert (Nn : forall x, orient a b x = dot n (vsub x a)).
  { intros x. unfold n, orient, cross, dot, vsub; simpl. ring. }
  assert (Q : 0 < dot n n).
  { unfold n, dot; simpl. set (u := snd b - snd a). set (w := fst b - fst a).
    assert (u <> 0 \/ w <> 0) as Hz.
    { destruct (qeqb_spec u 0) as [E1|]; auto. destruct (qeqb_spec w 0) as [E2|]; auto. exfalso. apply Nab.
      destruct a, b. unfold u, w in *. simpl in *. f_equal; qlra. }
    clearbody u w. destruct Hz as [Hz|Hz]; destruct (qc_not_eq _ _ Hz); qnra. }
  set (q := vadd p n).
  assert (Oq : orient a b q = orient a b p + dot n n).
  { unfold q. rewrite !Nn. unfold dot, vsub, vadd; simpl. ring. }
  rewrite (wsum_move poly p q).
  - apply (wsum_half_plane poly q (vscale (- (1)) n)). intros v Hv. specialize (H v Hv).
    assert (E : dot (vscale (-(1)) n) (vsub v q) = orient a b q - orient a b v).
    { rewrite !Nn. unfold dot, vsub, vscale; simpl. ring. }
    rewrite E. qlra.
  - intros x (t & T0 & T1 & ->) (s & Hs & S). apply is_edge_pedges in Hs. pose proof (pedges_in _ _ Hs) as [I1 I2].
    destruct s as [c d]. pose proof (on_seg_half_plane c d a b _ (H _ I1) (H _ I2) S) as K.
    assert (E : orient a b (at_t (p, q) t) = orient a b p + t * dot n n).
    { rewrite !Nn. unfold q, at_t, dot, vsub, vadd, vscale; simpl. ring. }
    rewrite E in K. assert (Z : t = 0).
    { set (m := dot n n) in *. set (o := orient a b p) in *. clearbody m o.
      assert (0 <= t * m) by qnra. assert (G : t * m = 0) by qlra. apply Qcmult_integral in G as [G|G]; auto. exfalso; qlra. }
    apply NB. exists (c, d). split; [now apply is_edge_pedges|]. subst t.
    replace (at_t (p, q) 0) with p in S; auto. destruct p. unfold at_t, vadd, vscale, vsub; simpl. f_equal; ring.
Qed.
