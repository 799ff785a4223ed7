(** * The octagon a buffer uses *)
From Verif.Model Require Import Geom2d.
From Verif.Spec Require Import Plane Region Simple.
From Verif.Proofs Require Import PyP PolyP WindingP WindingQ NearP SimplifyP CoverP AreaP AngleP RibbonR.
From Verif.Props Require Import Frangle2dProps.

Local Ltac pn := cbn -[zq Qcplus Qcminus Qcmult Qcopp];
  repeat match goal with |- context [Pos.to_nat ?k] => let v := eval compute in (Pos.to_nat k) in change (Pos.to_nat k) with v end; cbn -[zq Qcplus Qcminus Qcmult Qcopp].
Section Oct.
Variables a b : Qc.
Hypothesis B0 : 0 < b.
Hypothesis AB : b < a.
Hypothesis A2 : a < zq 2 * b.
Definition oct : list point := [(a, 0); (b, - b); (0, - a); (- b, - b); (- a, 0); (- b, b); (0, a); (b, b)].
Let CE := edges_iter oct.

Lemma oct_C1 k : In k CE -> 0 < hgt k.
Proof.
  assert (P : 0 < a * b) by (apply mpp; qlra).
  cbn. unfold hgt, cross. intros H. repeat destruct H as [<-|H]; try destruct H; cbn [fst snd]; qlra.
Qed.
Lemma oct_C3 k j : In k CE -> In j CE -> nrm j (fst k) <= hgt j /\ nrm j (snd k) <= hgt j.
Proof.
  intros Hk Hj. assert (P1 : 0 < a * b) by (apply mpp; qlra). assert (P2 : 0 < b * b) by (apply mpp; qlra). assert (P3 : 0 < a * a) by (apply mpp; qlra).
  assert (P4 : 0 < (a - b) * b) by (apply mpp; qlra). assert (P5 : 0 < (zq 2 * b - a) * b) by (apply mpp; qlra). assert (P6 : 0 < (a - b) * a) by (apply mpp; qlra). assert (P7 : 0 < (zq 2 * b - a) * a) by (apply mpp; qlra).
  assert (V : In (fst k) oct /\ In (snd k) oct) by (apply is_edge_iter, is_edge_pedges, pedges_in in Hk; auto).
  assert (N : forall x, In x oct -> nrm j x <= hgt j); [|split; apply N; apply V]. clear V Hk k.
  intros x Hx. cbn in Hj, Hx. unfold nrm, hgt, cross, vsub. repeat destruct Hj as [<-|Hj]; try destruct Hj; cbn [fst snd]; repeat destruct Hx as [<-|Hx]; try destruct Hx; cbn [fst snd]; qlra.
Qed.
Lemma oct_SYM k : In k CE -> In (vscale (- (1)) (fst k), vscale (- (1)) (snd k)) CE.
Proof.
  cbn. unfold vscale. intros H. repeat destruct H as [<-|H]; try destruct H; cbn [fst snd];
  repeat first [left; apply f_equal2; apply f_equal2; ring | right].
Qed.
Lemma oct_C2 x : exists k al be, In k CE /\ 0 <= al /\ 0 <= be /\ x = vadd (vscale al (fst k)) (vscale be (snd k)).
Proof.
  assert (An : a <> 0) by (intros E; qlra). assert (Bn : b <> 0) by (intros E; qlra).
  assert (DV : forall u w, w <> 0 -> 0 < w -> 0 <= u -> exists k, 0 <= k /\ k * w = u).
  { intros u w Wn W U. pose proof (qdiv_mul u w Wn) as D. set (k := u / w) in *. clearbody k. exists k. split; auto. destruct (qleb_spec 0 k); auto. exfalso. assert (0 < - k * w) by (apply mpp; qlra). qlra. }
  assert (DA : forall u, 0 <= u -> exists k, 0 <= k /\ k * a = u) by (intros; apply DV; auto; qlra).
  assert (DB : forall u, 0 <= u -> exists k, 0 <= k /\ k * b = u) by (intros; apply DV; auto; qlra).
  destruct x as [x y]. unfold vadd, vscale.
  assert (K : forall i m n u w, nth_error CE i = Some (m, n) -> 0 <= u -> 0 <= w -> x = u * fst m + w * fst n -> y = u * snd m + w * snd n ->
     exists k al be, In k CE /\ 0 <= al /\ 0 <= be /\ (x, y) = (fst (al * fst (fst k), al * snd (fst k)) + fst (be * fst (snd k), be * snd (snd k)), snd (al * fst (fst k), al * snd (fst k)) + snd (be * fst (snd k), be * snd (snd k)))).
  { intros i m n u w E U W X Y. exists (m, n), u, w. split; [eapply nth_error_In; eauto|]. cbn [fst snd]. repeat split; auto. rewrite <- X, <- Y. reflexivity. }
  destruct (qleb_spec 0 x) as [X|X], (qleb_spec 0 y) as [Y|Y].
  - destruct (qleb_spec y x) as [Q|Q].
    + destruct (DA (x - y)) as (u & U & Eu); [qlra|]. destruct (DB y) as (w & W & Ew); [qlra|]. apply (K 7%nat (b, b) (a, 0) w u); auto; cbn [fst snd]; qlra.
    + destruct (DA (y - x)) as (u & U & Eu); [qlra|]. destruct (DB x) as (w & W & Ew); [qlra|]. apply (K 6%nat (0, a) (b, b) u w); auto; cbn [fst snd]; qlra.
  - destruct (qleb_spec (- y) x) as [Q|Q].
    + destruct (DA (x + y)) as (u & U & Eu); [qlra|]. destruct (DB (- y)) as (w & W & Ew); [qlra|]. apply (K 0%nat (a, 0) (b, - b) u w); auto; cbn [fst snd]; qlra.
    + destruct (DA (- y - x)) as (u & U & Eu); [qlra|]. destruct (DB x) as (w & W & Ew); [qlra|]. apply (K 1%nat (b, - b) (0, - a) w u); auto; cbn [fst snd]; qlra.
  - destruct (qleb_spec y (- x)) as [Q|Q].
    + destruct (DA (- x - y)) as (u & U & Eu); [qlra|]. destruct (DB y) as (w & W & Ew); [qlra|]. apply (K 4%nat (- a, 0) (- b, b) u w); auto; cbn [fst snd]; qlra.
    + destruct (DA (y + x)) as (u & U & Eu); [qlra|]. destruct (DB (- x)) as (w & W & Ew); [qlra|]. apply (K 5%nat (- b, b) (0, a) w u); auto; cbn [fst snd]; qlra.
  - destruct (qleb_spec (- y) (- x)) as [Q|Q].
    + destruct (DA (- x + y)) as (u & U & Eu); [qlra|]. destruct (DB (- y)) as (w & W & Ew); [qlra|]. apply (K 3%nat (- b, - b) (- a, 0) w u); auto; cbn [fst snd]; qlra.
    + destruct (DA (- y + x)) as (u & U & Eu); [qlra|]. destruct (DB (- x)) as (w & W & Ew); [qlra|]. apply (K 2%nat (0, - a) (- b, - b) u w); auto; cbn [fst snd]; qlra.
Qed.

(** frangles of the edges *)
Let rho := (a - b) / b.
Definition oct_f (r : Z) : Qc := let q := (a - b) / b in nth (Z.to_nat r) [zq 2 + q; zq 4 - q; zq 4 + q; zq 6 - q; zq 6 + q; zq 8 - q; zq 8 + q; zq 10 - q] 0.
Definition oct_F (i : Z) : Qc := oct_f (i mod 8) + zq 8 * zq (i / 8).
Lemma rho_range : 0 < rho /\ rho < 1 /\ rho * b = a - b.
Proof.
  assert (Bn : b <> 0) by (intros E; qlra). pose proof (qdiv_mul (a - b) b Bn) as D. fold rho in D. change (zq 2) with (1 + 1) in A2. clearbody rho. split; [|split; auto].
  - destruct (qltb_spec 0 rho); auto. exfalso. assert (0 <= - rho * b) by (apply mnn; qlra). qlra.
  - destruct (qltb_spec rho 1); auto. exfalso. assert (0 <= (rho - 1) * b) by (apply mnn; qlra). qlra.
Qed.
Lemma oct_FT i : oct_F (i + Z.of_nat (length oct)) = oct_F i + zq 8.
Proof.
  unfold oct_F. change (Z.of_nat (length oct)) with (1 * 8)%Z. rewrite Z_mod_plus_full, Z_div_plus_full by lia. rewrite zq_plus, zq_1. ring.
Qed.
Lemma mod8 i : exists r q, (i = r + 8 * q)%Z /\ (0 <= r < 8)%Z /\ oct_F i = oct_f r + zq 8 * zq q.
Proof.
  exists (i mod 8)%Z, (i / 8)%Z. split; [rewrite Z.add_comm; apply Z_div_mod_eq_full|]. split; [apply Z.mod_pos_bound; lia|reflexivity].
Qed.
Lemma oct_F_at r q : (0 <= r < 8)%Z -> oct_F (r + 8 * q) = oct_f r + zq 8 * zq q.
Proof. intros R. unfold oct_F. rewrite (Z.mul_comm 8), Z_mod_plus_full, Z_div_plus_full by lia. rewrite Z.mod_small, Z.div_small by lia. reflexivity. Qed.
Lemma oct_FI i : oct_F i < oct_F (i + 1) /\ oct_F (i + 1) < oct_F i + zq 4.
Proof.
  destruct (mod8 i) as (r & q & -> & R & ->). destruct rho_range as (R0 & R1 & _).
  assert (C : (r < 7 \/ r = 7)%Z) by lia. destruct C as [C|C].
  - replace (r + 8 * q + 1)%Z with (r + 1 + 8 * q)%Z by lia. rewrite oct_F_at by lia.
    assert (D : (r = 0 \/ r = 1 \/ r = 2 \/ r = 3 \/ r = 4 \/ r = 5 \/ r = 6)%Z) by lia. unfold oct_f. fold rho. clearbody rho.
    repeat destruct D as [->|D]; try rewrite D; pn; split; qlra.
  - subst r. replace (7 + 8 * q + 1)%Z with (0 + 8 * (q + 1))%Z by lia. rewrite oct_F_at by lia. rewrite zq_plus, zq_1. unfold oct_f. fold rho. clearbody rho. pn. split; qlra.
Qed.
Lemma oct_frk r : (0 <= r < 8)%Z -> ang (vsub (nthp oct (r + 1)) (nthp oct r)) (oct_f r).
Proof.
  intros R. destruct rho_range as (R0 & R1 & R2). assert (D : (r = 0 \/ r = 1 \/ r = 2 \/ r = 3 \/ r = 4 \/ r = 5 \/ r = 6 \/ r = 7)%Z) by lia.
  unfold oct_f. fold rho. clearbody rho. assert (EA : a = rho * b + b) by qlra.
  assert (K : forall v f s m, v = vscale b s -> side f s -> ang v (f + zq 8 * zq m)).
  { intros v f s m E Sd. apply ang_turn, ang_self. apply (frk_frangle _ _ b). split; auto. exists s. auto. }
  repeat destruct D as [->|D]; try rewrite D; pn; unfold vsub; cbn [fst snd]; rewrite EA;
    [replace (zq 2 + rho) with (zq 2 + rho + zq 8 * zq 0) by (rewrite zq_0; ring); apply (K _ _ (- rho, - (1)))
    |replace (zq 4 - rho) with (zq 4 - rho + zq 8 * zq 0) by (rewrite zq_0; ring); apply (K _ _ (- (1), - rho))
    |replace (zq 4 + rho) with (zq 4 + rho + zq 8 * zq 0) by (rewrite zq_0; ring); apply (K _ _ (- (1), rho))
    |replace (zq 6 - rho) with (zq 6 - rho + zq 8 * zq 0) by (rewrite zq_0; ring); apply (K _ _ (- rho, 1))
    |replace (zq 6 + rho) with (zq 6 + rho + zq 8 * zq 0) by (rewrite zq_0; ring); apply (K _ _ (rho, 1))
    |replace (zq 8 - rho) with (zq 8 - rho + zq 8 * zq 0) by (rewrite zq_0; ring); apply (K _ _ (1, rho))
    |replace (zq 8 + rho) with (rho + zq 8 * zq 1) by (rewrite zq_1; ring); apply (K _ _ (1, - rho))
    |replace (zq 10 - rho) with (zq 2 - rho + zq 8 * zq 1) by (change (zq 10) with (zq 2 + zq 8); rewrite zq_1; ring); apply (K _ _ (rho, - (1)))];
    try (unfold vscale; cbn [fst snd]; apply f_equal2; ring); unfold side.
  - right. right. right. left. split; [qlra|]. split; [qlra|]. apply f_equal2; qlra.
  - right. right. left. split; [qlra|]. split; [qlra|]. apply f_equal2; qlra.
  - right. right. left. split; [qlra|]. split; [qlra|]. apply f_equal2; qlra.
  - right. right. right. right. split; [qlra|]. split; [qlra|]. apply f_equal2; qlra.
  - right. right. right. right. split; [qlra|]. split; [qlra|]. apply f_equal2; qlra.
  - right. left. split; [qlra|]. split; [qlra|]. apply f_equal2; qlra.
  - left. split; [qlra|]. split; [qlra|]. apply f_equal2; qlra.
  - right. right. right. left. split; [qlra|]. split; [qlra|]. apply f_equal2; qlra.
Qed.
Lemma oct_FA i : ang (vsub (nthp oct (i + 1)) (nthp oct i)) (oct_F i).
Proof.
  destruct (mod8 i) as (r & q & -> & R & ->). replace (r + 8 * q + 1)%Z with (r + 1 + Z.of_nat (length oct) * q)%Z by (cbn [length oct]; lia).
  replace (r + 8 * q)%Z with (r + Z.of_nat (length oct) * q)%Z by (cbn [length oct]; lia). rewrite !nthp_turn. apply ang_turn, oct_frk, R.
Qed.
End Oct.
