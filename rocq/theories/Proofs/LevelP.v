(** A set of half-edges of a planar graph with a region just to the right of exactly these half-edges
    winds once around the points of the region and not at all around the others. *)
From Coq Require Import Sorting.Sorted.
From Verif.Spec Require Import Plane.
From Verif.Proofs Require Import PyP PolyP WindingP WindingQ WindingR NearP PlanarP ArrGraphP AreaP.

(** ** one line *)
Lemma next_one (l : list Qc) x : (forall z, In z l -> ~ x < z) \/ exists y, In y l /\ x < y /\ forall z, In z l -> x < z -> y <= z.
Proof.
  induction l as [|a l IH]; [left; intros z []|]. destruct (Qclt_le_dec x a) as [L|L].
  - right. destruct IH as [IH|(y & Y1 & Y2 & Y3)].
    + exists a. split; [now left|]. split; auto. intros z [<-|Hz] Q; [apply Qcle_refl|]. destruct (IH z Hz Q).
    + destruct (Qclt_le_dec a y) as [M|M].
      * exists a. split; [now left|]. split; auto. intros z [<-|Hz] Q; [apply Qcle_refl|]. specialize (Y3 z Hz Q). qlra.
      * exists y. split; [now right|]. split; auto. intros z [<-|Hz] Q; auto.
  - destruct IH as [IH|(y & Y1 & Y2 & Y3)].
    + left. intros z [<-|Hz] Q; [qlra|exact (IH z Hz Q)].
    + right. exists y. split; [now right|]. split; auto. intros z [<-|Hz] Q; [qlra|auto].
Qed.
Lemma gap_after (l : list Qc) y e : 0 < e -> exists x, y < x /\ x <= y + e /\ forall z, In z l -> z <= y \/ x < z.
Proof.
  intros E. induction l as [|a l (x & X1 & X2 & X3)]; [exists (y + e); split; [qlra|split; [qlra|intros z []]]|].
  destruct (Qclt_le_dec y a) as [L|L].
  - exists (qmin x (qq 1 2 * (y + a))). unfold qmin. destruct (qleb_spec x (qq 1 2 * (y + a))).
    + split; auto. split; auto. intros z [<-|Hz]; auto. right. qlra.
    + split; [qlra|]. split; [qlra|]. intros z [<-|Hz]; [right; qlra|]. destruct (X3 z Hz); [left; auto|right; qlra].
  - exists x. split; auto. split; auto. intros z [<-|Hz]; auto.
Qed.
Lemma filter_less {A} (f g : A -> bool) l y : (forall x, f x = true -> g x = true) -> In y l -> f y = false -> g y = true ->
  (length (filter f l) < length (filter g l))%nat.
Proof.
  intros FG. assert (LE : forall l, (length (filter f l) <= length (filter g l))%nat).
  { intros m. induction m as [|x m IH]; cbn; auto. destruct (f x) eqn:F; [rewrite (FG x F)|destruct (g x)]; cbn; lia. }
  induction l as [|x l IH]; [intros []|]. intros [->|I] F G; cbn.
  - rewrite F, G. cbn. specialize (LE l). lia.
  - specialize (IH I F G). destruct (f x) eqn:E; [rewrite (FG x E)|destruct (g x)]; cbn; lia.
Qed.
Lemma seg_dec (a b : segment) : {a = b} + {a <> b}.
Proof.
  destruct a as [a1 a2], b as [b1 b2]. destruct (pt_eqb_spec a1 b1) as [->|N]; [|right; congruence].
  destruct (pt_eqb_spec a2 b2) as [->|N]; [now left|right; congruence].
Qed.
Lemma zsum_zero {A} (f : A -> Z) l : (forall x, In x l -> f x = 0%Z) -> zsum f l = 0%Z.
Proof. induction l as [|x l IH]; cbn; auto. intros H. rewrite H, IH; auto. Qed.
Lemma zsum_one (f : segment -> Z) l e : NoDup l -> (forall x, In x l -> x <> e -> f x = 0%Z) -> zsum f l = if in_dec seg_dec e l then f e else 0%Z.
Proof.
  induction 1 as [|x l N D IH]; intros H; [reflexivity|]. cbn [zsum]. destruct (seg_dec x e) as [->|NE].
  - rewrite zsum_zero.
    + destruct (in_dec seg_dec e (e :: l)) as [|C]; [lia|]. destruct C. now left.
    + intros x Hx. apply H; [now right|]. intros ->. contradiction.
  - rewrite H, IH; auto; [|intros y Hy; apply H; now right|now left].
    destruct (in_dec seg_dec e l) as [A|A], (in_dec seg_dec e (x :: l)) as [B|B]; auto; exfalso.
    + apply B. now right.
    + destruct B as [->|B]; tauto.
Qed.
Lemma zsum_two (f : segment -> Z) l e g : NoDup l -> e <> g -> (forall x, In x l -> x <> e -> x <> g -> f x = 0%Z) ->
  zsum f l = ((if in_dec seg_dec e l then f e else 0) + (if in_dec seg_dec g l then f g else 0))%Z.
Proof.
  intros D N H. pose (f1 := fun x => if seg_dec x e then f x else 0%Z). pose (f2 := fun x => if seg_dec x e then 0%Z else f x).
  rewrite (zsum_ext f (fun x => f1 x + f2 x)%Z).
  - rewrite zsum_plus.
    assert (H1 : zsum f1 l = if in_dec seg_dec e l then f1 e else 0%Z).
    { apply zsum_one; auto. intros x Hx Nx. unfold f1. destruct (seg_dec x e); auto; contradiction. }
    assert (H2 : zsum f2 l = if in_dec seg_dec g l then f2 g else 0%Z).
    { apply zsum_one; auto. intros x Hx Nx. unfold f2. destruct (seg_dec x e); auto. }
    rewrite H1, H2. unfold f1, f2. destruct (seg_dec e e); [|contradiction]. destruct (seg_dec g e); [congruence|reflexivity].
  - intros x _. unfold f1, f2. destruct (seg_dec x e); lia.
Qed.
Lemma on_cross s x m : snd (fst s) <> m -> snd (snd s) <> m -> on_seg s (x, m) -> dz m s <> 0%Z /\ x = xat s m.
Proof.
  intros G0 G1 (t & T0 & T1 & E). destruct s as [[x0 y0] [x1 y1]]. unfold at_t, vadd, vscale, vsub in E. cbn [fst snd] in *. apply pair_inv in E as (E1 & E2).
  split.
  { unfold dz, below. cbn [fst snd]. destruct (qltb_spec m y0), (qltb_spec m y1); try lia; exfalso; pose proof (between_t y0 y1 t T0 T1) as BT; rewrite <- E2 in BT; destruct (qc_not_eq _ _ G0), (qc_not_eq _ _ G1); destruct BT as [(?&?)|(?&?)]; qlra. }
  unfold xat, slope. cbn [fst snd]. assert (D : y1 - y0 <> 0). { intros D. rewrite D in E2. apply G0. rewrite E2. ring. }
  pose proof (qdiv_mul (x1 - x0) (y1 - y0) D) as Q. set (k := (x1 - x0) / (y1 - y0)) in *. clearbody k.
  rewrite E2, E1, <- Q. ring.
Qed.
Lemma cross_inner s m : snd (fst s) <> m -> snd (snd s) <> m -> dz m s <> 0%Z -> inner s (xat s m, m).
Proof.
  intros G0 G1 D. destruct (crossing_on s 1 m G0 G1) as (t & T0 & T1 & E).
  { unfold crossing. cbn [snd]. destruct (Z.eqb_spec (dz m s) 0); auto. }
  exists t. assert (t <> 0). { intros ->. apply G0. apply (f_equal snd) in E. vec. rewrite E. ring. }
  assert (t <> 1). { intros ->. apply G1. apply (f_equal snd) in E. vec. rewrite E. ring. }
  split; [destruct (qc_not_eq _ _ H); qlra|]. split; auto. destruct (qc_not_eq _ _ H0); qlra.
Qed.
Lemma dz_rev m s : dz m (rev_e s) = (- dz m s)%Z.
Proof. unfold dz. cbn. lia. Qed.
Lemma dz_cases m s : dz m s = 0%Z \/ (dz m s = 1%Z /\ snd (fst s) < snd (snd s)) \/ (dz m s = (-1)%Z /\ snd (snd s) < snd (fst s)).
Proof. unfold dz, below. destruct (qltb_spec m (snd (snd s))), (qltb_spec m (snd (fst s))); auto; right; [left|right]; split; auto; qlra. Qed.

Lemma free_sym E p q : free E p q -> free E q p.
Proof. intros H x X. apply H. now apply on_seg_sym. Qed.

Section Level.
Variables (E Zs : list segment) (S : point -> Prop).
Hypothesis RV : forall e, In e E -> In (rev_e e) E.
Hypothesis PL : planar E.
Hypothesis S_move : forall p q, free E p q -> S p -> S q.
Hypothesis S_far : exists M, forall z, M < fst z -> off E z -> ~ S z.
Hypothesis ZE : incl Zs E.
Hypothesis ZN : NoDup Zs.
Hypothesis ZR : forall e, In e E -> (In e Zs /\ RT S e) \/ (~ In e Zs /\ RT (fun p => ~ S p) e).
Hypothesis ZB : forall m, zsum (dz m) Zs = 0%Z.
Hypothesis ZM : forall p q, free E p q -> zsum (delta p) Zs = zsum (delta q) Zs.

Section At.
Variable m : Qc.
Hypothesis generic : forall e, In e E -> snd (fst e) <> m /\ snd (snd e) <> m.
Definition xs : list Qc := map (fun e => xat e m) (filter (fun e => negb (dz m e =? 0)%Z) E).
Lemma xs_in e : In e E -> dz m e <> 0%Z -> In (xat e m) xs.
Proof. intros I D. apply in_map_iff. exists e. split; auto. apply filter_In. split; auto. destruct (Z.eqb_spec (dz m e) 0); auto. Qed.
Lemma xs_off x : ~ In x xs -> off E (x, m).
Proof. intros N e I O. destruct (generic e I) as (G0 & G1). apply on_cross in O as (D & ->); auto. apply N. now apply xs_in. Qed.
Lemma xs_free x y : (forall z, In z xs -> (z < x /\ z < y) \/ (x < z /\ y < z)) -> free E (x, m) (y, m).
Proof.
  intros H p (t & T0 & T1 & ->). replace (at_t ((x, m), (y, m)) t) with (x + t * (y - x), m) by (apply pteq; vec; ring).
  apply xs_off. intros I. pose proof (between_t x y t T0 T1) as B. destruct (H _ I) as [(A1 & A2)|(A1 & A2)], B as [(B1 & B2)|(B1 & B2)]; qlra.
Qed.
Definition Fm (x : Qc) : Z := zsum (fun e => (dz m e * sgn (x - xat e m))%Z) Zs.
Lemma Fm_delta x : ~ In x xs -> zsum (delta (x, m)) Zs = Fm x.
Proof.
  intros N. apply zsum_ext. intros e I. destruct (generic e (ZE _ I)) as (G0 & G1). destruct (Z.eq_dec (dz m e) 0) as [D|D].
  - rewrite D. rewrite (proj2 (delta_zero m e x)); auto.
  - apply delta_at; auto. intros ->. apply N. apply xs_in; auto.
Qed.
Lemma level_walk n : forall x, ~ In x xs -> (length (filter (fun y => qltb x y) xs) <= n)%nat ->
  (S (x, m) /\ Fm x = 2%Z) \/ (~ S (x, m) /\ Fm x = 0%Z).
Proof.
  induction n as [|n IH]; intros x Nx L; (destruct (next_one xs x) as [NO|(y & Y1 & Y2 & Y3)]).
  1, 3: right; split;
    [ destruct S_far as (M & HM); intros HS; pose (X := qmax (x + 1) (M + 1));
      assert (X1 : x < X /\ M < X) by (unfold X, qmax; destruct (qleb_spec (x + 1) (M + 1)); split; qlra); destruct X1 as (X1 & X2); clearbody X;
      assert (FR : free E (x, m) (X, m)) by
        (apply xs_free; intros z Hz; left; specialize (NO z Hz); assert (z <> x) by (intros ->; contradiction); destruct (qc_not_eq _ _ H); [split; [auto|qlra]|contradiction]);
      apply (HM (X, m)); [auto| |now apply (S_move (x, m))]; apply FR; exists 1; split; [qlra|]; split; [qlra|]; apply pteq; vec; ring
    | unfold Fm; rewrite (zsum_ext _ (dz m)); [apply ZB|]; intros e I; destruct (Z.eq_dec (dz m e) 0) as [D|D]; [rewrite D; lia|];
      pose proof (xs_in e (ZE _ I) D) as XI; specialize (NO _ XI); assert (xat e m <> x) by (intros A; rewrite A in XI; contradiction);
      destruct (qc_not_eq _ _ H); [|contradiction]; unfold sgn; destruct (qltb_spec 0 (x - xat e m)); [lia|exfalso; qlra] ].
  { exfalso. assert (In y (filter (fun y => qltb x y) xs)) by (apply filter_In; split; auto; destruct (qltb_spec x y); auto). destruct (filter (fun y0 : Qc => qltb x y0) xs); [auto|cbn in L; lia]. }
  destruct (gap_after xs y 1) as (x' & X1 & _ & X2); [qlra|].
  assert (Nx' : ~ In x' xs) by (intros I; destruct (X2 _ I); qlra).
  assert (PX : forall z, In z xs -> z < x \/ z = y \/ x' < z).
  { intros z Hz. assert (zx : z <> x) by (intros ->; contradiction). destruct (qc_not_eq _ _ zx) as [lt|lt]; auto. destruct (X2 z Hz); auto. specialize (Y3 z Hz lt). right. left. apply Qcle_antisym; auto. }
  destruct (IH x' Nx') as [IH'|IH'].
  { assert (length (filter (fun y0 => qltb x' y0) xs) < length (filter (fun y0 => qltb x y0) xs))%nat; [|lia].
    apply (filter_less _ _ xs y); auto; [intros z|..]; [destruct (qltb_spec x' z), (qltb_spec x z); auto; exfalso; qlra|destruct (qltb_spec x' y); auto; exfalso; qlra|destruct (qltb_spec x y); auto]. }
  all: assert (UP : exists e, In e E /\ dz m e = 1%Z /\ xat e m = y /\ snd (fst e) < snd (snd e));
    [ apply in_map_iff in Y1 as (e & <- & I); apply filter_In in I as (I & D); destruct (generic e I) as (G0 & G1);
      assert (D0 : dz m e <> 0%Z) by (destruct (Z.eqb_spec (dz m e) 0); [discriminate|auto]);
      destruct (dz_cases m e) as [?|[(D1 & U)|(D1 & U)]]; [contradiction|exists e; auto|];
      exists (rev_e e); split; [auto|]; split; [rewrite dz_rev; lia|]; split; [|exact U];
      destruct (on_cross (rev_e e) (xat e m) m) as (_ & X); auto; apply inner_on, inner_rev, cross_inner; auto
    | destruct UP as (e & IE & D1 & XY & U); destruct (generic e IE) as (G0 & G1);
      assert (IN : inner e (y, m)) by (rewrite <- XY; apply cross_inner; auto; lia) ].
  all: assert (FD : Fm x = (Fm x' + -2 * ((if in_dec seg_dec e Zs then 1 else 0) - (if in_dec seg_dec (rev_e e) Zs then 1 else 0)))%Z);
   [ clear IH'; assert (DF : (zsum (fun f => dz m f * sgn (x - xat f m) + -1 * (dz m f * sgn (x' - xat f m))) Zs = Fm x - Fm x')%Z) by (rewrite zsum_plus, zsum_scale; unfold Fm; lia);
     rewrite (zsum_two _ Zs e (rev_e e) ZN) in DF;
     [ assert (A0 : xat (rev_e e) m = y) by (destruct (on_cross (rev_e e) y m) as (_ & X); auto; apply inner_on, inner_rev; auto);
       rewrite dz_rev, D1, XY, A0 in DF; assert (Q1 : sgn (x - y) = (-1)%Z) by (unfold sgn; destruct (qltb_spec 0 (x - y)), (qltb_spec (x - y) 0); auto; exfalso; qlra);
       assert (Q2 : sgn (x' - y) = 1%Z) by (unfold sgn; destruct (qltb_spec 0 (x' - y)); auto; exfalso; qlra); rewrite Q1, Q2 in DF;
       destruct (in_dec seg_dec e Zs), (in_dec seg_dec (rev_e e) Zs); lia
     | intros C; apply (f_equal (fun s : segment => snd (fst s))) in C; cbn in C; rewrite C in U; qlra
     | intros f If N1 N2; destruct (Z.eq_dec (dz m f) 0) as [D|D]; [rewrite D; lia|]; pose proof (xs_in f (ZE _ If) D) as XI; destruct (generic f (ZE _ If)) as (F0 & F1);
       destruct (PX _ XI) as [A|[A|A]];
       [ unfold sgn; destruct (qltb_spec 0 (x - xat f m)), (qltb_spec 0 (x' - xat f m)); try (exfalso; qlra); lia
       | exfalso; destruct (PL e f (y, m)) as [C|C]; auto; rewrite <- A; apply inner_on, cross_inner; auto
       | unfold sgn; destruct (qltb_spec 0 (x - xat f m)), (qltb_spec 0 (x' - xat f m)), (qltb_spec (x - xat f m) 0), (qltb_spec (x' - xat f m) 0); try (exfalso; qlra); lia ] ]
   | ].
  all: assert (RX : (In e Zs /\ S (x', m)) \/ (~ In e Zs /\ ~ S (x', m)));
    [ destruct (ZR e IE) as [(A & R)|(A & R)]; [left|right]; (split; [exact A|]);
      (destruct (R (y, m) (1, 0)) as (dl & DL & HS); [exact IN|unfold right_of; vec; qlra|]);
      pose (t := qmin dl (x' - y)); (destruct (qmin_spec dl (x' - y)) as (M1 & M2 & M3)); fold t in M1, M2, M3; (assert (T0 : 0 < t) by (apply M3; [auto|qlra])); clearbody t; specialize (HS t T0 M1);
      replace (step (y, m) (1, 0) t) with (y + t, m) in HS by (apply pteq; vec; ring);
      (assert (FR : free E (y + t, m) (x', m)) by (apply xs_free; intros z Hz; destruct (PX z Hz) as [B|[B|B]]; [left|left|right]; split; qlra));
      [now apply (S_move (y + t, m))|intros C; apply HS; apply (S_move (x', m)); auto; now apply free_sym]
    | assert (LX : (In (rev_e e) Zs /\ S (x, m)) \/ (~ In (rev_e e) Zs /\ ~ S (x, m)));
      [ destruct (ZR (rev_e e) (RV e IE)) as [(A & R)|(A & R)]; [left|right]; (split; [exact A|]);
        (destruct (R (y, m) (- (1), 0)) as (dl & DL & HS); [now apply inner_rev|unfold right_of, rev_e; vec; qlra|]);
        pose (t := qmin dl (y - x)); (destruct (qmin_spec dl (y - x)) as (M1 & M2 & M3)); fold t in M1, M2, M3; (assert (T0 : 0 < t) by (apply M3; [auto|qlra])); clearbody t; specialize (HS t T0 M1);
        replace (step (y, m) (- (1), 0) t) with (y - t, m) in HS by (apply pteq; vec; ring);
        (assert (FR : free E (y - t, m) (x, m)) by (apply xs_free; intros z Hz; destruct (PX z Hz) as [B|[B|B]]; [left|right|right]; split; qlra));
        [now apply (S_move (y - t, m))|intros C; apply HS; apply (S_move (x, m)); auto; now apply free_sym]
      | rewrite FD; destruct IH' as (I1 & I2), RX as [(R1 & R2)|(R1 & R2)], LX as [(L1 & L2)|(L1 & L2)]; try contradiction; [left|right]; (split; [exact L2|]);
        destruct (in_dec seg_dec e Zs), (in_dec seg_dec (rev_e e) Zs); try contradiction; lia ] ].
Qed.
End At.

Theorem level_set p : off E p -> (S p /\ zsum (delta p) Zs = 2%Z) \/ (~ S p /\ zsum (delta p) Zs = 0%Z).
Proof.
  intros O. destruct (segs_away E p (0, 1) O) as (eps & Pe & AW).
  destruct (gap_after (flat_map (fun e => [snd (fst e); snd (snd e)]) E) (snd p) eps Pe) as (h & H1 & H2 & H3).
  assert (FR : free E p (fst p, h)).
  { intros x (t & T0 & T1 & ->) e I. replace (at_t (p, (fst p, h)) t) with (step p (0, 1) (t * (h - snd p))) by (apply pteq; vec; ring).
    apply AW; auto; [apply nonneg_mul; qlra|qnra]. }
  assert (G : forall e, In e E -> snd (fst e) <> h /\ snd (snd e) <> h).
  { intros e I. split; intros C; [destruct (H3 (snd (fst e)))|destruct (H3 (snd (snd e)))]; try qlra; apply in_flat_map; exists e; cbn; auto. }
  assert (NX : ~ In (fst p) (xs h)).
  { intros I. apply in_map_iff in I as (e & X & I). apply filter_In in I as (I & D). destruct (G e I) as (G0 & G1).
    assert (D0 : dz h e <> 0%Z) by (destruct (Z.eqb_spec (dz h e) 0); [discriminate|auto]).
    pose proof (cross_inner e h G0 G1 D0) as C. rewrite X in C. apply (FR (fst p, h)) in I; [apply I; now apply inner_on|].
    exists 1. split; [qlra|]. split; [qlra|]. apply pteq; vec; ring. }
  rewrite (ZM p (fst p, h) FR). rewrite (Fm_delta h G _ NX).
  destruct (level_walk h G _ (fst p) NX (le_n _)) as [(A & B)|(A & B)]; [left|right]; split; auto.
  - apply (S_move (fst p, h)); auto. now apply free_sym.
  - intros C. apply A. now apply (S_move p).
Qed.
End Level.
