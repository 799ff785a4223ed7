(** * Area is the integral of the winding number. *)
From Verif.Model Require Import Primitive2d.
From Verif.Spec Require Import Plane.
From Verif.Proofs Require Import PolyP WindingP WindingQ WindingR NearP PlanarP ArrGraphP.
From Verif.Props Require Import Primitive2dProps.
From Coq Require Import Permutation Sorted.

Lemma zq_plus a b : zq (a + b) = zq a + zq b.
Proof. apply Qc_is_canon. unfold zq. rewrite this_plus, !this_Q2Qc. now rewrite inject_Z_plus. Qed.
Lemma zq_mult a b : zq (a * b) = zq a * zq b.
Proof. apply Qc_is_canon. unfold zq. rewrite this_mult, !this_Q2Qc. now rewrite inject_Z_mult. Qed.
Lemma zq_opp a : zq (- a) = - zq a.
Proof. apply Qc_is_canon. unfold zq. rewrite this_opp, !this_Q2Qc. now rewrite inject_Z_opp. Qed.
Lemma zq_0 : zq 0 = 0. Proof. apply Qc_is_canon. reflexivity. Qed.
Lemma zq_1 : zq 1 = 1. Proof. apply Qc_is_canon. reflexivity. Qed.
Lemma zq_le a b : (a <= b)%Z -> zq a <= zq b.
Proof. intros H. unfold Qcle, zq. rewrite !this_Q2Qc. now rewrite <- Zle_Qle. Qed.
Lemma zq_lt a b : (a < b)%Z -> zq a < zq b.
Proof. intros H. unfold Qclt, zq. rewrite !this_Q2Qc. now rewrite <- Zlt_Qlt. Qed.
Lemma zq_zsum {X} (f : X -> Z) l : zq (zsum f l) = qsum (fun x => zq (f x)) l.
Proof. induction l; cbn [zsum qsum]; [apply zq_0|]. now rewrite zq_plus, IHl. Qed.
Lemma qsum_swap {X Y} (f : X -> Y -> Qc) l m : qsum (fun x => qsum (f x) m) l = qsum (fun y => qsum (fun x => f x y) l) m.
Proof.
  induction l as [|x l IH]; cbn [qsum].
  - induction m; cbn [qsum]; [reflexivity|]. rewrite <- IHm. qlra.
  - rewrite IH, <- qsum_plus. reflexivity.
Qed.
Lemma qsum_flat {X Y} (f : Y -> Qc) (g : X -> list Y) l : qsum f (flat_map g l) = qsum (fun x => qsum f (g x)) l.
Proof. induction l; cbn [flat_map qsum]; [reflexivity|]. now rewrite qsum_app, IHl. Qed.
Lemma zsum_flat {X Y} (f : Y -> Z) (g : X -> list Y) l : zsum f (flat_map g l) = zsum (fun x => zsum f (g x)) l.
Proof. induction l; cbn [flat_map zsum]; [reflexivity|]. now rewrite zsum_app, IHl. Qed.

(** ** strictly sorted cuts and the cells between them *)
Fixpoint ins (x : Qc) (l : list Qc) : list Qc :=
  match l with [] => [x] | y :: r => if qltb x y then x :: l else if qltb y x then y :: ins x r else l end.
Definition cuts (l : list Qc) : list Qc := fold_right ins [] l.
Lemma ins_in x l y : In y (ins x l) <-> y = x \/ In y l.
Proof.
  induction l as [|z l IH]; cbn [ins]; [cbn; intuition auto|]. destruct (qltb_spec x z) as [A|A]; [cbn; intuition auto|].
  destruct (qltb_spec z x) as [B|B]; cbn [In]; [rewrite IH; tauto|]. assert (x = z) by (apply Qcle_antisym; qlra). subst. intuition auto.
Qed.
Lemma ins_sorted x l : StronglySorted Qclt l -> StronglySorted Qclt (ins x l).
Proof.
  induction 1 as [|y l S IH F]; cbn [ins]; [repeat constructor|]. destruct (qltb_spec x y) as [A|A].
  - constructor; [constructor; auto|]. constructor; auto. rewrite Forall_forall in *. intros z Hz. specialize (F z Hz). qlra.
  - destruct (qltb_spec y x) as [B|B]; [|constructor; auto]. constructor; auto. rewrite Forall_forall in *. intros z Hz. apply ins_in in Hz as [->|Hz]; auto.
Qed.
Lemma cuts_sorted l : StronglySorted Qclt (cuts l).
Proof. induction l; cbn; [constructor|now apply ins_sorted]. Qed.
Lemma cuts_in l x : In x (cuts l) <-> In x l.
Proof. induction l; cbn [cuts fold_right]; [tauto|]. rewrite ins_in. cbn [In]. fold (cuts l). rewrite IHl. intuition auto. Qed.
Fixpoint cells (l : list Qc) : list (Qc * Qc) :=
  match l with a :: ((b :: _) as r) => (a, b) :: cells r | _ => [] end.
Definition mid (c : Qc * Qc) : Qc := qq 1 2 * (fst c + snd c).
Lemma half2 (x : Qc) : qq 1 2 * (x + x) = x. Proof. qlra. Qed.
Lemma cells_ok l c : StronglySorted Qclt l -> In c (cells l) ->
  In (fst c) l /\ In (snd c) l /\ fst c < snd c /\ fst c < mid c /\ mid c < snd c /\ forall x, In x l -> x <= fst c \/ snd c <= x.
Proof.
  intros S. induction S as [|a l S IH F]; [intros []|]. destruct l as [|b r]; [intros []|]. cbn [cells]. inversion F as [|? ? Fb Fr]; subst.
  intros [<-|H].
  - unfold mid. cbn [fst snd]. split; [now left|]. split; [right; now left|]. split; auto. split; [qlra|]. split; [qlra|].
    intros x [<-|[<-|Hx]]; [left; apply Qcle_refl|right; apply Qcle_refl|right]. apply Qclt_le_weak. inversion S as [|? ? ? Fb']; subst. rewrite Forall_forall in Fb'. auto.
  - destruct (IH H) as (A & B & C & D & E & G). split; [now right|]. split; [now right|]. split; auto. split; auto. split; auto.
    intros x [<-|Hx]; auto. left. rewrite Forall_forall in F. specialize (F _ A). qlra.
Qed.
Lemma cell_after l x y : StronglySorted Qclt l -> In x l -> In y l -> x < y -> exists v, In (x, v) (cells l) /\ v <= y.
Proof.
  intros S. induction S as [|a l S IH F]; [intros []|]. intros Hx Hy L. destruct l as [|b r].
  - destruct Hx as [<-|[]], Hy as [<-|[]]. qlra.
  - cbn [cells]. destruct Hx as [<-|Hx].
    + exists b. split; [now left|]. destruct Hy as [<-|[<-|Hy]]; [qlra|apply Qcle_refl|]. inversion S as [|? ? ? Fb']; subst. rewrite Forall_forall in Fb'. apply Qclt_le_weak. auto.
    + destruct Hy as [<-|Hy]; [rewrite Forall_forall in F; specialize (F _ Hx); qlra|]. destruct (IH Hx Hy L) as (v & A & B). exists v. split; [now right|auto].
Qed.
Lemma cells_tele (Phi : Qc -> Qc) l y d : StronglySorted Qclt l -> In y l ->
  qsum (fun c => if qltb (mid c) y then Phi (snd c) - Phi (fst c) else 0) (cells l) = Phi y - Phi (hd d l).
Proof.
  intros S. revert d. induction S as [|a l S IH F]; [intros d []|]. intros d Hy. destruct l as [|b r].
  - destruct Hy as [<-|[]]. cbn. qlra.
  - change (cells (a :: b :: r)) with ((a, b) :: cells (b :: r)). cbn [qsum hd]. inversion F as [|? ? Fb Fr]; subst. cbn [fst snd]. destruct Hy as [<-|Hy].
    + replace (qltb (mid (a, b)) a) with false by (destruct (qltb_spec (mid (a, b)) a); auto; unfold mid in *; cbn [fst snd] in *; qlra).
      rewrite (qsum_ext _ (fun _ => 0)).
      * assert (Z : forall {X} (m : list X), qsum (fun _ => 0) m = 0) by (intros X m; induction m; cbn; [reflexivity|rewrite IHm; qlra]). rewrite Z. qlra.
      * intros c Hc. destruct (cells_ok _ _ S Hc) as (A & _ & _ & B & _). rewrite Forall_forall in F. specialize (F _ A).
        destruct (qltb_spec (mid c) a); auto. qlra.
    + rewrite (IH b Hy). cbn [hd].
      replace (qltb (mid (a, b)) y) with true; [qlra|]. destruct (qltb_spec (mid (a, b)) y) as [_|N]; auto. exfalso. apply N.
      unfold mid. cbn [fst snd]. destruct Hy as [<-|Hy]; [qlra|]. inversion S as [|? ? ? Fb']; subst. rewrite Forall_forall in Fb'. specialize (Fb' _ Hy). qlra.
Qed.

(** ** one dimension *)
Definition F1 (l : list (Z * Qc)) (x : Qc) : Z := zsum (fun i => (fst i * sgn (x - snd i))%Z) l.
Definition below (x y : Qc) : Z := if qltb x y then 1%Z else 0%Z.
Lemma sgn_below x y : x <> y -> sgn (x - y) = (1 - 2 * below x y)%Z.
Proof. intros N. unfold sgn, below. destruct (qltb_spec 0 (x - y)), (qltb_spec (x - y) 0), (qltb_spec x y); try reflexivity; exfalso; try qlra. apply N. apply Qcle_antisym; qlra. Qed.
Lemma F1_below l x : zsum fst l = 0%Z -> ~ In x (map snd l) -> F1 l x = (-2 * zsum (fun i => fst i * below x (snd i)) l)%Z.
Proof.
  intros SZ N. unfold F1. rewrite (zsum_ext _ (fun i => (fst i + -2 * (fst i * below x (snd i)))%Z)).
  - rewrite zsum_plus, zsum_scale. change (zsum (fun x0 : Z * Qc => fst x0) l) with (zsum fst l). lia.
  - intros i Hi. rewrite sgn_below; [ring|]. intros E. apply N. rewrite E. now apply in_map.
Qed.
Lemma one_dim (l : list (Z * Qc)) : zsum fst l = 0%Z -> (forall x, ~ In x (map snd l) -> (0 <= F1 l x)%Z) ->
  0 <= - qsum (fun i => zq (fst i) * snd i) l /\
  ((exists x, ~ In x (map snd l) /\ (0 < F1 l x)%Z) -> 0 < - qsum (fun i => zq (fst i) * snd i) l).
Proof.
  intros SZ P.
  assert (G : forall xs, StronglySorted Qclt xs -> (forall x, In x (map snd l) -> In x xs) ->
    - qsum (fun i => zq (fst i) * snd i) l = qsum (fun c => (snd c - fst c) * (qq 1 2 * zq (F1 l (mid c)))) (cells xs)).
  { intros xs S I.
    transitivity (- qsum (fun i => zq (fst i) * (snd i - hd 0 xs)) l).
    { f_equal. rewrite (qsum_ext (fun i => zq (fst i) * (snd i - hd 0 xs)) (fun i => zq (fst i) * snd i + (- hd 0 xs) * zq (fst i))) by (intros; ring).
      rewrite qsum_plus, qsum_scale, <- (zq_zsum fst), SZ, zq_0. ring. }
    rewrite (qsum_ext (fun i => zq (fst i) * (snd i - hd 0 xs)) (fun i => qsum (fun c => zq (fst i) * (if qltb (mid c) (snd i) then snd c - fst c else 0)) (cells xs))).
    2:{ intros i Hi. rewrite qsum_scale. f_equal. symmetry. apply (cells_tele (fun t => t)); auto. apply I. now apply in_map. }
    rewrite qsum_swap. replace (- qsum _ (cells xs)) with (- (1) * qsum (fun y => qsum (fun x => zq (fst x) * (if qltb (mid y) (snd x) then snd y - fst y else 0)) l) (cells xs)) by ring.
    rewrite <- qsum_scale. apply qsum_ext. intros c Hc. destruct (cells_ok _ _ S Hc) as (_ & _ & C1 & C2 & C3 & C4).
    rewrite F1_below; auto.
    2:{ intros H. apply I in H. destruct (C4 _ H); qlra. }
    rewrite zq_mult, zq_zsum. replace (zq (-2)) with (- (1 + 1)) by (apply Qc_is_canon; reflexivity).
    replace ((snd c - fst c) * (qq 1 2 * (- (1 + 1) * qsum (fun x => zq (fst x * below (mid c) (snd x))) l))) with
      (- (1) * ((snd c - fst c) * qsum (fun x => zq (fst x * below (mid c) (snd x))) l) * (qq 1 2 * (1 + 1))) by ring.
    replace (qq 1 2 * (1 + 1)) with 1 by (apply Qc_is_canon; reflexivity).
    rewrite (qsum_ext (fun x => zq (fst x) * (if qltb (mid c) (snd x) then snd c - fst c else 0)) (fun x => (snd c - fst c) * zq (fst x * below (mid c) (snd x)))); [rewrite qsum_scale; ring|].
    intros i _. rewrite zq_mult. unfold below. destruct (qltb (mid c) (snd i)); rewrite ?zq_1, ?zq_0; ring. }
  assert (NN : forall xs, StronglySorted Qclt xs -> (forall x, In x (map snd l) -> In x xs) -> forall c, In c (cells xs) ->
    ~ In (mid c) (map snd l) /\ 0 <= (snd c - fst c) * (qq 1 2 * zq (F1 l (mid c)))).
  { intros xs S I c Hc. destruct (cells_ok _ _ S Hc) as (_ & _ & C1 & C2 & C3 & C4).
    assert (N : ~ In (mid c) (map snd l)) by (intros H; apply I in H; destruct (C4 _ H); qlra). split; auto.
    apply nonneg_mul; [qlra|]. apply P in N. apply zq_le in N. rewrite zq_0 in N. qlra. }
  split.
  - rewrite (G (cuts (map snd l))); [|apply cuts_sorted|intros; now apply cuts_in]. apply qsum_nonneg. intros c Hc.
    refine (proj2 (NN _ (cuts_sorted (map snd l)) _ c Hc)). intros; now apply cuts_in.
  - intros (x & N & Fx). set (xs := cuts (x :: map snd l)).
    assert (S : StronglySorted Qclt xs) by apply cuts_sorted. assert (I : forall y, In y (map snd l) -> In y xs) by (intros; apply cuts_in; now right).
    rewrite (G xs S I). apply qsum_pos; [intros c Hc; apply (NN xs S I c Hc)|].
    assert (exists i, In i l /\ x < snd i) as (i & Hi & L).
    { rewrite F1_below in Fx by auto. destruct (existsb (fun i => qltb x (snd i)) l) eqn:E.
      - apply existsb_exists in E as (i & Hi & L). exists i. split; auto. now apply qltb_lt.
      - exfalso. rewrite (zsum_ext _ (fun _ => 0%Z)) in Fx.
        + assert (Zz : forall m : list (Z * Qc), zsum (fun _ => 0%Z) m = 0%Z) by (intros m; induction m; cbn; auto). rewrite Zz in Fx. lia.
        + intros i Hi. unfold below. destruct (qltb x (snd i)) eqn:L; [|lia]. exfalso.
          assert (existsb (fun i => qltb x (snd i)) l = true) by (apply existsb_exists; eauto). congruence. }
    destruct (cell_after xs x (snd i) S) as (v & Hv & _); [apply cuts_in; now left|apply I; now apply in_map|auto|].
    exists (x, v). split; auto. destruct (NN xs S I _ Hv) as (Nm & _). destruct (cells_ok _ _ S Hv) as (_ & _ & C1 & C2 & C3 & C4). cbn [fst snd] in *.
    assert (E : F1 l (mid (x, v)) = F1 l x).
    { rewrite !F1_below by auto. f_equal. apply zsum_ext. intros j Hj. f_equal. unfold below.
      assert (Nj : snd j <> x) by (intros Ej; apply N; rewrite <- Ej; now apply in_map).
      destruct (C4 (snd j)) as [A|A]; [apply I; now apply in_map|..]; destruct (qltb_spec (mid (x, v)) (snd j)), (qltb_spec x (snd j)); auto; exfalso; qlra. }
    rewrite E. apply zq_lt in Fx. rewrite zq_0 in Fx. set (w := zq (F1 l x)) in *. clearbody w. apply mpp; qlra.
Qed.

(** ** two dimensions: chains of weighted rings *)
Definition wch (ch : list (Z * list point)) (p : point) : Z := zsum (fun kr => (fst kr * wsum p (snd kr))%Z) ch.
Definition ach (ch : list (Z * list point)) : Qc := qsum (fun kr => zq (fst kr) * area_of (snd kr)) ch.
Definition och (ch : list (Z * list point)) (p : point) : Prop := forall kr, In kr ch -> ~ on_boundary (snd kr) p.
Definition ech (ch : list (Z * list point)) : list (Z * segment) := flat_map (fun kr => map (fun s => (fst kr, s)) (edges_iter (snd kr))) ch.

Definition trap (s : segment) : Qc := qq 1 2 * ((fst (fst s) + fst (snd s)) * (snd (snd s) - snd (fst s))).
Lemma area_trap r : area_of r = - qsum trap (edges_iter r).
Proof.
  rewrite (area_of_fan (0, 0)). unfold fan2. change cyclic_pairs with edges_iter. rewrite <- !(qsum_perm _ _ _ (pedges_perm r)).
  pose proof (pedges_tele_q (fun v => qq 1 2 * (fst v * snd v)) r) as T.
  rewrite (qsum_ext trap (fun s => qq 1 2 * orient (0, 0) (fst s) (snd s) + (qq 1 2 * (fst (snd s) * snd (snd s)) - qq 1 2 * (fst (fst s) * snd (fst s))))).
  - rewrite qsum_plus, T, qsum_scale. ring.
  - intros [[x0 y0] [x1 y1]] _. unfold trap, orient, cross, vsub. cbn [fst snd]. ring.
Qed.
Lemma ach_edges ch : ach ch = - qsum (fun ks => zq (fst ks) * trap (snd ks)) (ech ch).
Proof.
  unfold ach, ech. rewrite qsum_flat. rewrite (qsum_ext (fun kr => zq (fst kr) * area_of (snd kr)) (fun kr => - (1) * qsum (fun ks => zq (fst ks) * trap (snd ks)) (map (fun s => (fst kr, s)) (edges_iter (snd kr))))).
  - rewrite qsum_scale. ring.
  - intros kr _. rewrite area_trap, qsum_map. cbn [fst snd]. rewrite qsum_scale. ring.
Qed.
(** abscissa of the carrier line at height [m] *)
Definition slope (s : segment) : Qc := (fst (snd s) - fst (fst s)) / (snd (snd s) - snd (fst s)).
Definition xat (s : segment) (m : Qc) : Qc := fst (fst s) + (m - snd (fst s)) * slope s.
Definition dz (m : Qc) (s : segment) : Z := (below m (snd (snd s)) - below m (snd (fst s)))%Z.
Lemma trap_slabs s ys : StronglySorted Qclt ys -> In (snd (fst s)) ys -> In (snd (snd s)) ys ->
  trap s = qsum (fun c => (snd c - fst c) * (zq (dz (mid c) s) * xat s (mid c))) (cells ys).
Proof.
  intros S I0 I1. set (Phi := fun t => fst (fst s) * t + slope s * (qq 1 2 * (t * t) - snd (fst s) * t)).
  pose proof (cells_tele Phi ys _ 0 S I0) as T0. pose proof (cells_tele Phi ys _ 0 S I1) as T1.
  transitivity (Phi (snd (snd s)) - Phi (snd (fst s))).
  - unfold trap, Phi, slope. destruct s as [[x0 y0] [x1 y1]]. cbn [fst snd]. destruct (qeqb_spec (y1 - y0) 0) as [E|E].
    + replace y1 with y0 by qlra. ring.
    + pose proof (qdiv_mul (x1 - x0) (y1 - y0) E) as D. set (k := (x1 - x0) / (y1 - y0)) in *. clearbody k.
      replace x1 with (k * (y1 - y0) + x0) by qlra. qnra.
  - transitivity (Phi (snd (snd s)) - Phi (hd 0 ys) + (- (1)) * (Phi (snd (fst s)) - Phi (hd 0 ys))); [ring|].
    rewrite <- T0, <- T1, <- qsum_scale, <- qsum_plus. apply qsum_ext. intros c Hc.
    unfold dz, below, Z.sub. rewrite zq_plus, zq_opp. assert (E : Phi (snd c) - Phi (fst c) = (snd c - fst c) * xat s (mid c)).
    { unfold Phi, xat, mid. set (k := slope s). clearbody k. qnra. }
    rewrite E. destruct (qltb (mid c) (snd (snd s))), (qltb (mid c) (snd (fst s))); rewrite ?zq_0, ?zq_1; ring.
Qed.

Lemma zsum_filter {X} (f : X -> bool) (g : X -> Z) l : (forall x, f x = false -> g x = 0%Z) -> zsum g (filter f l) = zsum g l.
Proof. intros H. induction l as [|x l IH]; cbn [filter zsum]; auto. destruct (f x) eqn:E; cbn [zsum]; rewrite IH; auto. rewrite (H x E). lia. Qed.
Lemma qsum_filter {X} (f : X -> bool) (g : X -> Qc) l : (forall x, f x = false -> g x = 0) -> qsum g (filter f l) = qsum g l.
Proof. intros H. induction l as [|x l IH]; cbn [filter qsum]; auto. destruct (f x) eqn:E; cbn [qsum]; rewrite IH; auto. rewrite (H x E). ring. Qed.
Section Level.
Variable ch : list (Z * list point).
Variable m : Qc.
Hypothesis generic : forall ks, In ks (ech ch) -> snd (fst (snd ks)) <> m /\ snd (snd (snd ks)) <> m.
Definition crossing (ks : Z * segment) : bool := negb (dz m (snd ks) =? 0)%Z.
Definition items : list (Z * Qc) := map (fun ks => ((fst ks * dz m (snd ks))%Z, xat (snd ks) m)) (filter crossing (ech ch)).
Lemma items_zero : zsum fst items = 0%Z.
Proof.
  unfold items. rewrite zsum_map. cbn [fst]. rewrite zsum_filter.
  2:{ intros ks E. unfold crossing in E. destruct (Z.eqb_spec (dz m (snd ks)) 0) as [->|]; [lia|discriminate]. }
  unfold ech. rewrite zsum_flat. rewrite (zsum_ext _ (fun _ => 0%Z)).
  - clear. induction ch; cbn; auto.
  - intros kr _. rewrite zsum_map. cbn [fst snd]. rewrite zsum_scale. unfold dz. rewrite <- (zsum_perm _ _ _ (pedges_perm (snd kr))).
    rewrite (pedges_tele_z (fun v => below m (snd v)) (snd kr)). lia.
Qed.
Lemma delta_at s x : snd (fst s) <> m -> snd (snd s) <> m -> x <> xat s m -> delta (x, m) s = (dz m s * sgn (x - xat s m))%Z.
Proof.
  intros N0 N1 Nx. destruct s as [[x0 y0] [x1 y1]]. unfold delta, above, dz, below, xat, slope in *. cbn [fst snd] in *.
  assert (O : y1 - y0 <> 0 -> orient (x0, y0) (x1, y1) (x, m) = (y1 - y0) * (x0 + (m - y0) * ((x1 - x0) / (y1 - y0)) - x)).
  { intros E. pose proof (qdiv_mul (x1 - x0) (y1 - y0) E) as D. set (k := (x1 - x0) / (y1 - y0)) in *. clearbody k. unfold orient, cross, vsub. cbn [fst snd].
    replace x1 with (k * (y1 - y0) + x0) by qlra. ring. }
  destruct (qltb_spec m y0) as [A|A], (qltb_spec m y1) as [B|B]; cbn [xorb]; [lia| | |lia].
  - assert (E : y1 - y0 <> 0) by (intros E; qlra). rewrite (O E). set (k := (x1 - x0) / (y1 - y0)) in *. clearbody k. clear O.
    set (X := x0 + (m - y0) * k) in *. clearbody X. assert (L : y1 < y0) by qlra.
    destruct (sgn_cases (x - X)) as [(P & ->)|[(P & ->)|(P & ->)]]; [rewrite sgn_pos; [lia|qnra]| |rewrite sgn_neg; [lia|qnra]].
    exfalso. apply Nx. qlra.
  - assert (E : y1 - y0 <> 0) by (intros E; qlra). rewrite (O E). set (k := (x1 - x0) / (y1 - y0)) in *. clearbody k. clear O.
    set (X := x0 + (m - y0) * k) in *. clearbody X. assert (L : y0 < y1) by qlra.
    destruct (sgn_cases (x - X)) as [(P & ->)|[(P & ->)|(P & ->)]]; [rewrite sgn_neg; [lia|qnra]| |rewrite sgn_pos; [lia|qnra]].
    exfalso. apply Nx. qlra.
Qed.
Lemma delta_zero s x : (True -> True) /\ (dz m s = 0%Z -> delta (x, m) s = 0%Z).
Proof. split; auto. unfold dz, below, delta, above. cbn [snd]. destruct (qltb m (snd (snd s))), (qltb m (snd (fst s))); cbn; auto; lia. Qed.
Lemma items_F x : ~ In x (map snd items) -> F1 items x = wch ch (x, m).
Proof.
  intros N. unfold F1. unfold items at 1. rewrite zsum_map. cbn [fst snd]. unfold wch.
  rewrite (zsum_ext _ (fun ks => (fst ks * delta (x, m) (snd ks))%Z)).
  - rewrite zsum_filter.
    2:{ intros ks E. rewrite (proj2 (delta_zero (snd ks) x)); [lia|]. unfold crossing in E. destruct (Z.eqb_spec (dz m (snd ks)) 0); auto; discriminate. }
    unfold ech. rewrite zsum_flat. apply zsum_ext. intros kr _. rewrite zsum_map. cbn [fst snd]. rewrite zsum_scale. reflexivity.
  - intros ks Hf. pose proof (proj1 (proj1 (filter_In _ _ _) Hf)) as Hk. destruct (generic ks Hk) as (G0 & G1). rewrite delta_at; auto; [ring|]. intros E. apply N. unfold items. rewrite map_map. cbn [snd].
    rewrite E. apply in_map_iff. eauto.
Qed.
Lemma items_off x : ~ In x (map snd items) -> och ch (x, m).
Proof.
  intros N kr Hk B. apply on_boundary_iff in B as (s & Hs & O). apply N. unfold items. rewrite map_map. cbn [snd].
  assert (I : In (fst kr, s) (ech ch)) by (apply in_flat_map; exists kr; split; auto; now apply in_map).
  apply in_map_iff. exists (fst kr, s). destruct (generic _ I) as (G0 & G1). cbn [fst snd] in *.
  destruct O as (t & T0 & T1 & E). destruct s as [[x0 y0] [x1 y1]]. unfold at_t, vadd, vscale, vsub in E. cbn [fst snd] in *. apply pair_inv in E as (E1 & E2).
  unfold xat, slope. cbn [fst snd].
  assert (X : x = x0 + (m - y0) * ((x1 - x0) / (y1 - y0)) /\ dz m ((x0, y0), (x1, y1)) <> 0%Z); [|split; [symmetry; apply X|apply filter_In; split; auto; unfold crossing; cbn [snd]; destruct (Z.eqb_spec (dz m ((x0, y0), (x1, y1))) 0); auto; tauto]].
  split.
  2:{ unfold dz, below. cbn [fst snd]. destruct (qltb_spec m y0), (qltb_spec m y1); try lia; exfalso; pose proof (between_t y0 y1 t T0 T1) as BT; rewrite <- E2 in BT; destruct (qc_not_eq _ _ G0), (qc_not_eq _ _ G1); destruct BT as [(?&?)|(?&?)]; qlra. }
  assert (D : y1 - y0 <> 0). { intros D. rewrite D in E2. apply G0. rewrite E2. ring. }
  pose proof (qdiv_mul (x1 - x0) (y1 - y0) D) as Q. set (k := (x1 - x0) / (y1 - y0)) in *. clearbody k.
  rewrite E2, E1, <- Q. ring.
Qed.
End Level.
Lemma crossing_on s k m : snd (fst s) <> m -> snd (snd s) <> m -> crossing m (k, s) = true -> on_seg s (xat s m, m).
Proof.
  intros N0 N1 C. destruct s as [[x0 y0] [x1 y1]]. unfold crossing, dz, below, xat, slope in *. cbn [fst snd] in *.
  assert (D : y1 - y0 <> 0). { intros D. assert (y1 = y0) by qlra. subst y1. destruct (qltb m y0); discriminate. }
  pose proof (qdiv_mul (x1 - x0) (y1 - y0) D) as Q. pose proof (qdiv_mul (m - y0) (y1 - y0) D) as T.
  exists ((m - y0) / (y1 - y0)). set (k0 := (x1 - x0) / (y1 - y0)) in *. set (t := (m - y0) / (y1 - y0)) in *. clearbody k0 t.
  assert (B : (y0 < m /\ m < y1) \/ (y1 < m /\ m < y0)).
  { destruct (qltb_spec m y1), (qltb_spec m y0); try discriminate C; [left|right]; split; auto; destruct (qc_not_eq _ _ N0), (qc_not_eq _ _ N1); auto; exfalso; auto. }
  split; [destruct (Qclt_le_dec t 0); auto; exfalso; destruct B as [(?&?)|(?&?)]; qnra|]. split; [destruct (Qclt_le_dec 1 t); auto; exfalso; destruct B as [(?&?)|(?&?)]; qnra|]. unfold at_t, vadd, vscale, vsub. cbn [fst snd]. apply f_equal2; [|qlra].
  replace (x1 - x0) with (k0 * (y1 - y0)). rewrite <- T. ring.
Qed.

Lemma wch_move ch p q : (forall x, on_seg (p, q) x -> och ch x) -> wch ch p = wch ch q.
Proof. intros H. unfold wch. apply zsum_ext. intros kr Hk. f_equal. apply wsum_move. intros x X. now apply H. Qed.

(** the area of a chain that winds non-negatively everywhere is non-negative, and positive if it winds somewhere *)
Theorem area_pos ch : (forall p, och ch p -> (0 <= wch ch p)%Z) ->
  0 <= ach ch /\ ((exists p, och ch p /\ (0 < wch ch p)%Z) -> 0 < ach ch).
Proof.
  intros P.
  set (vys := flat_map (fun ks => [snd (fst (snd ks)); snd (snd (snd ks))]) (ech ch)).
  assert (V : forall ks, In ks (ech ch) -> In (snd (fst (snd ks))) vys /\ In (snd (snd (snd ks))) vys).
  { intros ks Hk. split; apply in_flat_map; exists ks; cbn; auto. }
  assert (G : forall ys, StronglySorted Qclt ys -> (forall y, In y vys -> In y ys) ->
    ach ch = qsum (fun c => (snd c - fst c) * - qsum (fun i => zq (fst i) * snd i) (items ch (mid c))) (cells ys) /\
    forall c, In c (cells ys) -> fst c < snd c /\ (forall ks, In ks (ech ch) -> snd (fst (snd ks)) <> mid c /\ snd (snd (snd ks)) <> mid c)).
  { intros ys S I. split.
    - rewrite ach_edges.
      rewrite (qsum_ext (fun ks => zq (fst ks) * trap (snd ks)) (fun ks => qsum (fun c => zq (fst ks) * ((snd c - fst c) * (zq (dz (mid c) (snd ks)) * xat (snd ks) (mid c)))) (cells ys))).
      2:{ intros ks Hk. destruct (V ks Hk). rewrite qsum_scale. f_equal. apply trap_slabs; auto. }
      rewrite qsum_swap. match goal with |- - ?q = _ => replace (- q) with (- (1) * q) by ring end. rewrite <- qsum_scale. apply qsum_ext. intros c Hc.
      unfold items. rewrite qsum_map. cbn [fst snd]. rewrite qsum_filter.
      2:{ intros ks E. unfold crossing in E. destruct (Z.eqb_spec (dz (mid c) (snd ks)) 0) as [->|]; [|discriminate]. rewrite Z.mul_0_r, zq_0. ring. }
      rewrite (qsum_ext (fun x => zq (fst x) * ((snd c - fst c) * (zq (dz (mid c) (snd x)) * xat (snd x) (mid c)))) (fun x => (snd c - fst c) * (zq (fst x * dz (mid c) (snd x)) * xat (snd x) (mid c)))).
      + rewrite qsum_scale. ring.
      + intros ks _. rewrite zq_mult. ring.
    - intros c Hc. destruct (cells_ok _ _ S Hc) as (_ & _ & C1 & C2 & C3 & C4). split; auto. intros ks Hk. destruct (V ks Hk) as (V0 & V1).
      split; intros E; [destruct (C4 _ (I _ V0))|destruct (C4 _ (I _ V1))]; qlra. }
  assert (N : forall ys, StronglySorted Qclt ys -> (forall y, In y vys -> In y ys) -> forall c, In c (cells ys) ->
     0 <= - qsum (fun i => zq (fst i) * snd i) (items ch (mid c)) /\
     ((exists x, ~ In x (map snd (items ch (mid c))) /\ (0 < wch ch (x, mid c))%Z) -> 0 < - qsum (fun i => zq (fst i) * snd i) (items ch (mid c)))).
  { intros ys S I c Hc. destruct (proj2 (G ys S I) c Hc) as (L & GE).
    destruct (one_dim (items ch (mid c))) as (A & B).
    - apply items_zero; auto.
    - intros x Hx. rewrite items_F by auto. apply P. eapply items_off; eauto.
    - split; auto. intros (x & Nx & W). apply B. exists x. split; auto. rewrite items_F; auto. }
  split.
  - assert (S : StronglySorted Qclt (cuts vys)) by apply cuts_sorted. assert (I : forall y, In y vys -> In y (cuts vys)) by (intros; now apply cuts_in).
    destruct (G _ S I) as (-> & C). apply qsum_nonneg. intros c Hc. destruct (C c Hc). apply nonneg_mul; [qlra|]. apply (N _ S I c Hc).
  - intros (p & Op & Wp).
    destruct (segs_away (map snd (ech ch)) p (0, 1)) as (eps & Pe & Away).
    { intros s Hs O. apply in_map_iff in Hs as (ks & <- & Hk). apply in_flat_map in Hk as (kr & Hr & Hk). apply in_map_iff in Hk as (s & <- & Hs).
      apply (Op kr Hr). apply on_boundary_iff. exists s. auto. }
    set (ys := cuts (snd p :: (snd p + eps) :: vys)).
    assert (S : StronglySorted Qclt ys) by apply cuts_sorted. assert (I : forall y, In y vys -> In y ys) by (intros; apply cuts_in; cbn; auto).
    destruct (G _ S I) as (-> & C). apply qsum_pos.
    { intros c Hc. destruct (C c Hc). apply nonneg_mul; [qlra|]. apply (N _ S I c Hc). }
    destruct (cell_after ys (snd p) (snd p + eps) S) as (v & Hv & Lv); [apply cuts_in; cbn; auto|apply cuts_in; cbn; auto|qlra|].
    exists (snd p, v). split; auto. destruct (C _ Hv) as (L & GE). apply mpp; [qlra|]. apply (N ys S I _ Hv). destruct (cells_ok _ _ S Hv) as (_ & _ & _ & M1 & M2 & _). cbn [fst snd] in *.
    set (mm := mid (snd p, v)) in *. clearbody mm.
    assert (OFF : forall t, 0 <= t -> t <= eps -> och ch (fst p, snd p + t)).
    { intros t T0 T1 kr Hr B. apply on_boundary_iff in B as (s & Hs & O). apply (Away s t); auto.
      - apply in_map_iff. exists (fst kr, s). split; auto. apply in_flat_map. exists kr. split; auto. now apply in_map.
      - replace (step p (0, 1) t) with (fst p, snd p + t); auto. unfold step, vadd, vscale. cbn [fst snd]. f_equal; ring. }
    exists (fst p). split.
    + intros H. apply in_map_iff in H as (i & E & Hi). unfold items in Hi. apply in_map_iff in Hi as (ks & <- & Hf). cbn [snd] in E.
      apply filter_In in Hf as (Hk & Cr). destruct (GE ks Hk) as (G0 & G1). apply in_flat_map in Hk as (kr & Hr & Hk). apply in_map_iff in Hk as (s & <- & Hs). cbn [snd] in *.
      refine (OFF (mm - snd p) _ _ kr Hr _); [qlra|qlra|]. apply on_boundary_iff. exists s. split; auto. replace (snd p + (mm - snd p)) with mm by ring. rewrite <- E.
      now apply (crossing_on s (fst kr)).
    + replace (wch ch (fst p, mm)) with (wch ch p); auto. apply wch_move. intros x (t & T0 & T1 & ->).
      replace (at_t (p, (fst p, mm)) t) with (fst p, snd p + t * (mm - snd p)).
      * apply OFF; [apply nonneg_mul; qlra|]. qnra.
      * unfold at_t, vadd, vscale, vsub. cbn [fst snd]. f_equal; ring.
Qed.
