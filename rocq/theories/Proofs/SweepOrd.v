(** * Orders used by the sweep: events, segments at a level, sweep keys. *)
From Coq Require Import Sorting.Sorted.
From Verif.Model Require Import Scan2d.
From Verif.Proofs Require Import PyP.

(** ** event order *)
Definition evlt (p q : point) : Prop := snd p < snd q \/ (snd p = snd q /\ fst p < fst q).
Definition evle (p q : point) : Prop := snd p < snd q \/ (snd p = snd q /\ fst p <= fst q).

Lemma ev_ltb_spec p q : reflect (evlt p q) (ev_ltb p q).
Proof.
  unfold ev_ltb, pt_ltb, evlt. cbn [fst snd]. destruct (qeqb_spec (snd p) (snd q)).
  - destruct (qltb_spec (fst p) (fst q)); constructor; [auto|]. intros [H|(_ & H)]; auto. qlra.
  - destruct (qltb_spec (snd p) (snd q)); constructor; [auto|]. intros [H|(H & _)]; auto.
Qed.
Lemma evlt_irrefl p : ~ evlt p p.
Proof. intros [H|(_ & H)]; qlra. Qed.
Lemma evlt_trans p q r : evlt p q -> evlt q r -> evlt p r.
Proof. intros [H|(H & H')] [K|(K & K')]; unfold evlt; try (left; qlra). right. split; qlra. Qed.
Lemma evle_lt_trans p q r : evle p q -> evlt q r -> evlt p r.
Proof. intros [H|(H & H')] [K|(K & K')]; unfold evlt; try (left; qlra). right. split; qlra. Qed.
Lemma evlt_le_trans p q r : evlt p q -> evle q r -> evlt p r.
Proof. intros [H|(H & H')] [K|(K & K')]; unfold evlt; try (left; qlra). right. split; qlra. Qed.
Lemma evle_trans p q r : evle p q -> evle q r -> evle p r.
Proof. intros [H|(H & H')] [K|(K & K')]; unfold evle; try (left; qlra). right. split; qlra. Qed.
Lemma evle_refl p : evle p p.
Proof. right. split; auto. qlra. Qed.
Lemma evlt_le p q : evlt p q -> evle p q.
Proof. intros [H|(H & H')]; [left|right; split]; auto. qlra. Qed.
Lemma ev_nlt p q : ~ evlt p q -> evle q p.
Proof.
  intros N. unfold evlt, evle in *. destruct (qltb_spec (snd q) (snd p)); auto. right.
  assert (E : snd q = snd p).
  { destruct (qeqb_spec (snd q) (snd p)); auto. destruct (qc_not_eq _ _ n0); [contradiction|]. elim N. auto. }
  split; auto. destruct (qleb_spec (fst q) (fst p)); auto. elim N. right. split; auto. qlra.
Qed.
Lemma evle_nlt p q : evle p q -> ~ evlt q p.
Proof. intros H K. exact (evlt_irrefl _ (evle_lt_trans _ _ _ H K)). Qed.
Lemma pt_eq (p q : point) : fst p = fst q -> snd p = snd q -> p = q.
Proof. destruct p, q. cbn. now intros -> ->. Qed.
Lemma evle_antisym p q : evle p q -> evle q p -> p = q.
Proof. intros [H|(H & H')] [K|(K & K')]; try (exfalso; qlra). apply pt_eq; qlra. Qed.
Lemma evle_cases p q : evle p q -> evlt p q \/ p = q.
Proof.
  intros H. destruct (ev_ltb_spec p q); auto. right. apply evle_antisym; auto. now apply ev_nlt.
Qed.
Lemma ev_total p q : evlt p q \/ p = q \/ evlt q p.
Proof. destruct (ev_ltb_spec p q); auto. apply ev_nlt in n. destruct (evle_cases _ _ n); auto. Qed.

(** ** tuple order on segments *)
Definition plt (p q : point) : Prop := fst p < fst q \/ (fst p = fst q /\ snd p < snd q).
Definition slt (s t : segment) : Prop := plt (fst s) (fst t) \/ (fst s = fst t /\ plt (snd s) (snd t)).
Lemma pt_ltb_spec p q : reflect (plt p q) (pt_ltb p q).
Proof.
  unfold pt_ltb, plt. destruct (qeqb_spec (fst p) (fst q)).
  - destruct (qltb_spec (snd p) (snd q)); constructor; [auto|]. intros [H|(_ & H)]; auto. qlra.
  - destruct (qltb_spec (fst p) (fst q)); constructor; [auto|]. intros [H|(H & _)]; auto.
Qed.
Lemma pt_eqb_ok p q : reflect (p = q) (pt_eqb p q).
Proof.
  unfold pt_eqb. destruct (qeqb_spec (fst p) (fst q)), (qeqb_spec (snd p) (snd q)); cbn; constructor;
    try (intros ->; contradiction). now apply pt_eq.
Qed.
Lemma seg_eqb_ok s t : reflect (s = t) (seg_eqb s t).
Proof.
  unfold seg_eqb. destruct (pt_eqb_ok (fst s) (fst t)), (pt_eqb_ok (snd s) (snd t)); cbn; constructor;
    try (intros ->; contradiction). destruct s, t. cbn in *. congruence.
Qed.
Lemma plt_irrefl p : ~ plt p p.
Proof. intros [H|(_ & H)]; qlra. Qed.
Lemma plt_trans p q r : plt p q -> plt q r -> plt p r.
Proof. intros [H|(H & H')] [K|(K & K')]; unfold plt; try (left; qlra). right. split; qlra. Qed.
Lemma plt_total p q : plt p q \/ p = q \/ plt q p.
Proof.
  unfold plt. destruct (qeqb_spec (fst p) (fst q)) as [E|N].
  - destruct (qeqb_spec (snd p) (snd q)) as [E'|N']; [right; left; now apply pt_eq|].
    destruct (qc_not_eq _ _ N'); auto.
  - destruct (qc_not_eq _ _ N); auto.
Qed.
Lemma seg_ltb_spec s t : reflect (slt s t) (seg_ltb s t).
Proof.
  unfold seg_ltb, slt. destruct (pt_eqb_ok (fst s) (fst t)).
  - destruct (pt_ltb_spec (snd s) (snd t)); constructor; [auto|]. intros [H|(_ & H)]; auto.
    rewrite e in H. now apply plt_irrefl in H.
  - destruct (pt_ltb_spec (fst s) (fst t)); constructor; [auto|]. intros [H|(H & _)]; auto.
Qed.
Lemma slt_irrefl s : ~ slt s s.
Proof. intros [H|(_ & H)]; now apply plt_irrefl in H. Qed.
Lemma slt_trans s t u : slt s t -> slt t u -> slt s u.
Proof.
  intros [H|(H & H')] [K|(K & K')]; unfold slt.
  - left. eapply plt_trans; eauto.
  - left. now rewrite <- K.
  - left. now rewrite H.
  - right. split; [congruence|]. eapply plt_trans; eauto.
Qed.
Lemma slt_total s t : slt s t \/ s = t \/ slt t s.
Proof.
  unfold slt. destruct (plt_total (fst s) (fst t)) as [H|[H|H]]; auto.
  destruct (plt_total (snd s) (snd t)) as [K|[K|K]]; auto.
  right; left. destruct s, t; cbn in *; congruence.
Qed.

(** ** segments as affine functions of y *)
Definition good (s : segment) : Prop := snd (fst s) <> snd (snd s).
Definition sl (s : segment) : Qc := (fst (snd s) - fst (fst s)) / (snd (snd s) - snd (fst s)).
Lemma good_ne s : good s -> snd (snd s) - snd (fst s) <> 0.
Proof. intros G E. apply G. qlra. Qed.
Lemma sl_mul s : good s -> sl s * (snd (snd s) - snd (fst s)) = fst (snd s) - fst (fst s).
Proof. intros G. unfold sl. apply qdiv_mul. now apply good_ne. Qed.
Lemma at_y_aff s y : good s -> at_y s y = fst (fst s) + sl s * (y - snd (fst s)).
Proof.
  intros G. unfold at_y. destruct (qeqb_spec y (snd (fst s))) as [->|N]; [qnra|].
  destruct (qeqb_spec y (snd (snd s))) as [->|N']; [rewrite sl_mul by auto; qlra|].
  unfold sl. field. now apply good_ne.
Qed.
Lemma at_y_move s y y' : good s -> at_y s y' = at_y s y + sl s * (y' - y).
Proof. intros G. rewrite !at_y_aff by auto. qnra. Qed.

(** ** the order of segments just before / just after a position of the sweep.
    [pass x]: the sweep has already passed abscissa [x] on level [y]. *)
Definition sord (pass : Qc -> bool) (y : Qc) (a b : segment) : Prop :=
  at_y a y < at_y b y \/
  (at_y a y = at_y b y /\
   ((if pass (at_y a y) then sl a < sl b else sl b < sl a) \/ (sl a = sl b /\ slt a b))).
Lemma sord_irrefl pass y a : ~ sord pass y a a.
Proof.
  intros [H|(_ & [H|(_ & H)])]; [qlra| |now apply slt_irrefl in H].
  destruct (pass _); qlra.
Qed.
Lemma sord_trans pass y a b c : sord pass y a b -> sord pass y b c -> sord pass y a c.
Proof.
  intros [H|(H & H')] [K|(K & K')]; unfold sord; try (left; qlra).
  right. split; [congruence|]. rewrite <- H in K'.
  destruct H' as [H'|(H' & H'')], K' as [K'|(K' & K'')].
  - left. destruct (pass _); qlra.
  - left. rewrite <- K'. exact H'.
  - left. rewrite H'. exact K'.
  - right. split; [congruence|]. eapply slt_trans; eauto.
Qed.
Lemma sord_total pass y a b : sord pass y a b \/ a = b \/ sord pass y b a.
Proof.
  unfold sord. destruct (qeqb_spec (at_y a y) (at_y b y)) as [E|N]; [|destruct (qc_not_eq _ _ N); auto].
  destruct (qeqb_spec (sl a) (sl b)) as [E'|N'].
  - destruct (slt_total a b) as [H|[H|H]]; auto 7.
  - rewrite <- E. destruct (qc_not_eq _ _ N'), (pass _); auto 7.
Qed.
Lemma sord_ext pass pass' y a b :
  (at_y a y = at_y b y -> pass (at_y a y) = pass' (at_y a y)) -> sord pass y a b -> sord pass' y a b.
Proof. intros E [H|(H & H')]; [left; auto|]. right. split; auto. now rewrite <- E. Qed.

Definition passA (pos : point) (x : Qc) : bool := qleb x (fst pos).
Definition passB (pos : point) (x : Qc) : bool := qltb x (fst pos).
(** just after [pos]; just before [pos] *)
Definition ordA (pos : point) : segment -> segment -> Prop := sord (passA pos) (snd pos).
Definition ordB (pos : point) : segment -> segment -> Prop := sord (passB pos) (snd pos).

(** ** _SweepKey.__lt__ *)
Definition kgood (k : skey) : Prop := good (k_seg k) /\ at_y (k_seg k) (snd (k_pt k)) = fst (k_pt k).
Definition klt (a b : skey) : Prop :=
  let y := qmax (snd (k_pt a)) (snd (k_pt b)) in
  sord (fun _ => qeqb (snd (k_pt b)) (snd (k_pt a))) y (k_seg a) (k_seg b).
Lemma qmax_l a b : b <= a -> qmax a b = a.
Proof. unfold qmax. destruct (qleb_spec a b); auto; intros; qlra. Qed.
Lemma qmax_r a b : a <= b -> qmax a b = b.
Proof. unfold qmax. destruct (qleb_spec a b); auto; intros; qlra. Qed.
Lemma skey_ltb_spec a b : kgood a -> kgood b -> reflect (klt a b) (skey_ltb a b).
Proof.
  intros (Ga & Ea) (Gb & Eb). unfold skey_ltb, klt, k_at.
  set (sa := k_seg a) in *. set (sb := k_seg b) in *. set (pa := k_pt a) in *. set (pb := k_pt b) in *.
  set (Y := qmax (snd pa) (snd pb)).
  assert (E : (if qltb (snd pa) (snd pb) then (snd pb, at_y sa (snd pb), fst pb) else (snd pa, fst pa, at_y sb (snd pa)))
              = (Y, at_y sa Y, at_y sb Y)).
  { unfold Y. destruct (qltb_spec (snd pa) (snd pb)) as [L|L].
    - rewrite qmax_r by qlra. now rewrite Eb.
    - rewrite qmax_l by qlra. now rewrite Ea. }
  rewrite E. clear E. unfold sord.
  destruct (qltb_spec (at_y sa Y) (at_y sb Y)) as [L|L]; [constructor; auto|].
  destruct (qltb_spec (at_y sb Y) (at_y sa Y)) as [L'|L'].
  { constructor. intros [H|(H & _)]; [auto|]. qlra. }
  assert (EQ : at_y sa Y = at_y sb Y) by qlra.
  set (after := qeqb (snd pb) (snd pa)).
  assert (MA : at_y sa (if after then Y + 1 else Y - 1) = at_y sa Y + (if after then sl sa else - sl sa)).
  { rewrite (at_y_move sa Y) by auto. destruct after; qlra. }
  assert (MB : at_y sb (if after then Y + 1 else Y - 1) = at_y sb Y + (if after then sl sb else - sl sb)).
  { rewrite (at_y_move sb Y) by auto. destruct after; qlra. }
  rewrite MA, MB.
  match goal with |- context [qltb ?u ?v] => destruct (qltb_spec u v) as [N|N] end.
  { constructor. right. split; auto. left. destruct after; qlra. }
  match goal with |- context [qltb ?u ?v] => destruct (qltb_spec u v) as [N'|N'] end.
  { constructor. intros [H|(_ & [H|(H & _)])]; destruct after; qlra. }
  assert (ES : sl sa = sl sb) by (destruct after; qlra).
  destruct (seg_ltb_spec sa sb) as [S|S]; constructor.
  - right. split; auto.
  - intros [H|(_ & [H|(_ & H)])]; auto. destruct after; qlra.
Qed.

(** ** sorted lists *)
Definition adj {A} (a b : A) (l : list A) : Prop := exists l1 l2, l = l1 ++ a :: b :: l2.
Lemma adj_app {A} (a b : A) l r :
  adj a b (l ++ r) -> adj a b l \/ adj a b r \/ exists l' r', l = l' ++ [a] /\ r = b :: r'.
Proof.
  intros (l1 & l2 & E). revert l E. induction l1 as [|x l1 IH]; intros l E.
  - destruct l as [|y l]; cbn in E; [right; left; exists [], l2; auto|].
    injection E as -> E. destruct l as [|z l]; cbn in E.
    + right; right. exists [], l2. auto.
    + injection E as -> _. left. exists [], l. auto.
  - destruct l as [|y l]; cbn in E; [right; left; exists (x :: l1), l2; auto|].
    injection E as -> E. destruct (IH _ E) as [(u & v & ->)|[H|(l' & r' & -> & ->)]].
    + left. exists (x :: u), v. auto.
    + auto.
    + right; right. exists (x :: l'), r'. auto.
Qed.
Lemma adj_appl {A} (a b : A) l r : adj a b l -> adj a b (l ++ r).
Proof. intros (u & v & ->). exists u, (v ++ r). now rewrite <- app_assoc. Qed.
Lemma adj_appr {A} (a b : A) l r : adj a b r -> adj a b (l ++ r).
Proof. intros (u & v & ->). exists (l ++ u), v. now rewrite <- app_assoc. Qed.
Lemma adj_in {A} (a b : A) l : adj a b l -> In a l /\ In b l.
Proof. intros (u & v & ->). split; apply in_or_app; right; cbn; auto. Qed.
Lemma sorted_adj {A} (R : A -> A -> Prop) l :
  (forall a b c, R a b -> R b c -> R a c) -> (forall a b, adj a b l -> R a b) -> StronglySorted R l.
Proof.
  intros T. induction l as [|a l IH]; intros H; constructor.
  - apply IH. intros x y (u & v & ->). apply H. exists (a :: u), v. auto.
  - destruct l as [|b l]; constructor.
    + apply H. exists [], l. auto.
    + assert (S : StronglySorted R (b :: l)). { apply IH. intros x y (u & v & E). apply H. exists (a :: u), v. cbn. now rewrite E. }
      inversion S as [|? ? _ F]; subst. rewrite Forall_forall in *. intros x I. eapply T; [|apply F; auto].
      apply H. exists [], l. auto.
Qed.
Lemma ss_app {A} (R : A -> A -> Prop) l r :
  StronglySorted R (l ++ r) <-> StronglySorted R l /\ StronglySorted R r /\ forall x y, In x l -> In y r -> R x y.
Proof.
  induction l as [|a l IH]; cbn.
  - split; [intros H; split; [constructor|split; [auto|tauto]]|tauto].
  - split.
    + intros H. inversion H as [|? ? H1 H2]; subst. apply IH in H1 as (A1 & A2 & A3). rewrite Forall_app, !Forall_forall in H2.
      destruct H2 as (B1 & B2). split; [constructor; auto; now apply Forall_forall|]. split; auto.
      intros x y [->|I] J; auto.
    + intros (H & K & M). inversion H as [|? ? H1 H2]; subst. constructor; [apply IH; split; [auto|split; [auto|]]; auto|].
      apply Forall_app. split; auto. apply Forall_forall. auto.
Qed.
Lemma ss_impl {A} (R R' : A -> A -> Prop) l :
  (forall x y, In x l -> In y l -> R x y -> R' x y) -> StronglySorted R l -> StronglySorted R' l.
Proof.
  intros I S. induction S as [|a l S IH F]; constructor.
  - apply IH. intros x y X Y. apply I; cbn; auto.
  - rewrite Forall_forall in *. intros x X. apply I; cbn; auto.
Qed.
Lemma ss_adj {A} (R : A -> A -> Prop) a b l : StronglySorted R l -> adj a b l -> R a b.
Proof.
  intros S (u & v & ->). apply ss_app in S as (_ & S & _). inversion S as [|? ? _ F]; subst.
  inversion F; auto.
Qed.
Lemma ss_map {A B} (R : B -> B -> Prop) (f : A -> B) l :
  StronglySorted R (map f l) <-> StronglySorted (fun x y => R (f x) (f y)) l.
Proof.
  induction l as [|a l IH]; cbn; split; intros H; try constructor; inversion H as [|? ? H1 H2]; subst;
    try (now apply IH); rewrite Forall_forall in *; intros x X; try (apply H2; now apply in_map).
  apply in_map_iff in X as (z & <- & Z). now apply H2.
Qed.
Lemma ss_nodup {A} (R : A -> A -> Prop) l : (forall x, ~ R x x) -> StronglySorted R l -> NoDup l.
Proof.
  intros I S. induction S as [|a l S IH F]; constructor; auto. intros H. rewrite Forall_forall in F. now apply (I a), F.
Qed.

(** sorting a list on which [ltb] is a strict total order [R] *)
Lemma insert_by_ss {A} (ltb : A -> A -> bool) (R : A -> A -> Prop) x l :
  (forall a b c, R a b -> R b c -> R a c) ->
  (forall y, In y l -> (ltb x y = true /\ R x y) \/ (ltb x y = false /\ R y x)) ->
  StronglySorted R l -> StronglySorted R (insert_by ltb x l).
Proof.
  intros T H S. induction S as [|y l S IH F]; cbn.
  - repeat constructor.
  - destruct (H y (or_introl eq_refl)) as [(-> & K)|(-> & K)].
    + constructor; [constructor; auto|]. constructor; auto. rewrite Forall_forall in *. eauto.
    + constructor; [apply IH; intros z Z; apply H; cbn; auto|].
      eapply Permutation_Forall; [symmetry; apply insert_by_perm|]. constructor; auto.
Qed.
Lemma sort_by_ss {A} (ltb : A -> A -> bool) (R : A -> A -> Prop) l :
  (forall a b c, R a b -> R b c -> R a c) ->
  (forall x y, In x l -> In y l -> x <> y -> (ltb x y = true /\ R x y) \/ (ltb x y = false /\ R y x)) ->
  NoDup l -> StronglySorted R (sort_by ltb l).
Proof.
  intros T H N. unfold sort_by.
  enough (G : forall l2 l1, StronglySorted R l1 -> (forall x, In x l1 -> In x l) -> (forall x, In x l2 -> In x l) ->
    NoDup l2 -> (forall x, In x l1 -> ~ In x l2) -> StronglySorted R (fold_left (fun acc x => insert_by ltb x acc) l2 l1)).
  { apply G; auto; [constructor|]. intros x []. }
  clear N. induction l2 as [|x l2 IH]; cbn; intros l1 S I1 I2 N D; auto.
  inversion N; subst.
  apply IH; auto.
  - apply insert_by_ss; auto. intros y Y. apply H; auto. intros ->. apply (D y Y). auto.
  - intros y Y. apply (Permutation_in _ (insert_by_perm ltb x l1)) in Y. destruct Y as [->|Y]; auto.
  - intros y Y. apply (Permutation_in _ (insert_by_perm ltb x l1)) in Y. destruct Y as [->|Y]; auto.
    intros Z. apply (D y Y). auto.
Qed.
