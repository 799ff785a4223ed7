(** * Correctness of the sweep over segments none of which is horizontal. *)
From Coq Require Import Sorting.Sorted.
From Verif.Model Require Import Scan2d.
From Verif.Proofs Require Import PyP MergerP SweepOrd SweepP SweepL.

Section Sweep.
Context (SS : list segment) (Hgood : Forall good SS) (Hnd : NoDup SS).

Lemma gd s : In s SS -> good s.
Proof. rewrite Forall_forall in Hgood. auto. Qed.

(** the points the sweep must stop at *)
Definition worthy (p : point) : Prop :=
  (exists s, In s SS /\ (p = lower s \/ p = upper s)) \/
  (exists a b, In a SS /\ In b SS /\ sl a <> sl b /\ ons a p /\ ons b p).
Definition starts (p : point) : list skey := map (fun s => (s, p)) (filter (fun s => pt_eqb (lower s) p) SS).

Record INV (pos : point) (Q : equeue) (L : list skey) : Prop := {
  i_act : forall s, In s (map k_seg L) <-> In s SS /\ evle (lower s) pos /\ evlt pos (upper s);
  i_key : forall k, In k L -> ons (k_seg k) (k_pt k) /\ evle (k_pt k) pos /\
            forall p, worthy p -> ons (k_seg k) p -> evle p pos -> evle p (k_pt k);
  i_sort : StronglySorted (ordA pos) (map k_seg L);
  i_qs : StronglySorted evlt (qkeys Q);
  i_qgt : forall p, In p (qkeys Q) -> evlt pos p /\ worthy p;
  i_qend : forall s, In s SS -> (evlt pos (lower s) -> In (lower s) (qkeys Q)) /\ (evlt pos (upper s) -> In (upper s) (qkeys Q));
  i_qadj : forall a b, adj a b (map k_seg L) -> sl a <> sl b -> forall m, ons a m -> ons b m -> evlt pos m -> In m (qkeys Q);
  i_qst : forall p l, In (p, l) Q -> l = starts p }.

Lemma key_good pos Q L k : INV pos Q L -> In k L -> kgood k.
Proof.
  intros V K. split; [|now apply (i_key _ _ _ V)]. apply gd. now apply (i_act _ _ _ V), in_map.
Qed.

(** ** the active list stays ordered up to the next event *)
Lemma advance pos Q L tgt : INV pos Q L -> evlt pos tgt -> (forall q, In q (qkeys Q) -> evle tgt q) ->
  StronglySorted (ordB tgt) (map k_seg L).
Proof.
  intros V PT NQ. apply sorted_adj; [apply sord_trans|]. intros a b AD. destruct (adj_in _ _ _ AD) as (Ia & Ib).
  apply (i_act _ _ _ V) in Ia as (Sa & La & Ua). apply (i_act _ _ _ V) in Ib as (Sb & Lb & Ub).
  apply (adv_pair pos); auto using gd.
  - apply NQ. now apply (i_qend _ _ _ V a Sa).
  - apply NQ. now apply (i_qend _ _ _ V b Sb).
  - intros m Oa Ob N PM. apply NQ. eapply (i_qadj _ _ _ V); eauto.
  - eapply ss_adj; [apply (i_sort _ _ _ V)|auto].
Qed.

Lemma chain {A} (f : A -> Qc) b l3 : forall l2 a, f a <> f b ->
  exists c d, adj c d (a :: l2 ++ b :: l3) /\ f c <> f d /\ In c (a :: l2 ++ [b]) /\ In d (a :: l2 ++ [b]).
Proof.
  induction l2 as [|x l2 IH]; intros a N; cbn.
  - exists a, b. split; [exists [], l3; auto|]. auto.
  - destruct (qeqb_spec (f a) (f x)) as [E|N'].
    + rewrite E in N. destruct (IH x N) as (c & d & (u & v & E') & H & Ic & Id). exists c, d.
      cbn in E'. split; [exists (a :: u), v; cbn; now rewrite E'|]. cbn in *. tauto.
    + exists a, x. split; [exists [], (l2 ++ b :: l3); auto|]. cbn. auto.
Qed.

(** ** no stop is missed *)
Lemma no_skip pos Q L p : INV pos Q L -> worthy p -> evlt pos p -> (forall q, In q (qkeys Q) -> evle p q) ->
  In p (qkeys Q).
Proof.
  intros V W PP NQ. destruct W as [(s & Is & [->| ->])|(a & b & Ia & Ib & N & Oa & Ob)].
  1, 2: apply (i_qend _ _ _ V s Is); auto.
  assert (Ga := gd a Ia). assert (Gb := gd b Ib).
  assert (ACT : forall s, In s SS -> ons s p -> In s (map k_seg L) \/ In p (qkeys Q)).
  { intros s Is Os. assert (Gs := gd s Is).
    destruct (evle_cases _ _ (lower_le s p Gs Os)) as [Lo|E]; [|right; rewrite <- E; apply (i_qend _ _ _ V s Is); now rewrite E].
    destruct (evle_cases _ _ (upper_ge s p Gs Os)) as [Up|E]; [|right; rewrite E; apply (i_qend _ _ _ V s Is); now rewrite <- E].
    left. apply (i_act _ _ _ V). split; auto. split; [|eapply evlt_trans; eauto].
    destruct (ev_ltb_spec pos (lower s)) as [X|X]; [|now apply ev_nlt in X]. exfalso.
    apply (evle_nlt _ _ (NQ _ (proj1 (i_qend _ _ _ V s Is) X))). exact Lo. }
  destruct (ACT a Ia Oa) as [Aa|]; auto. destruct (ACT b Ib Ob) as [Ab|]; auto.
  assert (S := advance pos Q L p V PP NQ).
  assert (GEN : forall a b, In a SS -> In b SS -> sl a <> sl b -> ons a p -> ons b p ->
    (exists l1 l2 l3, map k_seg L = l1 ++ a :: l2 ++ b :: l3) -> In p (qkeys Q)).
  { clear a b Ia Ib N Oa Ob Ga Gb Aa Ab. intros a b Ia Ib N Oa Ob (l1 & l2 & l3 & E).
    destruct (chain sl b l3 l2 a N) as (c & d & (u & v & AD) & NE & Ic & Id).
    assert (ADL : adj c d (map k_seg L)). { rewrite E. apply adj_appr. exists u, v. exact AD. }
    assert (TIE : forall x, In x (a :: l2 ++ [b]) -> at_y x (snd p) = fst p).
    { rewrite E in S. apply ss_app in S as (_ & S & _). inversion S as [|? ? S1 S2]; subst.
      apply ss_app in S1 as (_ & S1 & S3). rewrite Forall_forall in S2.
      intros x [<-|X]; [apply Oa|]. apply in_app_or in X as [X|[<-|[]]]; [|apply Ob].
      assert (A1 : ordB p a x) by (apply S2, in_or_app; auto). assert (A2 : ordB p x b) by (apply S3; cbn; auto).
      assert (at_y a (snd p) = fst p) by apply Oa. assert (at_y b (snd p) = fst p) by apply Ob.
      destruct A1 as [A1|(A1 & _)], A2 as [A2|(A2 & _)]; qlra. }
    destruct (adj_in _ _ _ ADL) as (Jc & Jd). apply (i_act _ _ _ V) in Jc as (Sc & Lc & Uc). apply (i_act _ _ _ V) in Jd as (Sd & Ld & Ud).
    assert (ON : forall x, In x SS -> evle (lower x) pos -> evlt pos (upper x) -> at_y x (snd p) = fst p -> ons x p).
    { intros x Ix Lx Ux T. assert (UQ := NQ _ (proj2 (i_qend _ _ _ V x Ix) Ux)).
      split; auto. assert (PL : evle pos p) by now apply evlt_le. assert (LP := evle_trans _ _ _ Lx PL).
      split; [destruct LP as [H|(H & _)]|destruct UQ as [H|(H & _)]]; qlra. }
    eapply (i_qadj _ _ _ V c d); eauto. }
  apply in_split in Aa as (l1 & l2 & E). rewrite E in Ab. apply in_app_or in Ab as [Ab|[->|Ab]].
  - apply in_split in Ab as (u & v & ->). apply (GEN b a); auto. exists u, v, l2. now rewrite E, <- app_assoc.
  - congruence.
  - apply in_split in Ab as (u & v & ->). apply (GEN a b); auto. exists l1, u, v. now rewrite E.
Qed.

(** ** the list order is the order of the keys, so every bisection is exact *)
Lemma ord_klt pos Q L a b : INV pos Q L -> In a L -> In b L -> ordA pos (k_seg a) (k_seg b) -> klt a b.
Proof.
  intros V Ia Ib H. destruct (i_key _ _ _ V a Ia) as (Oa & Pa & Ka). destruct (i_key _ _ _ V b Ib) as (Ob & Pb & Kb).
  destruct (proj1 (i_act _ _ _ V (k_seg a)) (in_map _ _ _ Ia)) as (Sa & La & Ua).
  destruct (proj1 (i_act _ _ _ V (k_seg b)) (in_map _ _ _ Ib)) as (Sb & Lb & Ub).
  assert (Ga := gd _ Sa). assert (Gb := gd _ Sb).
  set (sa := k_seg a) in *. set (sb := k_seg b) in *. set (pa := k_pt a) in *. set (pb := k_pt b) in *.
  set (y := snd pos) in *. assert (YA : snd pa <= y) by (unfold y; destruct Pa as [P|(P & _)]; qlra).
  assert (YB : snd pb <= y) by (unfold y; destruct Pb as [P|(P & _)]; qlra).
  unfold klt. fold sa sb pa pb. set (M := qmax (snd pa) (snd pb)).
  assert (MA : snd pa <= M /\ snd pb <= M /\ M <= y). { unfold M, qmax. destruct (qleb_spec (snd pa) (snd pb)); split; try split; qlra. }
  destruct MA as (MA & MB & MY).
  assert (WO : forall z, snd (lower sa) <= z -> snd (lower sb) <= z -> z <= y -> at_y sa z = at_y sb z -> sl sa <> sl sb ->
    evle (at_y sa z, z) pos -> z <= snd pa /\ z <= snd pb).
  { intros z H1 H2 Z EQ NE LE.
    assert (O1 : ons sa (at_y sa z, z)).
    { split; [reflexivity|]. cbn. split; auto. destruct Ua as [U|(U & _)]; fold y in U; qlra. }
    assert (O2 : ons sb (at_y sa z, z)).
    { split; [now cbn; rewrite EQ|]. cbn. split; auto. destruct Ub as [U|(U & _)]; fold y in U; qlra. }
    assert (W : worthy (at_y sa z, z)) by (right; exists sa, sb; auto).
    specialize (Ka _ W O1 LE). specialize (Kb _ W O2 LE).
    split; [destruct Ka as [K|(K & _)]|destruct Kb as [K|(K & _)]]; cbn in K; qlra. }
  assert (LA : snd (lower sa) <= snd pa) by apply Oa. assert (LB : snd (lower sb) <= snd pb) by apply Ob.
  destruct (qeqb_spec (sl sa) (sl sb)) as [E|NE].
  { (* parallel *)
    assert (DD : at_y sa y - at_y sb y = at_y sa M - at_y sb M) by (rewrite (at_y_move sa M y), (at_y_move sb M y), E by auto; ring).
    destruct H as [H|(H & H')]; fold y in H.
    - left. qlra.
    - right. split; [qlra|]. destruct H' as [H'|H']; [exfalso; destruct (passA _ _); rewrite E in H'; qlra|]. auto. }
  destruct H as [H|(H & H')]; fold y in H.
  - (* apart *)
    destruct (qltb_spec (at_y sa M) (at_y sb M)) as [|N]; [now left|].
    destruct (qeqb_spec (at_y sa M) (at_y sb M)) as [EQ|NEQ].
    + assert (My : M < y). { destruct (qeqb_spec M y) as [E'|N']; [rewrite E' in EQ; qlra|]. destruct (qc_not_eq _ _ N'); qlra. }
      destruct (WO M) as (W1 & W2); auto; try qlra. { left. exact My. }
      right. split; auto. left.
      destruct (qeqb_spec (snd pb) (snd pa)) as [_|X]; [|exfalso; apply X; qlra].
      rewrite (at_y_move sa M y), (at_y_move sb M y) in H by auto. destruct (qltb_spec (sl sa) (sl sb)) as [|X]; auto.
      exfalso. assert (0 <= (sl sa - sl sb) * (y - M)) by (assert (0 <= sl sa - sl sb) by qlra; qnra). qnra.
    + exfalso. assert (L2 : at_y sb M < at_y sa M) by (destruct (qc_not_eq _ _ NEQ); [contradiction|auto]).
      destruct (cross_between sb sa M y Gb Ga MY L2 ltac:(qlra)) as (z & Z1 & Z2 & Z3 & Z4 & Z5).
      assert (z < y) by (apply Z5; qlra). destruct (WO z) as (W1 & W2); auto; try qlra. left. exact H0.
  - fold y in H'. destruct H' as [H'|(E & _)]; [|contradiction].
    unfold passA in H'. destruct (qleb_spec (at_y sa y) (fst pos)) as [L'|L'].
    + destruct (WO y) as (W1 & W2); auto; try qlra. { right. split; auto. }
      assert (EM : M = y) by qlra. rewrite EM. right. split; auto. left.
      destruct (qeqb_spec (snd pb) (snd pa)) as [_|X]; auto. exfalso; apply X; qlra.
    + assert (My : M < y).
      { destruct (qeqb_spec M y) as [E'|N']; [|destruct (qc_not_eq _ _ N'); qlra]. exfalso.
        assert (ONE : snd pa = y \/ snd pb = y).
        { unfold M, qmax in E'. destruct (qleb (snd pa) (snd pb)); auto. }
        destruct ONE as [E1|E1].
        - assert (X : at_y sa y = fst pa) by (rewrite <- E1; apply Oa). destruct Pa as [P|(_ & P)]; [fold y in P|]; qlra.
        - assert (X : at_y sb y = fst pb) by (rewrite <- E1; apply Ob). destruct Pb as [P|(_ & P)]; [fold y in P|]; qlra. }
      left. rewrite (at_y_move sa M y), (at_y_move sb M y) in H by auto.
      assert (0 < (sl sa - sl sb) * (y - M)) by (apply qcmul_pos; qlra). qlra.
Qed.
Lemma active_sorted pos Q L : INV pos Q L -> StronglySorted (fun a b => skey_ltb a b = true) L.
Proof.
  intros V. assert (S := i_sort _ _ _ V). apply (ss_map _ k_seg) in S. eapply ss_impl; [|exact S].
  intros a b A B H. cbn in H. assert (K := ord_klt pos Q L a b V A B H).
  destruct (skey_ltb_spec a b); auto; eauto using key_good.
Qed.
Lemma ltb_irrefl k : kgood k -> skey_ltb k k = false.
Proof. intros G. destruct (skey_ltb_spec k k G G) as [H|]; auto. now apply sord_irrefl in H. Qed.

(** ** one event *)
Lemma in_worthy_list q : In q SS -> worthy (lower q) /\ worthy (upper q).
Proof. intros I. split; left; exists q; auto. Qed.
Lemma starts_in p k : In k (starts p) <-> In (k_seg k) SS /\ lower (k_seg k) = p /\ k_pt k = p.
Proof.
  unfold starts. rewrite in_map_iff. split.
  - intros (s & <- & H). apply filter_In in H as (H & E). destruct (pt_eqb_ok (lower s) p); [|discriminate]. auto.
  - intros (A & B & C). exists (k_seg k). split; [destruct k; cbn in *; congruence|]. apply filter_In. split; auto.
    destruct (pt_eqb_ok (lower (k_seg k)) p); auto.
Qed.

Lemma add_crossing_in q pt a b p : good a -> good b ->
  In p (qkeys (add_crossing q pt a b)) <-> In p (qkeys q) \/ (sl a <> sl b /\ ons a p /\ ons b p /\ snd pt < snd p).
Proof.
  intros Ga Gb. unfold add_crossing. destruct (nonparallel_intersection_point a b) as [m|] eqn:E.
  - apply nip_ons in E as (N & Oa & Ob); auto. destruct (qltb_spec (snd pt) (snd m)) as [L|L].
    + rewrite add_event_in. split; [intros [->|H]; auto|]. intros [H|(_ & H1 & H2 & H3)]; auto. left.
      apply (meet_once a b); auto.
    + split; auto. intros [H|(_ & H1 & H2 & H3)]; auto. exfalso. rewrite (meet_once a b m p) in L; auto.
  - split; auto. intros [H|(N & H1 & H2 & H3)]; auto. exfalso.
    rewrite (proj2 (nip_ons a b p Ga Gb)) in E by auto. discriminate.
Qed.
Lemma add_crossing_sorted q pt a b : StronglySorted evlt (qkeys q) -> StronglySorted evlt (qkeys (add_crossing q pt a b)).
Proof.
  intros S. unfold add_crossing. destruct (nonparallel_intersection_point a b); auto. destruct (qltb _ _); auto.
  now apply add_event_sorted.
Qed.
Lemma add_crossing_content q pt a b : StronglySorted evlt (qkeys q) ->
  (forall s, In s SS -> evlt pt (lower s) -> In (lower s) (qkeys q)) ->
  (forall p l, In (p, l) q -> l = starts p) -> forall p l, In (p, l) (add_crossing q pt a b) -> l = starts p.
Proof.
  intros S E C p l. unfold add_crossing. destruct (nonparallel_intersection_point a b) as [m|]; auto.
  destruct (qltb_spec (snd pt) (snd m)) as [L|L]; auto. intros H.
  destruct (add_event_content _ _ _ _ _ S H) as [(_ & H')|(-> & [(l0 & H' & ->)|(N & ->)])]; auto.
  - cbn. rewrite app_nil_r. auto.
  - cbn. symmetry. destruct (starts m) as [|k r] eqn:EM; auto. exfalso. assert (I : In k (starts m)) by (rewrite EM; now left).
    apply starts_in in I as (A & B & _). apply N. rewrite <- B. apply E; auto. rewrite B. now left.
Qed.

(** the queue after one of the three crossing updates, given what held before *)
Record QOK (pt : point) (q : equeue) : Prop := {
  q_s : StronglySorted evlt (qkeys q);
  q_gt : forall p, In p (qkeys q) -> evlt pt p /\ worthy p;
  q_end : forall s, In s SS -> (evlt pt (lower s) -> In (lower s) (qkeys q)) /\ (evlt pt (upper s) -> In (upper s) (qkeys q));
  q_st : forall p l, In (p, l) q -> l = starts p }.
Lemma add_crossing_ok q pt a b : In a SS -> In b SS -> QOK pt q -> QOK pt (add_crossing q pt a b).
Proof.
  intros Ia Ib [A B C D]. assert (Ga := gd a Ia). assert (Gb := gd b Ib). constructor.
  - now apply add_crossing_sorted.
  - intros p H. apply add_crossing_in in H as [H|(N & Oa & Ob & L)]; auto. split; [now left|]. right. exists a, b. auto.
  - intros s Is. destruct (C s Is) as (C1 & C2). split; intros H; apply add_crossing_in; auto.
  - apply add_crossing_content; auto. intros s Is. apply (C s Is).
Qed.

Lemma mapM_keys pt l : Forall good l -> mapM (fun s => SweepKey s pt) l = Ok (map (fun s => (s, pt)) l).
Proof.
  induction 1 as [|s l G F IH]; cbn; auto. unfold SweepKey at 1. destruct (qeqb_spec (snd (fst s)) (snd (snd s))); [contradiction|].
  cbn. now rewrite IH.
Qed.
Lemma hd_error_rev {A} (l : list A) : hd_error (rev l) = match rev l with [] => None | x :: _ => Some x end.
Proof. destruct (rev l); reflexivity. Qed.

Lemma step pos pt st Q L : INV pos ((pt, st) :: Q) L ->
  exists out Q' L', process_event pt st Q L = Ok (out, Q', L') /\ INV pt Q' L' /\
    exists segs, out = (if (1 <? length segs)%nat then [(pt, segs)] else []) /\ NoDup segs /\
      forall s, In s segs <-> In s SS /\ ons s pt.
Proof.
  intros V.
  assert (QS := i_qs _ _ _ V). cbn in QS. inversion QS as [|? ? QS1 QS2]; subst. rewrite Forall_forall in QS2.
  destruct (i_qgt _ _ _ V pt (or_introl eq_refl)) as (PP & WP).
  assert (NQ : forall q, In q (qkeys ((pt, st) :: Q)) -> evle pt q).
  { intros q [<-|H]; [apply evle_refl|]. now apply evlt_le, QS2. }
  assert (SB := advance _ _ _ pt V PP NQ).
  assert (NOW : forall p, worthy p -> evlt p pt -> evle p pos).
  { intros p W LT. apply ev_nlt. intros X. assert (H : In p (qkeys ((pt, st) :: Q))).
    { eapply no_skip; eauto. intros q Hq. eapply evle_trans; [apply evlt_le; exact LT|auto]. }
    apply (evle_nlt _ _ (NQ p H)). exact LT. }
  assert (ESt : st = starts pt) by (apply (i_qst _ _ _ V); now left).
  assert (UPB : forall s, In s SS -> evle (lower s) pos -> evlt pos (upper s) -> evle pt (upper s)).
  { intros s Is Ls Us. apply NQ. now apply (i_qend _ _ _ V s Is). }
  assert (KAT : forall k, In k L -> snd (k_pt k) <= snd pt /\ (k_at k (snd pt) = fst pt -> snd (k_pt k) < snd pt)).
  { intros k K. destruct (i_key _ _ _ V k K) as (O & P & _). assert (LT := evle_lt_trans _ _ _ P PP).
    split; [destruct LT as [H|(H & _)]; qlra|]. intros E. destruct LT as [H|(H & H')]; auto. exfalso.
    destruct O as (O & _). unfold k_at in E. rewrite <- H, O in E. qlra. }
  unfold process_event. set (fs := ((fst pt, snd pt), (fst pt, snd pt + 1))).
  assert (Gf : good fs). { unfold good, fs. cbn [fst snd]. intros E. qlra. }
  assert (Af : at_y fs (snd pt) = fst pt) by (unfold fs; apply (at_y_fst ((fst pt, snd pt), (fst pt, snd pt + 1)))).
  unfold SweepKey at 1. destruct (qeqb_spec (snd (fst fs)) (snd (snd fs))) as [E|_]; [now elim Gf|].
  cbn [negb passert bind]. set (fk := (fs, pt) : skey).
  assert (Kf : kgood fk). { split; [exact Gf|exact Af]. }
  (* the fake key splits the list at the event point *)
  destruct (split_scan pt fk L) as (lo & m1 & m2 & hi & EL & ES & Flo & Fm & Fhi).
  { assert (SB' := SB). apply (ss_map _ k_seg) in SB'. eapply ss_impl; [|exact SB']. intros x y _ _ H. cbn in H. unfold k_at. destruct H as [H|(H & _)]; qlra. }
  { intros x X T. destruct (skey_ltb_spec fk x Kf (key_good _ _ _ _ V X)) as [H|]; [|discriminate].
    unfold klt in H. cbn [k_pt k_seg fst snd fk] in H. destruct (KAT x X) as (Y & _). rewrite qmax_l in H by auto.
    unfold k_at. destruct H as [H|(H & _)]; rewrite Af in H; qlra. }
  { intros x X T. destruct (skey_ltb_spec fk x Kf (key_good _ _ _ _ V X)) as [|H]; [discriminate|].
    unfold klt in H. cbn [k_pt k_seg fst snd fk] in H. destruct (KAT x X) as (Y & _). rewrite qmax_l in H by auto.
    unfold k_at. destruct (qleb_spec (at_y (k_seg x) (snd pt)) (fst pt)) as [|N]; auto. exfalso. apply H. left. rewrite Af. qlra. }
  rewrite ES. rewrite rev_app_distr.
  apply Forall_app in Fm as (Fm1 & Fm2).
  rewrite (scan_touch_app pt (rev m1) (rev lo)); [|apply Forall_forall; intros x X; rewrite <- in_rev in X; rewrite Forall_forall in Fm1; auto
    |apply Forall_forall; intros x X; rewrite <- in_rev in X; rewrite Forall_forall in Flo; specialize (Flo x X); cbn in Flo; intros E; rewrite E in Flo; qlra].
  rewrite (scan_touch_app pt m2 hi); [|auto|eapply Forall_impl; [|exact Fhi]; cbn; intros x X E; rewrite E in X; qlra].
  assert (SK := active_sorted _ _ _ V).
  assert (RM : foldM (fun l k => remove_key k l) (rev m1 ++ m2) L = Ok (lo ++ hi)).
  { rewrite EL in SK |- *. apply remove_block; auto. intros k K. apply ltb_irrefl. eapply key_good; eauto. rewrite EL.
    apply in_or_app. right. rewrite app_assoc. apply in_or_app. left. auto. }
  rewrite RM. cbn [bind].
  set (segs := map k_seg ((rev m1 ++ m2) ++ st)).
  assert (LIN : forall k, In k L <-> In k lo \/ In k (rev m1 ++ m2) \/ In k hi).
  { intros k. rewrite EL, !in_app_iff, <- in_rev. tauto. }
  assert (SEGS : forall s, In s segs <-> In s SS /\ ons s pt).
  { intros s. unfold segs. rewrite map_app, in_app_iff. split.
    - intros [H|H].
      + apply in_map_iff in H as (k & <- & H). assert (K : In k L) by (apply LIN; auto).
        destruct (proj1 (i_act _ _ _ V _) (in_map k_seg _ _ K)) as (A & B & C). split; auto.
        assert (E : k_at k (snd pt) = fst pt).
        { apply in_app_or in H as [H|H]; [rewrite <- in_rev in H; rewrite Forall_forall in Fm1; auto|rewrite Forall_forall in Fm2; auto]. }
        split; [exact E|]. assert (X := UPB _ A B C). assert (B' := evle_trans _ _ _ B (evlt_le _ _ PP)).
        split; [destruct B' as [B'|(B' & _)]|destruct X as [X|(X & _)]]; qlra.
      + apply in_map_iff in H as (k & <- & H). rewrite ESt in H. apply starts_in in H as (A & B & C). split; auto.
        rewrite <- B. apply ons_lower. now apply gd.
    - intros (Is & Os). assert (Gs := gd s Is). destruct (evle_cases _ _ (lower_le s pt Gs Os)) as [Lo|E].
      + left. assert (Lp : evle (lower s) pos) by (apply NOW; auto; apply (in_worthy_list s Is)).
        assert (Up : evlt pos (upper s)) by (eapply evlt_le_trans; [exact PP|apply upper_ge; auto]).
        assert (A : In s (map k_seg L)) by (apply (i_act _ _ _ V); auto).
        apply in_map_iff in A as (k & <- & K). apply in_map. assert (E : k_at k (snd pt) = fst pt) by apply Os.
        apply LIN in K as [K|[K|K]]; auto.
        * rewrite Forall_forall in Flo. specialize (Flo k K). cbn in Flo. exfalso; qlra.
        * rewrite Forall_forall in Fhi. specialize (Fhi k K). cbn in Fhi. exfalso; qlra.
      + right. rewrite ESt. apply in_map_iff. exists (s, pt). split; auto. apply starts_in. cbn. auto. }
  assert (NDL : NoDup (map k_seg L)) by (eapply ss_nodup; [|exact SB]; intros x; apply sord_irrefl).
  assert (NDS : NoDup segs).
  { unfold segs. rewrite map_app. apply nodup_app.
    - apply (Permutation_NoDup (l := map k_seg (m1 ++ m2))).
      + apply Permutation_map, Permutation_app_tail, Permutation_rev.
      + rewrite EL in NDL. rewrite !map_app in NDL. apply NoDup_app_r in NDL. rewrite app_assoc in NDL.
        apply NoDup_app_l in NDL. now rewrite map_app.
    - rewrite ESt. unfold starts. rewrite map_map. cbn [k_seg fst]. rewrite map_id. now apply NoDup_filter.
    - intros s H K. rewrite ESt in K. apply in_map_iff in K as (k & <- & K). apply starts_in in K as (A & B & C).
      apply in_map_iff in H as (k' & E & H). assert (K' : In k' L) by (apply LIN; auto).
      destruct (proj1 (i_act _ _ _ V _) (in_map k_seg _ _ K')) as (A' & B' & C'). rewrite E, B in B'.
      exact (evle_nlt _ _ B' PP). }
  set (fl := filter (fun s => negb (qleb (qmax (snd (fst s)) (snd (snd s))) (snd pt))) segs).
  assert (FL : forall s, In s fl <-> In s SS /\ ons s pt /\ snd pt < snd (upper s)).
  { intros s. unfold fl. rewrite filter_In, SEGS. split.
    - intros ((A & B) & C). rewrite upper_max in C by now apply gd.
      destruct (qleb_spec (snd (upper s)) (snd pt)); [discriminate|]. split; auto. split; auto. qlra.
    - intros (A & B & C). rewrite upper_max by now apply gd.
      destruct (qleb_spec (snd (upper s)) (snd pt)); [exfalso; qlra|]. auto. }
  rewrite mapM_keys; [|apply Forall_forall; intros s H; apply FL in H; now apply gd]. cbn [bind].
  set (new := sort_by skey_ltb (map (fun s => (s, pt)) fl)).
  assert (NEW : forall k, In k new <-> In (k_seg k) fl /\ k_pt k = pt).
  { intros k. unfold new. rewrite sort_by_in, in_map_iff. split.
    - intros (s & <- & H). auto.
    - intros (A & B). exists (k_seg k). split; auto. destruct k; cbn in *; congruence. }
  assert (NG : forall k, In k new -> kgood k /\ In (k_seg k) SS /\ ons (k_seg k) pt /\ k_pt k = pt /\ snd pt < snd (upper (k_seg k))).
  { intros k K. apply NEW in K as (A & B). apply FL in A as (A & C & D). split; [|auto].
    split; [now apply gd|]. rewrite B. apply C. }
  assert (NLT : forall x y, In x new -> In y new -> reflect (sord (fun _ => true) (snd pt) (k_seg x) (k_seg y)) (skey_ltb x y)).
  { intros x y X Y. destruct (NG x X) as (Gx & _ & _ & Px & _). destruct (NG y Y) as (Gy & _ & _ & Py & _).
    assert (R := skey_ltb_spec x y Gx Gy). unfold klt in R. rewrite Px, Py in R. rewrite qmax_l in R by qlra.
    rewrite qeqb_refl in R. exact R. }
  assert (NS : StronglySorted (fun x y => sord (fun _ => true) (snd pt) (k_seg x) (k_seg y)) new).
  { unfold new. apply sort_by_ss.
    - intros x y z. apply sord_trans.
    - intros x y X Y N. apply (sort_by_in skey_ltb) in X, Y. fold new in X, Y.
      destruct (NLT x y X Y) as [H|H]; auto. right. split; auto.
      destruct (sord_total (fun _ => true) (snd pt) (k_seg x) (k_seg y)) as [T|[T|T]]; auto; [contradiction|].
      exfalso. apply N. apply NEW in X as (_ & X), Y as (_ & Y). destruct x, y; cbn in *; congruence.
    - apply FinFun.Injective_map_NoDup; [|now apply NoDup_filter]. intros x y E. now injection E. }
  assert (INS : fold_left (fun l k => insert_by skey_ltb k l) new (lo ++ hi) = lo ++ new ++ hi).
  { apply insert_block.
    - eapply ss_impl; [|exact NS]. intros x y X Y H. cbn in H. destruct (NLT y x Y X) as [K|]; auto.
      exfalso. exact (sord_irrefl _ _ _ (sord_trans _ _ _ _ _ H K)).
    - intros k x K X. destruct (NG k K) as (Gk & _ & Ok & Pk & _). assert (XL : In x L) by (apply LIN; auto).
      destruct (skey_ltb_spec k x Gk (key_good _ _ _ _ V XL)) as [H|]; auto. exfalso. unfold klt in H. rewrite Pk in H.
      destruct (KAT x XL) as (Y & _). rewrite qmax_l in H by auto. rewrite Forall_forall in Flo. specialize (Flo x X). unfold k_at in Flo.
      destruct Ok as (Ok & _). rewrite <- Ok in Flo. destruct H as [H|(H & _)]; qlra.
    - intros k x K X. destruct (NG k K) as (Gk & _ & Ok & Pk & _). assert (XL : In x L) by (apply LIN; auto).
      destruct (skey_ltb_spec k x Gk (key_good _ _ _ _ V XL)) as [|H]; auto. exfalso. apply H. unfold klt. rewrite Pk.
      destruct (KAT x XL) as (Y & _). rewrite qmax_l by auto. rewrite Forall_forall in Fhi. specialize (Fhi x X). unfold k_at in Fhi.
      destruct Ok as (Ok & _). rewrite <- Ok in Fhi. now left. }
  assert (OFF : forall k, In k lo \/ In k hi -> In k L /\ k_at k (snd pt) <> fst pt).
  { intros k [K|K]; (split; [apply LIN; auto|]).
    - rewrite Forall_forall in Flo. specialize (Flo k K). cbn in Flo. intros E. qlra.
    - rewrite Forall_forall in Fhi. specialize (Fhi k K). cbn in Fhi. intros E. qlra. }
  assert (Q0 : QOK pt Q).
  { constructor; auto.
    - intros p H. split; [now apply QS2|]. apply (i_qgt _ _ _ V). now right.
    - intros s Is. destruct (i_qend _ _ _ V s Is) as (E1 & E2). split; intros H.
      + destruct (E1 (evlt_trans _ _ _ PP H)) as [E|]; auto. cbn in E. rewrite <- E in H. now apply evlt_irrefl in H.
      + destruct (E2 (evlt_trans _ _ _ PP H)) as [E|]; auto. cbn in E. rewrite <- E in H. now apply evlt_irrefl in H.
    - intros p l H. apply (i_qst _ _ _ V). now right. }
  assert (ABOVE : forall s m, ons s pt -> ons s m -> evlt pt m -> snd pt < snd m).
  { intros s m O1 O2 H. destruct H as [H|(H & H')]; auto. rewrite (ons_eq s pt m O1 O2 H) in H'. qlra. }
  assert (BASE : forall Q', QOK pt Q' -> (forall p, In p (qkeys Q) -> In p (qkeys Q')) ->
    (forall lo' a k new', lo = lo' ++ [a] -> new = k :: new' -> sl (k_seg a) <> sl (k_seg k) -> forall m, ons (k_seg a) m -> ons (k_seg k) m -> snd pt < snd m -> In m (qkeys Q')) ->
    (forall new' k b hi', new = new' ++ [k] -> hi = b :: hi' -> sl (k_seg k) <> sl (k_seg b) -> forall m, ons (k_seg k) m -> ons (k_seg b) m -> snd pt < snd m -> In m (qkeys Q')) ->
    (forall lo' a b hi', new = [] -> lo = lo' ++ [a] -> hi = b :: hi' -> sl (k_seg a) <> sl (k_seg b) -> forall m, ons (k_seg a) m -> ons (k_seg b) m -> snd pt < snd m -> In m (qkeys Q')) ->
    INV pt Q' (lo ++ new ++ hi)).
  { intros Q' [q1 q2 q3 q4] SUB B1 B2 B3. constructor; auto.
    - (* active *)
      intros s. rewrite !map_app, !in_app_iff. split.
      + assert (OLD : forall k, In k lo \/ In k hi -> k_seg k = s -> In s SS /\ evle (lower s) pt /\ evlt pt (upper s)).
        { intros k K <-. destruct (OFF k K) as (KL & NE). destruct (proj1 (i_act _ _ _ V _) (in_map k_seg _ _ KL)) as (A & B & C).
          split; auto. split; [eapply evle_trans; [exact B|now apply evlt_le]|].
          destruct (evle_cases _ _ (UPB _ A B C)) as [|E]; auto. exfalso. apply NE. unfold k_at. rewrite E. apply ons_upper. now apply gd. }
        intros [H|[H|H]]; apply in_map_iff in H as (k & E & K); eauto.
        destruct (NG k K) as (_ & A & B & _ & C). rewrite E in *. split; auto. split; [apply lower_le; auto using gd|now left].
      + intros (A & B & C). assert (Gs := gd s A). destruct (evle_cases _ _ B) as [B'|B'].
        * assert (LP : evle (lower s) pos) by (apply NOW; auto; apply (in_worthy_list s A)).
          assert (AL : In s (map k_seg L)) by (apply (i_act _ _ _ V); split; auto; split; auto; eapply evlt_trans; eauto).
          apply in_map_iff in AL as (k & <- & K). destruct (proj1 (LIN k) K) as [H|[H|H]]; auto using in_map.
          right; left. apply in_map_iff. exists (k_seg k, pt). split; auto. apply NEW. cbn. split; auto. apply FL. split; auto.
          assert (O : ons (k_seg k) pt). { apply SEGS. unfold segs. rewrite map_app. apply in_or_app. left. now apply in_map. }
          split; auto. eapply ABOVE; eauto. now apply ons_upper.
        * right; left. apply in_map_iff. exists (s, pt). split; auto. apply NEW. cbn. split; auto. apply FL. split; auto.
          assert (O : ons s pt) by (rewrite <- B'; now apply ons_lower). split; auto. eapply ABOVE; eauto. now apply ons_upper.
    - (* keys *)
      intros k K. apply in_app_or in K as [K|K]; [|apply in_app_or in K as [K|K]].
      2: { destruct (NG k K) as (_ & A & B & C & _). rewrite C. split; auto. split; [apply evle_refl|auto]. }
      all: destruct (OFF k ltac:(auto)) as (KL & NE); destruct (i_key _ _ _ V k KL) as (A & B & C);
        (split; [auto|]); (split; [eapply evle_trans; [exact B|now apply evlt_le]|]); intros p W O LE; apply C; auto;
        destruct (evle_cases _ _ LE) as [LT|E]; [now apply NOW|]; exfalso; subst p; apply NE; apply O.
    - (* order *)
      assert (AB : forall x y, In x lo \/ In x hi -> In y L -> ordB pt (k_seg x) (k_seg y) -> ordA pt (k_seg x) (k_seg y)).
      { intros x y X Y H. eapply sord_ext; [|exact H]. intros _. destruct (OFF x X) as (_ & NE). unfold passA, passB, k_at in *.
        destruct (qltb_spec (at_y (k_seg x) (snd pt)) (fst pt)), (qleb_spec (at_y (k_seg x) (snd pt)) (fst pt)); auto; exfalso; [qlra|].
        apply NE. qlra. }
      assert (SB' := SB). apply (ss_map _ k_seg) in SB'. rewrite EL in SB'. apply ss_app in SB' as (T1 & T2 & T3).
      rewrite app_assoc in T2. apply ss_app in T2 as (_ & T4 & T5). apply (ss_map _ k_seg).
      apply ss_app. split; [|split].
      + eapply ss_impl; [|exact T1]. intros x y X Y H. apply AB; auto. apply LIN; auto.
      + apply ss_app. split; [|split].
        * eapply ss_impl; [|exact NS]. intros x y X Y H. cbn in H. destruct (NG x X) as (_ & _ & (E & _) & _).
          eapply sord_ext; [|exact H]. intros _. unfold passA. rewrite E. destruct (qleb_spec (fst pt) (fst pt)); auto. exfalso; qlra.
        * eapply ss_impl; [|exact T4]. intros x y X Y H. apply AB; auto. apply LIN; auto.
        * intros x y X Y. left. destruct (NG x X) as (_ & _ & (E & _) & _). rewrite E. rewrite Forall_forall in Fhi. now apply Fhi.
      + intros x y X Y. left. rewrite Forall_forall in Flo. specialize (Flo x X). unfold k_at in Flo. apply in_app_or in Y as [Y|Y].
        * destruct (NG y Y) as (_ & _ & (E & _) & _). now rewrite E.
        * rewrite Forall_forall in Fhi. specialize (Fhi y Y). unfold k_at in Fhi. qlra.
    - (* adjacent pairs *)
      intros a b AD NE m Oa Ob PM.
      assert (OLDADJ : adj a b (map k_seg L) -> In m (qkeys Q')).
      { intros AL. assert (H := i_qadj _ _ _ V a b AL NE m Oa Ob (evlt_trans _ _ _ PP PM)). destruct H as [H|H]; auto.
        cbn in H. subst m. now apply evlt_irrefl in PM. }
      rewrite map_app in AD. apply adj_app in AD as [AD|[AD|(l' & r' & E1 & E2)]].
      { apply OLDADJ. rewrite EL, map_app. now apply adj_appl. }
      { rewrite map_app in AD. apply adj_app in AD as [AD|[AD|(l' & r' & E1 & E2)]].
        - exfalso. apply adj_in in AD as (H1 & H2). apply in_map_iff in H1 as (k1 & <- & K1). apply in_map_iff in H2 as (k2 & <- & K2).
          destruct (NG k1 K1) as (_ & A1 & A2 & _). destruct (NG k2 K2) as (_ & C1 & C2 & _).
          rewrite (meet_once _ _ pt m (gd _ A1) (gd _ C1) NE A2 C2 Oa Ob) in PM. now apply evlt_irrefl in PM.
        - apply OLDADJ. rewrite EL. rewrite !map_app, !app_assoc. now apply adj_appr.
        - destruct hi as [|bk hi']; [discriminate|]. injection E2 as E2 _.
          destruct new as [|nk new' _] using rev_ind; [destruct l'; discriminate|]. rewrite map_app in E1. apply app_inj_tail in E1 as (_ & E1). cbn in E1, E2.
          subst a b. eapply (B2 new' nk bk hi'); eauto. apply (ABOVE (k_seg nk) m); auto. apply (NG nk). apply in_or_app. cbn. auto. }
      { destruct lo as [|lk lo' _] using rev_ind; [destruct l'; discriminate|]. rewrite map_app in E1. apply app_inj_tail in E1 as (_ & E1). cbn in E1.
        destruct new as [|nk new'] eqn:EN; cbn in E2.
        - destruct hi as [|bk hi']; [discriminate|]. injection E2 as E2 _. subst a b. eapply (B3 lo' lk bk hi'); eauto.
          destruct PM as [PM|(PM & _)]; auto. exfalso.
          rewrite Forall_forall in Flo, Fhi. assert (H1 : k_at lk (snd pt) < fst pt) by (apply Flo, in_or_app; right; now left). assert (H2 := Fhi bk (or_introl eq_refl)).
          unfold k_at in H1, H2. destruct Oa as (Oa & _), Ob as (Ob & _). rewrite PM in *. qlra.
        - injection E2 as E2 _. subst a b. eapply (B1 lo' lk nk new'); eauto. apply (ABOVE (k_seg nk) m); auto. apply (NG nk). now left. } }
  assert (SSin : forall k, In k lo \/ In k hi \/ In k new -> In (k_seg k) SS).
  { intros k [K|[K|K]]; [| |now apply NG]; destruct (OFF k ltac:(auto)) as (KL & _); now apply (i_act _ _ _ V), in_map. }
  fold segs. fold fl. fold new.
  assert (OUT : exists segs0, (if (1 <? length segs)%nat then [(pt, segs)] else []) = (if (1 <? length segs0)%nat then [(pt, segs0)] else []) /\
    NoDup segs0 /\ forall s, In s segs0 <-> In s SS /\ ons s pt) by (exists segs; auto).
  set (o := if (1 <? length segs)%nat then [(pt, segs)] else []) in *.
  destruct new as [|k0 new'] eqn:EN.
  - (* nothing goes on *)
    eexists o, _, (lo ++ hi). split; [reflexivity|]. split; [|exact OUT]. apply BASE.
    + destruct (hd_error (rev lo)) as [a|] eqn:E1; [|exact Q0]. destruct hi as [|b hi']; [exact Q0|]. cbn [hd_error].
      apply add_crossing_ok; auto; apply SSin; [|right; left; now left]. left. destruct (rev lo) as [|x r] eqn:ER; [discriminate|].
      apply some_inv in E1 as ->. apply in_rev. rewrite ER. now left.
    + intros p H. destruct (hd_error (rev lo)) as [a|] eqn:E1; [|exact H]. destruct hi as [|b hi']; [exact H|]. cbn [hd_error].
      apply add_crossing_in; auto; apply gd, SSin; [|right; left; now left]. left. destruct (rev lo) as [|x r] eqn:ER; [discriminate|].
      apply some_inv in E1 as ->. apply in_rev. rewrite ER. now left.
    + discriminate.
    + intros n' k b hi' E. destruct n'; discriminate.
    + intros lo' a b hi' _ -> -> NE m O1 O2 LT. rewrite rev_unit. cbn [hd_error]. apply add_crossing_in; auto.
      * apply gd, SSin. left. apply in_or_app. cbn. auto.
      * apply gd, SSin. right; left. now left.
  - rewrite INS. eexists o, _, (lo ++ (k0 :: new') ++ hi). split; [reflexivity|]. split; [|exact OUT].
    assert (I0 : In (k_seg k0) SS) by (apply SSin; right; right; now left).
    assert (IL : In (k_seg (last (k0 :: new') k0)) SS).
    { apply SSin. right; right. destruct (exists_last (l := k0 :: new')) as (u & v & E); [discriminate|]. rewrite E, last_last. apply in_or_app. cbn. auto. }
    set (Q1 := match hd_error (rev lo) with Some a => add_crossing Q pt (k_seg k0) (k_seg a) | None => Q end).
    assert (P1 : QOK pt Q1).
    { unfold Q1. destruct (rev lo) as [|a r] eqn:ER; [exact Q0|]. cbn [hd_error]. apply add_crossing_ok; auto. apply SSin. left. apply in_rev. rewrite ER. now left. }
    assert (U1 : forall p, In p (qkeys Q) -> In p (qkeys Q1)).
    { intros p H. unfold Q1. destruct (rev lo) as [|a r] eqn:ER; [exact H|]. cbn [hd_error]. apply add_crossing_in; auto using gd.
      apply gd, SSin. left. apply in_rev. rewrite ER. now left. }
    assert (U2 : forall p, In p (qkeys Q1) -> In p (qkeys (match hd_error hi with Some b => add_crossing Q1 pt (k_seg (last (k0 :: new') k0)) (k_seg b) | None => Q1 end))).
    { intros p H. destruct hi as [|b hi']; [exact H|]. cbn [hd_error]. apply add_crossing_in; auto using gd. apply gd, SSin. right; left. now left. }
    apply BASE.
    + destruct hi as [|b hi']; [exact P1|]. cbn [hd_error]. apply add_crossing_ok; auto. apply SSin. right; left. now left.
    + auto.
    + intros lo' a k n' -> E NE m O1 O2 LT. injection E as <- <-. apply U2. unfold Q1. rewrite rev_unit. cbn [hd_error].
      apply add_crossing_in; auto using gd. apply gd, SSin. left. apply in_or_app. cbn. auto.
    + intros n' k b hi' E -> NE m O1 O2 LT. cbn [hd_error]. rewrite E, last_last. rewrite E, last_last in IL. apply add_crossing_in; auto using gd.
      apply gd, SSin. right; left. now left.
    + discriminate.
Qed.
End Sweep.
