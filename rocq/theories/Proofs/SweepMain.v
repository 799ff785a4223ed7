(** * The sweep from start to end. *)
From Coq Require Import Sorting.Sorted.
From Verif.Model Require Import Scan2d.
From Verif.Proofs Require Import PyP SweepOrd SweepP SweepL SweepInv.

Section Main.
Context (SS : list segment) (Hgood : Forall good SS) (Hnd : NoDup SS).
Let gd := gd SS Hgood.

Lemma next_event pos pt st Q L p : INV SS pos ((pt, st) :: Q) L -> worthy SS p -> evlt pos p -> evle pt p.
Proof.
  intros V W PP. apply ev_nlt. intros X.
  assert (NQ : forall q, In q (qkeys ((pt, st) :: Q)) -> evle pt q).
  { assert (QS := i_qs _ _ _ _ V). cbn in QS. inversion QS as [|? ? QS1 QS2]; subst. rewrite Forall_forall in QS2.
    intros q [<-|H]; [apply evle_refl|]. now apply evlt_le, QS2. }
  assert (H : In p (qkeys ((pt, st) :: Q))).
  { apply (no_skip SS Hgood pos _ L); auto. intros q Hq. eapply evle_trans; [apply evlt_le; exact X|auto]. }
  exact (evle_nlt _ _ (NQ p H) X).
Qed.

(** finitely many stops *)
Definition wlist : list point :=
  flat_map (fun s => [lower s; upper s]) SS ++
  flat_map (fun a => flat_map (fun b => opt_list (nonparallel_intersection_point a b)) SS) SS.
Lemma wlist_in p : worthy SS p <-> In p wlist.
Proof.
  unfold worthy, wlist. rewrite in_app_iff, !in_flat_map. split.
  - intros [(s & I & H)|(a & b & Ia & Ib & N & Oa & Ob)].
    + left. exists s. split; auto. cbn. destruct H; auto.
    + right. exists a. split; auto. apply in_flat_map. exists b. split; auto.
      rewrite (proj2 (nip_ons a b p (gd a Ia) (gd b Ib))); auto. now left.
  - intros [(s & I & [H|[H|[]]])|(a & Ia & H)].
    + left. exists s. auto.
    + left. exists s. auto.
    + apply in_flat_map in H as (b & Ib & H). destruct (nonparallel_intersection_point a b) as [m|] eqn:E; [|destruct H].
      destruct H as [<-|[]]. right. exists a, b. apply nip_ons in E as (E1 & E2 & E3); auto 7.
Qed.
Lemma flat_map_len {A B} (f : A -> list B) c l : (forall x, (length (f x) <= c)%nat) -> (length (flat_map f l) <= length l * c)%nat.
Proof. intros H. induction l as [|x l IH]; cbn; [lia|]. rewrite app_length. specialize (H x). lia. Qed.
Lemma wlist_len : (length wlist <= sweep_fuel (length SS))%nat.
Proof.
  unfold wlist, sweep_fuel. rewrite app_length.
  assert (A := flat_map_len (fun s => [lower s; upper s]) 2 SS ltac:(cbn; lia)).
  assert (B := flat_map_len (fun a => flat_map (fun b => opt_list (nonparallel_intersection_point a b)) SS) (length SS) SS).
  assert (C : forall x, (length (flat_map (fun b => opt_list (nonparallel_intersection_point x b)) SS) <= length SS)%nat).
  { intros x. assert (D := flat_map_len (fun b => opt_list (nonparallel_intersection_point x b)) 1 SS).
    assert ((forall b, (length (opt_list (nonparallel_intersection_point x b)) <= 1)%nat)) by (intros b; destruct (nonparallel_intersection_point x b); cbn; lia).
    specialize (D H). lia. }
  specialize (B C). lia.
Qed.
Definition cnt (pos : point) : nat := length (filter (fun p => ev_ltb pos p) wlist).
Lemma filter_le {A} (f g : A -> bool) l : (forall x, f x = true -> g x = true) -> (length (filter f l) <= length (filter g l))%nat.
Proof.
  intros H. induction l as [|x l IH]; cbn; [lia|]. specialize (H x). destruct (f x), (g x); cbn; try lia; specialize (H eq_refl); discriminate.
Qed.
Lemma filter_lt {A} (f g : A -> bool) l x : (forall x, f x = true -> g x = true) -> In x l -> f x = false -> g x = true ->
  (length (filter f l) < length (filter g l))%nat.
Proof.
  intros H I F G. induction l as [|y l IH]; [destruct I|]. cbn. assert (Y := H y). destruct I as [->|I].
  - rewrite F, G. cbn. assert (L := filter_le f g l H). lia.
  - specialize (IH I). destruct (f y), (g y); cbn; try lia; specialize (Y eq_refl); discriminate.
Qed.
Lemma cnt_lt pos p : worthy SS p -> evlt pos p -> (cnt p < cnt pos)%nat.
Proof.
  intros W L. unfold cnt. apply filter_lt with (x := p).
  - intros x H. destruct (ev_ltb_spec p x) as [K|]; [|discriminate]. destruct (ev_ltb_spec pos x) as [|N]; auto.
    elim N. eapply evlt_trans; eauto.
  - now apply wlist_in.
  - destruct (ev_ltb_spec p p) as [K|]; auto. now apply evlt_irrefl in K.
  - destruct (ev_ltb_spec pos p); auto.
Qed.

Definition reported (p : point) (segs : list segment) : Prop :=
  worthy SS p /\ NoDup segs /\ (2 <= length segs)%nat /\ forall s, In s segs <-> In s SS /\ ons s p.
Definition shared (p : point) : Prop := exists a b, a <> b /\ In a SS /\ In b SS /\ ons a p /\ ons b p.

Lemma nodup_two {A} (l : list A) a b : a <> b -> In a l -> In b l -> (2 <= length l)%nat.
Proof. intros N Ia Ib; destruct l as [|x [|y l]]; cbn in *; try lia; intuition congruence. Qed.

Lemma sweep_ok fuel : forall pos Q L y, INV SS pos Q L -> (cnt pos <= fuel)%nat ->
  match y with None => True | Some y => y <= snd pos end ->
  exists out, sweep fuel Q L y = Ok out /\ StronglySorted evlt (map fst out) /\
    (forall p segs, In (p, segs) out -> evlt pos p /\ reported p segs) /\
    (forall p, worthy SS p -> evlt pos p -> shared p -> In p (map fst out)).
Proof.
  induction fuel as [|fuel IH]; intros pos Q L y V C Y.
  - destruct Q as [|(pt, st) Q]; cbn.
    + exists []. split; auto. split; [constructor|]. split; [intros p segs []|]. intros p W PP.
      exfalso. apply (no_skip SS Hgood pos [] L p) in W; auto. intros q [].
    + exfalso. destruct (i_qgt _ _ _ _ V pt (or_introl eq_refl)) as (PP & W). assert (X := cnt_lt pos pt W PP). lia.
  - destruct Q as [|(pt, st) Q]; cbn.
    + exists []. split; auto. split; [constructor|]. split; [intros p segs []|]. intros p W PP.
      exfalso. apply (no_skip SS Hgood pos [] L p) in W; auto. intros q [].
    + destruct (i_qgt _ _ _ _ V pt (or_introl eq_refl)) as (PP & W).
      assert (YY : (match y with None => true | Some y => qleb y (snd pt) end) = true).
      { destruct y as [y|]; auto. apply qleb_le. destruct PP as [P|(P & _)]; qlra. }
      rewrite YY. cbn [passert bind].
      destruct (step SS Hgood Hnd pos pt st Q L V) as (out & Q' & L' & E & V' & segs & EO & ND & SG).
      rewrite E. cbn [bind].
      assert (X := cnt_lt pos pt W PP).
      destruct (IH pt Q' L' (Some (snd pt)) V' ltac:(lia) ltac:(cbn; qlra)) as (rest & ER & S & R & K).
      rewrite ER. cbn [bind]. exists (out ++ rest). split; auto.
      assert (ONE : forall p sg, In (p, sg) out -> p = pt /\ sg = segs /\ (2 <= length segs)%nat).
      { intros p sg H. rewrite EO in H. destruct (1 <? length segs)%nat eqn:B; [|destruct H]. apply Nat.ltb_lt in B.
        destruct H as [H|[]]. injection H as <- <-. auto. }
      split; [|split].
      * rewrite map_app. apply ss_app. split; [|split; auto].
        -- rewrite EO. destruct (1 <? length segs)%nat; repeat constructor.
        -- intros x z H1 H2. apply in_map_iff in H1 as ((x', sx) & <- & H1). apply in_map_iff in H2 as ((z', sz) & <- & H2).
           destruct (ONE _ _ H1) as (-> & _). now apply (R z' sz).
      * intros p sg H. apply in_app_or in H as [H|H].
        -- destruct (ONE _ _ H) as (-> & -> & LEN). split; auto. split; auto.
        -- destruct (R p sg H) as (A & B). split; auto. eapply evlt_trans; eauto.
      * intros p Wp Pp SH. rewrite map_app. apply in_or_app. destruct (evle_cases _ _ (next_event _ _ _ _ _ p V Wp Pp)) as [LT|EQ]; auto.
        left. subst p. destruct SH as (a & b & N & Ia & Ib & Oa & Ob).
        assert (LEN : (2 <= length segs)%nat) by (apply (nodup_two segs a b); auto; apply SG; auto).
        rewrite EO. destruct (Nat.ltb_spec 1 (length segs)); [now left|lia].
Qed.
End Main.

(** ** the initial queue *)
Record QI (S1 : list segment) (q : equeue) : Prop := {
  qi_s : StronglySorted evlt (qkeys q);
  qi_in : forall p, In p (qkeys q) <-> exists s, In s S1 /\ (p = lower s \/ p = upper s);
  qi_st : forall p l, In (p, l) q -> l = starts S1 p }.
Lemma add_content q pt k (f f' : point -> list skey) : StronglySorted evlt (qkeys q) ->
  (forall p l, In (p, l) q -> l = f p) -> (~ In pt (qkeys q) -> f pt = []) ->
  (forall p, p <> pt -> f' p = f p) -> f' pt = f pt ++ opt_list k ->
  forall p l, In (p, l) (add_event q pt k) -> l = f' p.
Proof.
  intros S C N F F' p l H. destruct (add_event_content _ _ _ _ _ S H) as [(NE & H')|(-> & [(l0 & H' & ->)|(NI & ->)])].
  - rewrite F; auto.
  - rewrite F', (C _ _ H'). reflexivity.
  - rewrite F', N; auto.
Qed.
Lemma starts_snoc S1 s p : starts (S1 ++ [s]) p = starts S1 p ++ (if pt_eqb (lower s) p then [(s, p)] else []).
Proof.
  unfold starts. rewrite filter_app, map_app. cbn. destruct (pt_eqb (lower s) p); reflexivity.
Qed.
Lemma starts_none S1 p : (forall s, In s S1 -> lower s <> p) -> starts S1 p = [].
Proof.
  intros H. destruct (starts S1 p) as [|k r] eqn:E; auto. exfalso. assert (I : In k (starts S1 p)) by (rewrite E; now left).
  apply starts_in in I as (A & B & _). exact (H _ A B).
Qed.
Lemma add_segment_ok S1 q s : good s -> QI S1 q -> exists q', add_segment_events q s = Ok q' /\ QI (S1 ++ [s]) q'.
Proof.
  intros G [A B C]. unfold add_segment_events, SweepKey. destruct (qeqb_spec (snd (fst s)) (snd (snd s))) as [E|_]; [contradiction|].
  cbn [negb passert bind].
  assert (NEW : forall q, ~ In (lower s) (qkeys q) -> (forall p, In p (qkeys q) -> (exists t, In t S1 /\ (p = lower t \/ p = upper t)) \/ p = upper s) -> True) by auto. clear NEW.
  assert (NI : forall p, (forall t, In t S1 -> p <> lower t /\ p <> upper t) -> starts S1 p = []).
  { intros p H. apply starts_none. intros t T. specialize (H t T). intuition. }
  assert (LU : lower s <> upper s). { intros E. assert (X := lower_upper s G). rewrite E in X. qlra. }
  assert (EV : (fst s = lower s /\ snd s = upper s /\ ev_ltb (fst s) (snd s) = true) \/ (fst s = upper s /\ snd s = lower s /\ ev_ltb (fst s) (snd s) = false)).
  { unfold lower, upper. destruct (ev_ltb (fst s) (snd s)); auto. }
  destruct EV as [(E1 & E2 & ->)|(E1 & E2 & ->)]; rewrite E1, E2; (eexists; split; [reflexivity|]).
  - constructor.
    + now apply add_event_sorted, add_event_sorted.
    + intros p. rewrite !add_event_in, B. split.
      * intros [->|[->|(t & T & H)]]; [exists s|exists s|exists t]; rewrite in_app_iff; cbn; auto.
      * intros (t & T & H). apply in_app_or in T as [T|[<-|[]]]; [eauto|]. destruct H; auto.
    + apply (add_content _ _ _ (starts (S1 ++ [s]))); auto using add_event_sorted.
      * apply (add_content _ _ _ (starts S1)); auto.
        -- intros H. apply NI. intros t T. split; intros E; apply H, B; exists t; auto.
        -- intros p NE. rewrite starts_snoc. destruct (pt_eqb_ok (lower s) p); [congruence|]. apply app_nil_r.
        -- rewrite starts_snoc. destruct (pt_eqb_ok (lower s) (lower s)); [reflexivity|congruence].
      * intros H. rewrite starts_snoc. destruct (pt_eqb_ok (lower s) (upper s)) as [|_]; [contradiction|]. rewrite app_nil_r.
        apply NI. intros t T. split; intros E; apply H, add_event_in; right; apply B; exists t; auto.
      * cbn. now rewrite app_nil_r.
  - constructor.
    + now apply add_event_sorted, add_event_sorted.
    + intros p. rewrite !add_event_in, B. split.
      * intros [->|[->|(t & T & H)]]; [exists s|exists s|exists t]; rewrite in_app_iff; cbn; auto.
      * intros (t & T & H). apply in_app_or in T as [T|[<-|[]]]; [eauto|]. destruct H; auto.
    + apply (add_content _ _ _ (starts S1)); auto using add_event_sorted.
      * apply (add_content _ _ _ (starts S1)); auto.
        -- intros H. apply NI. intros t T. split; intros E; apply H, B; exists t; auto.
        -- cbn. now rewrite app_nil_r.
      * intros H. apply NI. intros t T. split; intros E; apply H, add_event_in; right; apply B; exists t; auto.
      * intros p NE. rewrite starts_snoc. destruct (pt_eqb_ok (lower s) p); [congruence|]. apply app_nil_r.
      * rewrite starts_snoc. destruct (pt_eqb_ok (lower s) (lower s)); [reflexivity|congruence].
Qed.
Lemma queue_ok S2 : forall S1 q, Forall good S2 -> QI S1 q -> exists q', foldM add_segment_events S2 q = Ok q' /\ QI (S1 ++ S2) q'.
Proof.
  induction S2 as [|s S2 IH]; intros S1 q F H; cbn.
  - exists q. rewrite app_nil_r. auto.
  - inversion F; subst. destruct (add_segment_ok S1 q s) as (q1 & -> & H1); auto. cbn.
    destruct (IH _ _ H3 H1) as (q2 & -> & H4). exists q2. split; auto. now rewrite <- app_assoc in H4.
Qed.
Lemma below_all (SS : list segment) : exists y, forall s, In s SS -> y < snd (lower s) /\ y < snd (upper s).
Proof.
  induction SS as [|s l (y & IH)]; [exists 0; intros s []|].
  exists (qmin y (qmin (snd (lower s)) (snd (upper s))) - 1). intros t [->|T].
  - unfold qmin. destruct (qleb_spec (snd (lower t)) (snd (upper t))) as [H|H]; match goal with |- context [qleb y ?z] => destruct (qleb_spec y z) as [K|K] end; split; qlra.
  - destruct (IH t T) as (A & B). set (z := qmin (snd (lower s)) (snd (upper s))). unfold qmin.
    destruct (qleb_spec y z) as [K|K]; split; qlra.
Qed.

Lemma no_dups_spec l : no_dups l = true <-> NoDup l.
Proof.
  induction l as [|s l IH]; cbn.
  - split; auto. constructor.
  - rewrite andb_true_iff, IH, negb_true_iff. split.
    + intros (H & K). constructor; auto. intros I. assert (E : existsb (seg_eqb s) l = true).
      { apply existsb_exists. exists s. split; auto. destruct (seg_eqb_ok s s); auto. }
      congruence.
    + intros H. inversion H as [|? ? N K]; subst. split; auto. destruct (existsb (seg_eqb s) l) eqn:E; auto. exfalso.
      apply existsb_exists in E as (t & T & X). destruct (seg_eqb_ok s t) as [->|]; auto. discriminate.
Qed.

Theorem sweep_no_horizontal SS : NoDup SS -> Forall good SS ->
  exists out, all_segment_intersections_no_horizontal SS = Ok out /\ StronglySorted evlt (map fst out) /\
    (forall p segs, In (p, segs) out -> reported SS p segs) /\
    (forall p, worthy SS p -> shared SS p -> In p (map fst out)).
Proof.
  intros ND G. unfold all_segment_intersections_no_horizontal. rewrite (proj2 (no_dups_spec SS) ND). cbn [passert bind].
  replace (forallb (fun s => negb (pt_eqb (fst s) (snd s))) SS) with true.
  2: { symmetry. apply forallb_forall. intros s Is. rewrite Forall_forall in G. destruct (pt_eqb_ok (fst s) (snd s)) as [E|]; auto.
       exfalso. apply (G s Is). now rewrite E. }
  cbn [passert bind].
  destruct (queue_ok SS [] [] G) as (q & -> & H).
  { constructor; [constructor| |intros p l []]. intros p. split; [intros []|]. intros (s & [] & _). }
  cbn [bind app] in *. destruct H as [A B C]. destruct (below_all SS) as (y0 & BA).
  assert (BLW : forall p, worthy SS p -> evlt (0, y0) p).
  { intros p [(s & Is & E)|(a & b & Ia & Ib & _ & Oa & _)]; left; cbn.
    - destruct (BA s Is) as (X & Y). destruct E as [->| ->]; auto.
    - destruct (BA a Ia) as (X & Y). destruct Oa as (_ & O & _). qlra. }
  assert (V : INV SS (0, y0) q []).
  { constructor; auto.
    - intros s. split; [intros []|]. intros (Is & L & _). exfalso. destruct (BA s Is) as (X & _).
      destruct L as [L|(L & _)]; cbn in L; qlra.
    - intros k [].
    - constructor.
    - intros p H. apply B in H. assert (W : worthy SS p) by (left; destruct H as (s & S & H); exists s; auto). auto.
    - intros s Is. split; intros _; apply B; exists s; auto.
    - intros a b AD. exfalso. destruct (adj_in _ _ _ AD) as ([] & _). }
  destruct (sweep_ok SS G ND (sweep_fuel (length SS)) (0, y0) q [] None V) as (out & E & S & R & K); auto.
  { unfold cnt. transitivity (length (wlist SS)); [|apply wlist_len].
    clear. induction (wlist SS) as [|x l IH]; cbn; [lia|]. destruct (ev_ltb _ _); cbn; lia. }
  exists out. split; auto. split; auto. split.
  - intros p segs I. now apply (R p segs I).
  - intros p W SH. apply K; auto.
Qed.
