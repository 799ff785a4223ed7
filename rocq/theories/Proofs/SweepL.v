(** * The data structures of the sweep: active list and event queue. *)
From Coq Require Import Sorting.Sorted.
From Verif.Model Require Import Scan2d.
From Verif.Proofs Require Import PyP SweepOrd.

Lemma foldM_app {A S} (f : S -> A -> result S) l1 l2 s :
  foldM f (l1 ++ l2) s = (s' <- foldM f l1 s ;; foldM f l2 s').
Proof. revert s. induction l1 as [|a l IH]; intros s; cbn; auto. destruct (f s a); cbn; auto. Qed.

Lemma nodup_app {A} (a b : list A) : NoDup a -> NoDup b -> (forall x, In x a -> ~ In x b) -> NoDup (a ++ b).
Proof.
  intros A1 B1 D. induction A1 as [|x a N A1 IH]; cbn; auto. constructor.
  - rewrite in_app_iff. intros [H|H]; [auto|]. apply (D x); cbn; auto.
  - apply IH. intros y Y. apply D. cbn. auto.
Qed.

(** ** active list *)
Lemma split_at_app k l : let '(a, b) := split_at k l in
  l = a ++ b /\ Forall (fun x => skey_ltb k x = false) a /\ match b with [] => True | x :: _ => skey_ltb k x = true end.
Proof.
  induction l as [|x l IH]; cbn; auto. destruct (skey_ltb k x) eqn:E; [auto|].
  destruct (split_at k l) as (a & b). destruct IH as (-> & F & H). auto.
Qed.
Lemma part_le {A} (f : A -> Qc) x l : StronglySorted (fun a b => f a <= f b) l -> Forall (fun a => f a <= x) l ->
  exists lo m, l = lo ++ m /\ Forall (fun a => f a < x) lo /\ Forall (fun a => f a = x) m.
Proof.
  intros S F. induction S as [|a l S IH G]; [exists [], []; auto|]. inversion F; subst.
  destruct IH as (lo & m & -> & L & M); auto. destruct (qltb_spec (f a) x) as [H|H].
  - exists (a :: lo), m. auto.
  - exists [], (a :: lo ++ m). assert (E : f a = x) by qlra. split; [auto|]. split; [constructor|]. constructor; auto.
    rewrite Forall_forall in *. intros y Y. specialize (G y Y). specialize (H2 y Y). cbn in *. qlra.
Qed.
Lemma part_ge {A} (f : A -> Qc) x l : StronglySorted (fun a b => f a <= f b) l -> Forall (fun a => x <= f a) l ->
  exists m hi, l = m ++ hi /\ Forall (fun a => f a = x) m /\ Forall (fun a => x < f a) hi.
Proof.
  intros S F. induction S as [|a l S IH G]; [exists [], []; auto|]. inversion F; subst.
  destruct IH as (m & hi & -> & L & M); auto. destruct (qltb_spec x (f a)) as [H|H].
  - exists [], (a :: m ++ hi). split; [auto|]. split; [constructor|]. constructor; auto.
    rewrite Forall_forall in *. intros y Y. specialize (G y Y). cbn in *. qlra.
  - exists (a :: m), hi. assert (E : f a = x) by qlra. auto.
Qed.
Lemma split_scan pt k l :
  StronglySorted (fun a b => k_at a (snd pt) <= k_at b (snd pt)) l ->
  (forall x, In x l -> skey_ltb k x = true -> fst pt <= k_at x (snd pt)) ->
  (forall x, In x l -> skey_ltb k x = false -> k_at x (snd pt) <= fst pt) ->
  exists lo m1 m2 hi, l = lo ++ m1 ++ m2 ++ hi /\ split_at k l = (lo ++ m1, m2 ++ hi) /\
    Forall (fun a => k_at a (snd pt) < fst pt) lo /\ Forall (fun a => k_at a (snd pt) = fst pt) (m1 ++ m2) /\
    Forall (fun a => fst pt < k_at a (snd pt)) hi.
Proof.
  intros S T F. assert (H := split_at_app k l). destruct (split_at k l) as (a & b). destruct H as (E & A & B).
  rewrite E in S. apply ss_app in S as (S1 & S2 & _).
  destruct (part_le (fun k => k_at k (snd pt)) (fst pt) a) as (lo & m1 & -> & L1 & L2); auto.
  { rewrite Forall_forall in *. intros x X. apply F; auto. rewrite E. apply in_or_app. auto. }
  destruct (part_ge (fun k => k_at k (snd pt)) (fst pt) b) as (m2 & hi & -> & L3 & L4); auto.
  { destruct b as [|x b]; [constructor|]. inversion S2 as [|? ? _ G]; subst.
    assert (X : fst pt <= k_at x (snd pt)). { apply T; auto. apply in_or_app. right. now left. }
    constructor; auto. rewrite Forall_forall in *. intros y Y. specialize (G y Y). cbn in *. qlra. }
  exists lo, m1, m2, hi. rewrite <- app_assoc in E. split; auto. split; auto. split; auto. split; auto.
  now apply Forall_app.
Qed.
Lemma scan_touch_app pt m h : Forall (fun a => k_at a (snd pt) = fst pt) m ->
  Forall (fun a => k_at a (snd pt) <> fst pt) h -> scan_touch pt (m ++ h) = (m, hd_error h).
Proof.
  intros M H. induction M as [|k m E M IH]; cbn.
  - destruct h as [|k h]; cbn; auto. inversion H; subst. destruct (qeqb_spec (k_at k (snd pt)) (fst pt)); [contradiction|auto].
  - rewrite E, qeqb_refl. now rewrite IH.
Qed.
Lemma skey_eqb_refl k : skey_eqb k k = true.
Proof.
  unfold skey_eqb. destruct (pt_eqb_ok (k_pt k) (k_pt k)); [|congruence]. destruct (seg_eqb_ok (k_seg k) (k_seg k)); auto.
Qed.
Lemma remove_key_ok k l1 l2 : Forall (fun x => skey_ltb x k = true) l1 -> skey_ltb k k = false ->
  remove_key k (l1 ++ k :: l2) = Ok (l1 ++ l2).
Proof.
  intros F I. induction F as [|x l1 H F IH]; cbn.
  - now rewrite I, skey_eqb_refl.
  - rewrite H, IH. reflexivity.
Qed.
Lemma remove_block lo m1 m2 hi :
  StronglySorted (fun a b => skey_ltb a b = true) (lo ++ m1 ++ m2 ++ hi) ->
  (forall k, In k (m1 ++ m2) -> skey_ltb k k = false) ->
  foldM (fun l k => remove_key k l) (rev m1 ++ m2) (lo ++ m1 ++ m2 ++ hi) = Ok (lo ++ hi).
Proof.
  intros S I. rewrite foldM_app.
  assert (G : foldM (fun l k => remove_key k l) (rev m1) (lo ++ m1 ++ m2 ++ hi) = Ok (lo ++ m2 ++ hi)).
  { generalize dependent (m2 ++ hi). intros r S.
    assert (I' : forall k, In k m1 -> skey_ltb k k = false) by (intros; apply I, in_or_app; auto). clear I.
    revert r S. induction m1 as [|k m1 IH] using rev_ind; intros r S; [reflexivity|].
    rewrite rev_unit. cbn [foldM]. rewrite <- app_assoc in S. cbn [app] in S.
    rewrite <- app_assoc. cbn [app]. rewrite app_assoc in S |- *.
    apply ss_app in S as (S1 & S2 & S3).
    rewrite remove_key_ok; [|apply Forall_forall; intros; apply S3; cbn; auto|apply I', in_or_app; cbn; auto].
    cbn [bind]. rewrite <- app_assoc. apply IH.
    - intros; apply I', in_or_app; auto.
    - rewrite app_assoc. apply ss_app. split; auto. inversion S2; subst. split; auto.
      intros x y X Y. apply S3; cbn; auto. }
  rewrite G. cbn [bind]. clear G.
  assert (S' : StronglySorted (fun a b => skey_ltb a b = true) (lo ++ m2 ++ hi)).
  { apply ss_app in S as (S1 & S2 & S3). apply ss_app in S2 as (S4 & S5 & S6). apply ss_app. split; auto. split; auto.
    intros x y X Y. apply S3; auto. apply in_or_app. auto. }
  clear S. assert (I' : forall k, In k m2 -> skey_ltb k k = false) by (intros; apply I, in_or_app; auto). clear I.
  induction m2 as [|k m2 IH]; [reflexivity|]. cbn [foldM app]. apply ss_app in S' as (S1 & S2 & S3).
  rewrite remove_key_ok; [|apply Forall_forall; intros; apply S3; cbn; auto|apply I'; cbn; auto].
  cbn [bind]. apply IH; [|intros; apply I'; cbn; auto]. apply ss_app. split; auto. inversion S2; subst. split; auto.
  intros x y X Y. apply S3; cbn; auto.
Qed.
Lemma insert_by_mid {A} (ltb : A -> A -> bool) k a b : Forall (fun x => ltb k x = false) a ->
  match b with [] => True | x :: _ => ltb k x = true end -> insert_by ltb k (a ++ b) = a ++ k :: b.
Proof.
  intros F H. induction F as [|x a E F IH]; cbn.
  - destruct b as [|x b]; cbn; auto. now rewrite H.
  - now rewrite E, IH.
Qed.
Lemma insert_block {A} (ltb : A -> A -> bool) new : forall lo hi,
  StronglySorted (fun a b => ltb b a = false) new ->
  (forall k x, In k new -> In x lo -> ltb k x = false) -> (forall k x, In k new -> In x hi -> ltb k x = true) ->
  fold_left (fun l k => insert_by ltb k l) new (lo ++ hi) = lo ++ new ++ hi.
Proof.
  induction new as [|k new IH]; intros lo hi S L H; [reflexivity|]. cbn [fold_left].
  inversion S as [|? ? S1 S2]; subst. rewrite Forall_forall in S2.
  rewrite insert_by_mid.
  - replace (lo ++ k :: hi) with ((lo ++ [k]) ++ hi) by (rewrite <- app_assoc; reflexivity).
    rewrite IH; auto.
    + now rewrite <- app_assoc.
    + intros j x J X. apply in_app_or in X as [X|[->|[]]]; auto. apply L; cbn; auto.
    + intros j x J X. apply H; cbn; auto.
  - apply Forall_forall. intros x X. apply L; cbn; auto.
  - destruct hi; auto. apply H; cbn; auto.
Qed.

(** ** event queue *)
Notation qkeys := (map (@fst point (list skey))).
Lemma add_event_in q pt k p : In p (qkeys (add_event q pt k)) <-> p = pt \/ In p (qkeys q).
Proof.
  induction q as [|(x & l) q IH]; cbn.
  - intuition.
  - destruct (pt_eqb_ok x pt) as [->|N]; cbn; [intuition|]. destruct (ev_ltb x pt) eqn:E; destruct (ev_ltb pt x); cbn; rewrite ?IH; intuition.
Qed.
Lemma add_event_sorted q pt k : StronglySorted evlt (qkeys q) -> StronglySorted evlt (qkeys (add_event q pt k)).
Proof.
  induction q as [|(x & l) q IH]; cbn; intros S.
  - repeat constructor.
  - inversion S as [|? ? S1 S2]; subst. destruct (pt_eqb_ok x pt) as [->|N]; [exact S|].
    destruct (ev_ltb_spec pt x) as [L|L]; cbn.
    + constructor; auto. constructor; auto. rewrite Forall_forall in *. intros y Y. eapply evlt_trans; eauto.
    + constructor; auto. rewrite Forall_forall in *. intros y Y. apply add_event_in in Y as [->|Y]; auto.
      apply ev_nlt in L. destruct (evle_cases _ _ L) as [|E]; auto. congruence.
Qed.
Lemma add_event_content q pt k p l : StronglySorted evlt (qkeys q) -> In (p, l) (add_event q pt k) ->
  (p <> pt /\ In (p, l) q) \/
  (p = pt /\ ((exists l0, In (pt, l0) q /\ l = l0 ++ opt_list k) \/ (~ In pt (qkeys q) /\ l = opt_list k))).
Proof.
  induction q as [|(x & m) q IH]; cbn; intros S H.
  - destruct H as [H|[]]. injection H as <- <-. right. split; auto.
  - inversion S as [|? ? S1 S2]; subst. destruct (pt_eqb_ok x pt) as [->|N]; cbn in H.
    + destruct H as [H|H].
      * injection H as <- <-. right. split; auto. left. eauto.
      * left. split; auto. intros ->. rewrite Forall_forall in S2. apply (evlt_irrefl pt), S2.
        change pt with (fst (pt, l)). now apply in_map.
    + destruct (ev_ltb_spec pt x) as [L|L]; cbn in H.
      * destruct H as [H|[H|H]].
        -- injection H as <- <-. right. split; auto. right. split; auto. intros [->|X]; [contradiction|].
           rewrite Forall_forall in S2. exact (evlt_irrefl _ (evlt_trans _ _ _ L (S2 _ X))).
        -- injection H as <- <-. left. split; auto.
        -- left. split; auto. intros ->. rewrite Forall_forall in S2.
           exact (evlt_irrefl _ (evlt_trans _ _ _ L (S2 pt (in_map fst _ _ H)))).
      * destruct H as [H|H].
        -- injection H as <- <-. left. split; auto.
        -- destruct (IH S1 H) as [(A & B)|(-> & [(l0 & B & ->)|(B & ->)])].
           ++ left. auto.
           ++ right. split; auto. left. eauto.
           ++ right. split; auto. right. split; auto. intros [X|X]; auto.
Qed.
