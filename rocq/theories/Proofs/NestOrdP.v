(** Levels of nested sets: the innermost of the sets around a set is one level up. *)
From Coq Require Import List Arith Lia Bool.
Import ListNotations.

Section Count.
Context {X : Type}.
Variable L : list X.
Hypothesis ND : NoDup L.
Definition cnt (f : X -> bool) : nat := length (filter f L).
Lemma cnt_le f g : (forall x, In x L -> f x = true -> g x = true) -> cnt f <= cnt g.
Proof.
  intros H. apply NoDup_incl_length; [now apply NoDup_filter|]. intros x I. apply filter_In in I as (I & F). apply filter_In. auto.
Qed.
Lemma cnt_lt f g y : (forall x, In x L -> f x = true -> g x = true) -> In y L -> g y = true -> f y = false -> S (cnt f) <= cnt g.
Proof.
  intros H I G F. change (S (cnt f)) with (length (y :: filter f L)). apply NoDup_incl_length.
  - constructor; [|now apply NoDup_filter]. intros J. apply filter_In in J as (_ & J). congruence.
  - intros x [<-|J]; apply filter_In; auto. apply filter_In in J as (J & K). auto.
Qed.
Lemma cnt_ext f g : (forall x, In x L -> f x = g x) -> cnt f = cnt g.
Proof. intros H. unfold cnt. f_equal. clear ND. induction L as [|a l IH]; cbn; auto. rewrite (H a (or_introl eq_refl)), IH; auto. intros x I. apply H. now right. Qed.
Lemma cnt_pos f y : In y L -> f y = true -> 1 <= cnt f.
Proof. intros I F. unfold cnt. assert (J : In y (filter f L)) by (apply filter_In; auto). destruct (filter f L); [destruct J|cbn; lia]. Qed.
Lemma cnt_some f : 1 <= cnt f -> exists y, In y L /\ f y = true.
Proof. unfold cnt. intros H. destruct (filter f L) as [|y l] eqn:E; [cbn in H; lia|]. exists y. apply filter_In. rewrite E. now left. Qed.
(** an element with the largest key *)
Lemma max_key f (key : X -> nat) : 1 <= cnt f -> exists d, In d L /\ f d = true /\ forall x, In x L -> f x = true -> key x <= key d.
Proof.
  clear ND. unfold cnt. induction L as [|a l IH]; cbn; [lia|]. intros H. destruct (f a) eqn:FA.
  - destruct (filter f l) as [|b k] eqn:FL.
    + exists a. split; auto. split; auto. intros x [<-|I] F; auto. assert (J : In x (filter f l)) by (apply filter_In; auto). rewrite FL in J. destruct J.
    + destruct IH as (d & D & FD & M); [cbn; lia|]. destruct (le_lt_dec (key a) (key d)) as [Q|Q].
      * exists d. split; auto. split; auto. intros x [<-|I] F; auto.
      * exists a. split; auto. split; auto. intros x [<-|I] F; auto. specialize (M x I F). lia.
  - destruct (IH H) as (d & D & FD & M). exists d. split; auto. split; auto. intros x [<-|I] F; [congruence|auto].
Qed.
End Count.

Section Nest.
Context {X : Type}.
Variables (L : list X) (pos : X -> bool) (inn : X -> X -> bool).
Hypothesis ND : NoDup L.
(** [inn d c]: the set of [d] is around [c]; a positive set contains itself *)
Hypothesis H1 : forall c, In c L -> inn c c = pos c.
Hypothesis H2 : forall c, In c L -> cnt L (fun d => pos d && inn d c) = cnt L (fun d => negb (pos d) && inn d c).
Hypothesis H3 : forall c d, In c L -> In d L -> pos c = pos d -> c <> d -> inn c d = true -> inn d c = true -> False.
Hypothesis H4 : forall d x c, In d L -> In x L -> In c L -> pos d = pos x -> d <> x -> inn x d = true -> inn d c = true -> inn x c = true.
Hypothesis H5 : forall d x c, In d L -> In x L -> In c L -> pos d = pos x -> d <> x -> inn d c = true -> inn x c = true -> inn x d = true \/ inn d x = true.
Hypothesis EQD : forall x y : X, In x L -> In y L -> x = y \/ x <> y.
Definition P (c : X) : nat := cnt L (fun d => pos d && inn d c).
Definition N (c : X) : nat := cnt L (fun d => negb (pos d) && inn d c).
Definition level (c : X) : nat := if pos c then 2 * P c - 1 else 2 * P c.
Lemma P_pos c : In c L -> pos c = true -> 1 <= P c.
Proof. intros I H. apply (cnt_pos L _ c I). now rewrite H, H1, H. Qed.
Ltac boolify := repeat match goal with H : _ && _ = true |- _ => apply andb_true_iff in H as (? & ?) | H : negb _ = true |- _ => apply negb_true_iff in H | |- _ && _ = true => apply andb_true_iff; split | |- negb _ = true => apply negb_true_iff end.
Lemma above_pos d c : In d L -> In c L -> d <> c -> inn d c = true -> pos d = true -> P d <= P c /\ (pos c = true -> S (P d) <= P c).
Proof.
  intros D C NE I PD. assert (SUB : forall x, In x L -> pos x && inn x d = true -> pos x && inn x c = true).
  { intros x Hx F. boolify; auto. destruct (EQD x d Hx D) as [->|NX]; auto. apply (H4 d x c); auto. congruence. }
  split; [now apply cnt_le|]. intros PC. apply (cnt_lt L ND _ _ c); auto.
  - now rewrite PC, H1, PC.
  - rewrite PC. cbn. apply not_true_is_false. intros Y. apply (H3 c d); auto. congruence.
Qed.
Lemma above_neg d c : In d L -> In c L -> d <> c -> inn d c = true -> pos d = false -> S (N d) <= N c.
Proof.
  intros D C NE I PD. apply (cnt_lt L ND _ _ d); auto.
  - intros x Hx F. boolify; auto. destruct (EQD x d Hx D) as [->|NX]; auto. apply (H4 d x c); auto. congruence.
  - now rewrite PD, I.
  - rewrite PD, H1, PD; auto.
Qed.
Lemma above_level d c : In d L -> In c L -> d <> c -> inn d c = true -> S (level d) <= level c /\ (S (level d) = level c -> pos d <> pos c).
Proof.
  intros D C NE I. unfold level. destruct (pos d) eqn:PD.
  - destruct (above_pos d c D C NE I PD) as (A & B). pose proof (P_pos d D PD). destruct (pos c) eqn:PC; [specialize (B eq_refl)|]; (split; [lia|]); [lia|congruence].
  - pose proof (above_neg d c D C NE I PD) as A. pose proof (H2 d D) as E1. pose proof (H2 c C) as E2. fold (P d) (N d) in E1. fold (P c) (N c) in E2.
    destruct (pos c) eqn:PC; (split; [lia|]); [congruence|lia].
Qed.
Lemma below_one c : In c L -> (exists d, In d L /\ d <> c /\ inn d c = true) -> exists d, In d L /\ d <> c /\ inn d c = true /\ S (level d) = level c.
Proof.
  intros C (d0 & D0 & NE0 & I0). pose proof (H2 c C) as E. fold (P c) (N c) in E. destruct (pos c) eqn:PC.
  - assert (1 <= N c) as NC by (rewrite <- E; now apply P_pos).
    destruct (max_key L _ N NC) as (d & D & F & MX). boolify. assert (DC : d <> c) by congruence. exists d. split; auto. split; auto. split; auto.
    assert (LE : N c <= S (N d)).
    { assert (Q : cnt L (fun x => negb (pos x) && inn x c) <= length (d :: filter (fun x => negb (pos x) && inn x d) L)); [|exact Q].
      apply NoDup_incl_length; [now apply NoDup_filter|]. intros x J. apply filter_In in J as (Hx & F). pose proof (MX x Hx F) as MXX. boolify. destruct (EQD x d Hx D) as [->|NX]; [now left|right].
      apply filter_In. split; auto. apply andb_true_iff. split; [now rewrite H6|].
      destruct (H5 d x c) as [Y|Y]; auto; [congruence|]. exfalso. pose proof (above_neg d x D Hx (not_eq_sym NX) Y H) as Z. lia. }
    pose proof (above_neg d c D C DC H0 H) as LT. pose proof (H2 d D) as E1. fold (P d) (N d) in E1. unfold level. rewrite PC, H. lia.
  - assert (1 <= P c) as NC.
    { destruct (pos d0) eqn:PD0; [apply (cnt_pos L _ d0); auto; now rewrite PD0, I0|]. rewrite E. apply (cnt_pos L _ d0); auto. now rewrite PD0, I0. }
    destruct (max_key L _ P NC) as (d & D & F & MX). boolify. assert (DC : d <> c) by congruence. exists d. split; auto. split; auto. split; auto.
    assert (LE : P c <= P d).
    { apply cnt_le; auto. intros x Hx F. pose proof (MX x Hx F) as MXX. boolify; auto. destruct (EQD x d Hx D) as [->|NX]; [rewrite H1; auto|].
      destruct (H5 d x c) as [Y|Y]; auto; [congruence|]. exfalso. pose proof (above_pos d x D Hx (not_eq_sym NX) Y H) as (_ & Z). specialize (Z H6). lia. }
    destruct (above_pos d c D C DC H0 H) as (LT & _). pose proof (P_pos d D H). unfold level. rewrite PC, H. lia.
Qed.
(** so the element with the largest level among those around [c] is one level up and of the other kind *)
Theorem closest c x : In c L -> In x L -> x <> c -> inn x c = true ->
  (forall y, In y L -> y <> c -> inn y c = true -> level y <= level x) -> S (level x) = level c /\ pos x <> pos c.
Proof.
  intros C Xi NE I MX. destruct (below_one c C) as (d & D & DN & DI & E); [eauto|]. specialize (MX d D DN DI).
  destruct (above_level x c Xi C NE I) as (A & B). assert (S (level x) = level c) by lia. auto.
Qed.
End Nest.
