(** * Exact rationals.

    Python side: [plytypes.F = gmpy2.mpq] (plytypes.py:35).  A [mpq] is always kept in
    lowest terms, so [==] on mpq is structural equality; [Qc] (canonical rationals of the
    standard library) has exactly that property: Leibniz equality is numeric equality.

    This file only holds arithmetic conveniences (boolean comparisons with their
    reflection lemmas, and tactics that hand goals about [Qc] to [lra]/[nra]). *)
From Coq Require Export QArith Qcanon List Bool Arith ZArith Lia Lqa.
Export ListNotations.
Open Scope Qc_scope.

Definition qltb (a b : Qc) : bool := match Qccompare a b with Lt => true | _ => false end.
Definition qleb (a b : Qc) : bool := match Qccompare a b with Gt => false | _ => true end.
Definition qeqb (a b : Qc) : bool := match Qccompare a b with Eq => true | _ => false end.

Lemma qltb_spec a b : reflect (a < b) (qltb a b).
Proof.
  unfold qltb. destruct (Qccompare a b) eqn:E; constructor.
  - apply Qceq_alt in E; subst. apply Qlt_irrefl.
  - now apply Qclt_alt.
  - apply Qcgt_alt in E. intro H. apply (Qlt_irrefl (this a)). eapply Qlt_trans; eauto.
Qed.
Lemma qleb_spec a b : reflect (a <= b) (qleb a b).
Proof.
  unfold qleb. destruct (Qccompare a b) eqn:E; constructor.
  - apply Qceq_alt in E; subst. apply Qle_refl.
  - apply Qclt_alt in E. now apply Qlt_le_weak.
  - apply Qcgt_alt in E. intro H. apply (Qlt_irrefl (this a)). eapply Qle_lt_trans; eauto.
Qed.
Lemma qeqb_spec a b : reflect (a = b) (qeqb a b).
Proof.
  unfold qeqb. destruct (Qccompare a b) eqn:E; constructor.
  - now apply Qceq_alt.
  - apply Qclt_alt in E. intros ->. now apply (Qlt_irrefl (this b)).
  - apply Qcgt_alt in E. intros ->. now apply (Qlt_irrefl (this b)).
Qed.
Lemma qeqb_refl a : qeqb a a = true.
Proof. destruct (qeqb_spec a a); congruence. Qed.
Lemma qeqb_eq a b : qeqb a b = true <-> a = b.
Proof. destruct (qeqb_spec a b); split; congruence. Qed.
Lemma qltb_lt a b : qltb a b = true <-> a < b.
Proof. destruct (qltb_spec a b); split; congruence || tauto. Qed.
Lemma qleb_le a b : qleb a b = true <-> a <= b.
Proof. destruct (qleb_spec a b); split; congruence || tauto. Qed.

(** ** Pushing [this] (the embedding Qc -> Q) to the leaves. *)
Lemma this_plus a b : (this (a + b) == this a + this b)%Q.
Proof. apply Qred_correct. Qed.
Lemma this_mult a b : (this (a * b) == this a * this b)%Q.
Proof. apply Qred_correct. Qed.
Lemma this_opp a : (this (- a) == - this a)%Q.
Proof. apply Qred_correct. Qed.
Lemma this_minus a b : (this (a - b) == this a - this b)%Q.
Proof. unfold Qcminus. rewrite this_plus, this_opp. reflexivity. Qed.
Lemma this_Q2Qc q : (this (Q2Qc q) == q)%Q.
Proof. apply Qred_correct. Qed.
Lemma this_inv a : (this (/ a) == / this a)%Q.
Proof. apply Qred_correct. Qed.
Lemma qc_eq_this a b : a = b -> (this a == this b)%Q.
Proof. intros ->. reflexivity. Qed.
Lemma qc_not_eq a b : a <> b -> a < b \/ b < a.
Proof. intros H. destruct (Q_dec (this a) (this b)) as [[L|L]|E]; auto. elim H. now apply Qc_is_canon. Qed.
Lemma qc_nlt a b : ~ (a < b) -> b <= a.
Proof. intros H. apply Qnot_lt_le. exact H. Qed.
Lemma qc_nle a b : ~ (a <= b) -> b < a.
Proof. intros H. apply Qnot_le_lt. exact H. Qed.

(** Integer literals *)
Definition zq (z : Z) : Qc := Q2Qc (inject_Z z).
Definition qq (n : Z) (d : positive) : Qc := Q2Qc (n # d).

Inductive qexp := QV (q : Qc) | QK (q : Q) | QA (a b : qexp) | QS (a b : qexp)
                | QM (a b : qexp) | QO (a : qexp).
Fixpoint evc (e : qexp) : Qc :=
  match e with
  | QV q => q | QK q => Q2Qc q | QA a b => evc a + evc b | QS a b => evc a - evc b
  | QM a b => evc a * evc b | QO a => - evc a
  end.
Fixpoint evq (e : qexp) : Q :=
  match e with
  | QV q => this q | QK q => q | QA a b => (evq a + evq b)%Q | QS a b => (evq a - evq b)%Q
  | QM a b => (evq a * evq b)%Q | QO a => (- evq a)%Q
  end.
Lemma ev_ok e : (this (evc e) == evq e)%Q.
Proof.
  induction e; cbn [evc evq];
    rewrite ?this_plus, ?this_minus, ?this_mult, ?this_opp, ?this_Q2Qc, ?IHe, ?IHe1, ?IHe2; reflexivity.
Qed.
Lemma ev_le a b : evc a <= evc b <-> (evq a <= evq b)%Q.
Proof. unfold Qcle. now rewrite !ev_ok. Qed.
Lemma ev_lt a b : evc a < evc b <-> (evq a < evq b)%Q.
Proof. unfold Qclt. now rewrite !ev_ok. Qed.
Lemma ev_eq a b : evc a = evc b <-> (evq a == evq b)%Q.
Proof.
  rewrite <- !ev_ok. split; [intros ->; reflexivity | apply Qc_is_canon].
Qed.

Ltac qreify t :=
  match t with
  | ?a + ?b => let x := qreify a in let y := qreify b in constr:(QA x y)
  | ?a - ?b => let x := qreify a in let y := qreify b in constr:(QS x y)
  | ?a * ?b => let x := qreify a in let y := qreify b in constr:(QM x y)
  | - ?a => let x := qreify a in constr:(QO x)
  | Q2Qc ?q => constr:(QK q)
  | zq ?z => constr:(QK (z # 1))
  | qq ?n ?d => constr:(QK (n # d))
  | _ => constr:(QV t)
  end.

Ltac qc_hyp_step :=
  match goal with
  | H : ?a <= ?b |- _ => let x := qreify a in let y := qreify b in
                         apply (proj1 (ev_le x y)) in H; cbn [evq] in H
  | H : ?a < ?b |- _ => let x := qreify a in let y := qreify b in
                        apply (proj1 (ev_lt x y)) in H; cbn [evq] in H
  | H : @eq Qc ?a ?b |- _ => let x := qreify a in let y := qreify b in
                             apply (proj1 (ev_eq x y)) in H; cbn [evq] in H
  | H : ~ (?a < ?b) |- _ => apply qc_nlt in H
  | H : ~ (?a <= ?b) |- _ => apply qc_nle in H
  end.

Ltac qc_goal_step :=
  match goal with
  | |- ?a <= ?b => let x := qreify a in let y := qreify b in
                   apply (proj2 (ev_le x y)); cbn [evq]
  | |- ?a < ?b => let x := qreify a in let y := qreify b in
                  apply (proj2 (ev_lt x y)); cbn [evq]
  | |- @eq Qc ?a ?b => let x := qreify a in let y := qreify b in
                       apply (proj2 (ev_eq x y)); cbn [evq]
  | |- ~ _ => intro
  end.

Ltac qc_prep := repeat qc_goal_step; repeat qc_hyp_step.

Ltac qlra := qc_prep; lra.
Ltac qnra := qc_prep; nra.

(** case split on a boolean comparison that occurs in the goal or a hypothesis *)
Ltac qcase1 :=
  match goal with
  | |- context [qltb ?a ?b] => destruct (qltb_spec a b)
  | |- context [qleb ?a ?b] => destruct (qleb_spec a b)
  | |- context [qeqb ?a ?b] => destruct (qeqb_spec a b)
  | H : context [qltb ?a ?b] |- _ => destruct (qltb_spec a b)
  | H : context [qleb ?a ?b] |- _ => destruct (qleb_spec a b)
  | H : context [qeqb ?a ?b] |- _ => destruct (qeqb_spec a b)
  end.


Definition qmax (a b : Qc) : Qc := if qleb a b then b else a.
Definition qmin (a b : Qc) : Qc := if qleb a b then a else b.
Definition qabs (a : Qc) : Qc := if qleb 0 a then a else - a.

Example qlra_test a b c : a < b -> b <= c + 1 -> a - c < 1.
Proof. intros. qlra. Qed.
Example qnra_test a b : 0 < a -> 0 < b -> 0 < a * b + a.
Proof. intros. qnra. Qed.
Global Arguments qltb : simpl never.
Global Arguments qleb : simpl never.
Global Arguments qeqb : simpl never.
Global Arguments Qcplus : simpl never.
Global Arguments Qcmult : simpl never.
Global Arguments Qcminus : simpl never.
Global Arguments Qcopp : simpl never.
Global Arguments Qcinv : simpl never.
Global Arguments Qcdiv : simpl never.

Example qlra_test2 a : a < zq 2 -> a + a < zq 4 + qq 1 2.
Proof. intros. qlra. Qed.
Lemma zq_neq0 z : z <> 0%Z -> zq z <> 0.
Proof.
  intros H E. apply qc_eq_this in E. unfold zq in E. rewrite this_Q2Qc in E. cbn in E.
  unfold Qeq in E. simpl in E. lia.
Qed.
Lemma qdiv_half x : x / zq 2 = qq 1 2 * x.
Proof. unfold Qcdiv. rewrite Qcmult_comm. reflexivity. Qed.
Lemma qabs_cases a : (0 <= a /\ qabs a = a) \/ (a < 0 /\ qabs a = - a).
Proof. unfold qabs. destruct (qleb_spec 0 a); [auto|right; split; auto; qlra]. Qed.
(** division facts that let [qlra]/[qnra] work with quotients *)
Lemma qdiv_mul a b : b <> 0 -> a / b * b = a.
Proof. intros. field. auto. Qed.
(** [injection] would go inside the record [Qc]; this does not *)
Lemma pair_inv {A B} (a c : A) (b d : B) : (a, b) = (c, d) -> a = c /\ b = d.
Proof. intros [= -> ->]. auto. Qed.
Lemma some_inv {A} (a b : A) : Some a = Some b -> a = b.
Proof. congruence. Qed.
