(** Order facts on extended rationals. *)
From Verif.Model Require Export Geom1d.
From Verif.Spec Require Export PointSet1.

Lemma eltb_spec a b : reflect (elt a b) (eltb a b).
Proof. destruct a, b; simpl; try (constructor; tauto). apply qltb_spec. Qed.
Lemma eleb_spec a b : reflect (ele a b) (eleb a b).
Proof. destruct a, b; simpl; try (constructor; tauto). apply qleb_spec. Qed.
Lemma eeqb_spec a b : reflect (a = b) (eeqb a b).
Proof.
  destruct a, b; simpl; try (constructor; congruence).
  destruct (qeqb_spec q q0); constructor; congruence.
Qed.
Lemma eltb_lt a b : eltb a b = true <-> elt a b.
Proof. destruct (eltb_spec a b); split; congruence || tauto. Qed.
Lemma eleb_le a b : eleb a b = true <-> ele a b.
Proof. destruct (eleb_spec a b); split; congruence || tauto. Qed.
Lemma eeqb_eq a b : eeqb a b = true <-> a = b.
Proof. destruct (eeqb_spec a b); split; congruence. Qed.

Lemma ele_refl a : ele a a.
Proof. destruct a; simpl; auto. apply Qcle_refl. Qed.
Lemma elt_irrefl a : ~ elt a a.
Proof. destruct a; simpl; auto. qlra. Qed.
Lemma elt_trans a b c : elt a b -> elt b c -> elt a c.
Proof. destruct a, b, c; simpl; try tauto. intros; qlra. Qed.
Lemma ele_trans a b c : ele a b -> ele b c -> ele a c.
Proof. destruct a, b, c; simpl; try tauto. intros; qlra. Qed.
Lemma elt_le_trans a b c : elt a b -> ele b c -> elt a c.
Proof. destruct a, b, c; simpl; try tauto. intros; qlra. Qed.
Lemma ele_lt_trans a b c : ele a b -> elt b c -> elt a c.
Proof. destruct a, b, c; simpl; try tauto. intros; qlra. Qed.
Lemma elt_le a b : elt a b -> ele a b.
Proof. destruct a, b; simpl; try tauto. intros; qlra. Qed.
Lemma enlt a b : ~ elt a b <-> ele b a.
Proof. destruct a, b; simpl; try tauto. split; intros; qlra. Qed.
Lemma enle a b : ~ ele a b <-> elt b a.
Proof. destruct a, b; simpl; try tauto. split; intros; qlra. Qed.
Lemma ele_antisym a b : ele a b -> ele b a -> a = b.
Proof. destruct a, b; simpl; try tauto; auto. intros. f_equal. qlra. Qed.
Lemma ele_cases a b : ele a b -> elt a b \/ a = b.
Proof. intros. destruct (eltb_spec a b); auto. right. apply ele_antisym; auto. now apply enlt. Qed.
Lemma elt_or_le a b : elt a b \/ ele b a.
Proof. destruct (eltb_spec a b); auto. right. now apply enlt. Qed.
Lemma ele_NInf a : ele NInf a.
Proof. exact I. Qed.
Lemma ele_PInf a : ele a PInf.
Proof. destruct a; exact I. Qed.

(** A solver for chains of order facts: saturation by contradiction. *)
Ltac eneg :=
  repeat match goal with
  | H : ~ elt _ _ |- _ => apply enlt in H
  | H : ~ ele _ _ |- _ => apply enle in H
  end.
Ltac eord_step :=
  match goal with
  | H : elt ?a ?a |- _ => exfalso; exact (elt_irrefl a H)
  | H1 : elt ?a ?b, H2 : elt ?b ?c |- _ =>
      lazymatch goal with _ : elt a c |- _ => fail | _ => pose proof (elt_trans a b c H1 H2) end
  | H1 : elt ?a ?b, H2 : ele ?b ?c |- _ =>
      lazymatch goal with _ : elt a c |- _ => fail | _ => pose proof (elt_le_trans a b c H1 H2) end
  | H1 : ele ?a ?b, H2 : elt ?b ?c |- _ =>
      lazymatch goal with _ : elt a c |- _ => fail | _ => pose proof (ele_lt_trans a b c H1 H2) end
  | H1 : ele ?a ?b, H2 : ele ?b ?c |- _ =>
      lazymatch goal with _ : ele a c |- _ => fail | _ => pose proof (ele_trans a b c H1 H2) end
  end.
Ltac eord0 :=
  match goal with
  | |- elt ?a ?b => destruct (elt_or_le a b) as [?|?]; [assumption | exfalso]
  | |- ele ?a ?b => destruct (elt_or_le b a) as [?|?]; [exfalso | assumption]
  | |- ?a = ?b => apply ele_antisym; eord0
  | |- ~ _ => intro; eord0
  | |- False => idtac
  | _ => exfalso
  end; eneg; repeat eord_step.

Ltac eord := solve [eord0].

Ltac ecase1 :=
  match goal with
  | |- context [eltb ?a ?b] => destruct (eltb_spec a b)
  | |- context [eleb ?a ?b] => destruct (eleb_spec a b)
  | |- context [eeqb ?a ?b] => destruct (eeqb_spec a b)
  | H : context [eltb ?a ?b] |- _ => destruct (eltb_spec a b)
  | H : context [eleb ?a ?b] |- _ => destruct (eleb_spec a b)
  | H : context [eeqb ?a ?b] |- _ => destruct (eeqb_spec a b)
  end; eneg.

(** Every non-empty closed-open interval contains a rational; also with an upper limit. *)
Lemma edense a b : elt a b -> exists x, ele a (Fin x) /\ elt (Fin x) b.
Proof.
  destruct a, b; simpl; try tauto; intros.
  - exists (q - 1). split; auto. qlra.
  - exists 0. auto.
  - exists q. split; [qlra|auto].
  - exists q. split; [qlra|auto].
Qed.
Definition emin a b := if eleb a b then a else b.
Definition emax a b := if eleb a b then b else a.
Lemma emin_lt x a b : elt x (emin a b) <-> elt x a /\ elt x b.
Proof. unfold emin. ecase1; split; try tauto; intros; split; try tauto; eord. Qed.
Lemma edense2 a b c : elt a b -> elt a c -> exists x, ele a (Fin x) /\ elt (Fin x) b /\ elt (Fin x) c.
Proof.
  intros. destruct (edense a (emin b c)) as (x & ? & ?).
  - apply emin_lt; auto.
  - apply emin_lt in H2. exists x; tauto.
Qed.
#[export] Hint Resolve ele_NInf ele_PInf ele_refl : core.
Global Arguments elt : simpl never.
Global Arguments ele : simpl never.
Global Arguments eltb : simpl never.
Global Arguments eleb : simpl never.
Global Arguments eeqb : simpl never.
