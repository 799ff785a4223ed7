(** * Cyclic edge lists, sums over edges. *)
From Verif.Model Require Import Primitive2d.
From Verif.Spec Require Import Plane.
From Coq Require Import Permutation.

Lemma pt_eqb_spec p q : reflect (p = q) (pt_eqb p q).
Proof.
  destruct p as [a b], q as [c d]. unfold pt_eqb; simpl.
  destruct (qeqb_spec a c), (qeqb_spec b d); simpl; constructor; congruence.
Qed.

(** consecutive pairs starting from [prev] *)
Fixpoint edges_from (prev : point) (l : list point) : list segment :=
  match l with [] => [] | v :: r => (prev, v) :: edges_from v r end.
Definition pedges (l : list point) : list segment :=
  match l with [] => [] | p0 :: _ => edges_from (last l p0) l end.

Lemma edges_from_app a l b r : edges_from a (l ++ b :: r) = edges_from a (l ++ [b]) ++ edges_from b r.
Proof. revert a. induction l; intros; simpl; [reflexivity|]. now rewrite IHl. Qed.
Lemma edges_from_snoc a l b : edges_from a (l ++ [b]) = edges_from a l ++ [(last l a, b)].
Proof.
  revert a. induction l as [|c l IH]; intros; simpl; [reflexivity|]. rewrite IH.
  destruct l; simpl; [reflexivity|]. do 3 f_equal. f_equal.
  clear. revert p. induction l; intros; simpl; [reflexivity|]. destruct l; auto.
Qed.
Lemma last_dep (l : list point) a b c : last (a :: l) b = last (a :: l) c.
Proof. revert a. induction l; intros; [reflexivity|]. change (last (a :: l) b = last (a :: l) c). apply IHl. Qed.

Lemma edges_iter_from p0 r : edges_iter (p0 :: r) = edges_from p0 (r ++ [p0]).
Proof.
  unfold edges_iter.
  enough (G : forall q, combine (p0 :: r) (r ++ [q]) = edges_from p0 (r ++ [q])) by apply G.
  intros q. revert p0. induction r as [|a r IH]; intros; simpl; [reflexivity|].
  f_equal. apply IH.
Qed.
Lemma last_cons (l : list point) a : last (a :: l) a = last l a.
Proof. destruct l; [reflexivity|]. simpl. apply (last_dep l p a a). Qed.
Lemma edges_iter_snoc p0 r : edges_iter (p0 :: r) = edges_from p0 r ++ [(last (p0 :: r) p0, p0)].
Proof. rewrite edges_iter_from, edges_from_snoc, last_cons. reflexivity. Qed.
Lemma pedges_cons p0 r : pedges (p0 :: r) = (last (p0 :: r) p0, p0) :: edges_from p0 r.
Proof. reflexivity. Qed.
Lemma pedges_perm l : Permutation (pedges l) (edges_iter l).
Proof.
  destruct l as [|p0 r]; [constructor|]. rewrite pedges_cons, edges_iter_snoc.
  apply Permutation_cons_append.
Qed.
Lemma edges_iter_rot1 a l : Permutation (edges_iter (a :: l)) (edges_iter (l ++ [a])).
Proof.
  destruct l as [|b l]; [apply Permutation_refl|].
  change ((b :: l) ++ [a]) with (b :: l ++ [a]). rewrite !edges_iter_from. simpl.
  rewrite (edges_from_snoc b (l ++ [a]) b). rewrite last_last. apply Permutation_cons_append.
Qed.
Lemma edges_iter_rot l1 l2 : Permutation (edges_iter (l1 ++ l2)) (edges_iter (l2 ++ l1)).
Proof.
  revert l2. induction l1 as [|a l1 IH]; intros; simpl app; [rewrite app_nil_r; apply Permutation_refl|].
  eapply perm_trans; [apply edges_iter_rot1|]. rewrite <- app_assoc. eapply perm_trans; [apply IH|].
  rewrite <- app_assoc. apply Permutation_refl.
Qed.
Definition sswap (s : segment) : segment := (snd s, fst s).
Lemma edges_from_rev a l b : edges_from b (rev l ++ [a]) = rev (map sswap (edges_from a (l ++ [b]))).
Proof.
  revert a b. induction l as [|c l IH]; intros; simpl; [reflexivity|].
  rewrite <- IH. rewrite (edges_from_snoc b (rev l ++ [c]) a), last_last. reflexivity.
Qed.
Lemma edges_iter_rev l : Permutation (edges_iter (rev l)) (map sswap (edges_iter l)).
Proof.
  destruct l as [|a l]; [constructor|].
  eapply perm_trans with (edges_iter (a :: rev l)).
  - simpl rev. apply Permutation_sym, edges_iter_rot1.
  - rewrite !edges_iter_from, edges_from_rev. apply Permutation_sym, Permutation_rev.
Qed.
Lemma edges_from_map (f : point -> point) a l :
  edges_from (f a) (map f l) = map (fun s => (f (fst s), f (snd s))) (edges_from a l).
Proof. revert a. induction l; intros; simpl; [reflexivity|]. now rewrite IHl. Qed.
Lemma edges_iter_map (f : point -> point) l :
  edges_iter (map f l) = map (fun s => (f (fst s), f (snd s))) (edges_iter l).
Proof.
  destruct l as [|a l]; [reflexivity|]. change (map f (a :: l)) with (f a :: map f l). rewrite !edges_iter_from.
  etransitivity; [|apply (edges_from_map f)]. now rewrite map_app.
Qed.
Lemma edges_iter_length l : length (edges_iter l) = length l.
Proof.
  destruct l as [|a l]; [reflexivity|]. change (edges_iter (a :: l)) with (combine (a :: l) (l ++ [a])). etransitivity; [apply combine_length|]. rewrite app_length, Nat.add_1_r. simpl. lia.
Qed.

Lemma nth_error_combine {A B} (l : list A) (m : list B) i x y :
  nth_error (combine l m) i = Some (x, y) <-> nth_error l i = Some x /\ nth_error m i = Some y.
Proof.
  revert m i. induction l as [|a l IH]; intros; simpl.
  - destruct i; simpl; split; intros; try discriminate; destruct H; discriminate.
  - destruct m; simpl.
    + destruct i; simpl; split; intros; try discriminate; destruct H; discriminate.
    + destruct i; simpl; [|apply IH]. split; [intros [= -> ->]; auto|intros [[= ->] [= ->]]; auto].
Qed.
Lemma is_edge_iter l s : is_edge l s <-> In s (edges_iter l).
Proof.
  destruct l as [|a l].
  - split; [intros (i & Hi & _); simpl in Hi; lia | intros []].
  - change (edges_iter (a :: l)) with (combine (a :: l) (l ++ [a])). split.
    + intros (i & Hi & H1 & H2). apply nth_error_In with i. destruct s as [x y].
      apply nth_error_combine. split; [exact H1|]. simpl in H2.
      destruct (i =? length l)%nat eqn:E.
      * apply Nat.eqb_eq in E. rewrite nth_error_app2 by lia. replace (i - length l)%nat with 0%nat by lia. exact H2.
      * apply Nat.eqb_neq in E. simpl in Hi. rewrite nth_error_app1 by lia. exact H2.
    + intros H. apply In_nth_error in H as [i Hi]. destruct s as [x y].
      apply nth_error_combine in Hi as [H1 H2]. assert (L : (i < length (a :: l))%nat).
      { apply nth_error_Some. congruence. }
      exists i. split; [exact L|]. split; [exact H1|]. simpl. destruct (i =? length l)%nat eqn:E.
      * apply Nat.eqb_eq in E. rewrite nth_error_app2 in H2 by lia.
        replace (i - length l)%nat with 0%nat in H2 by lia. exact H2.
      * apply Nat.eqb_neq in E. simpl in L. rewrite nth_error_app1 in H2 by lia. exact H2.
Qed.
Lemma is_edge_pedges l s : is_edge l s <-> In s (pedges l).
Proof.
  rewrite is_edge_iter. split; intros; eapply Permutation_in; try eassumption;
    [apply Permutation_sym|]; apply pedges_perm.
Qed.
Lemma edges_from_in_snd a l s : In s (edges_from a l) -> In (snd s) l.
Proof. revert a. induction l; simpl; intros; [tauto|]. destruct H as [<-|H]; simpl; eauto. Qed.
Lemma edges_from_in_fst a l s : In s (edges_from a l) -> fst s = a \/ In (fst s) l.
Proof.
  revert a. induction l; simpl; intros; [tauto|]. destruct H as [<-|H]; simpl; auto.
  apply IHl in H as [->|]; auto.
Qed.
Lemma in_last (l : list point) a d : In (last (a :: l) d) (a :: l).
Proof.
  revert a. induction l as [|b l IH]; intros; [left; reflexivity|]. right. apply IH.
Qed.
Lemma pedges_in l s : In s (pedges l) -> In (fst s) l /\ In (snd s) l.
Proof.
  destruct l as [|a l]; [intros []|]. unfold pedges. intros H. split.
  - apply edges_from_in_fst in H as [->|]; auto. apply in_last.
  - eapply edges_from_in_snd; eauto.
Qed.
Lemma edges_from_to a l v : In v l -> exists u, In (u, v) (edges_from a l).
Proof.
  revert a. induction l as [|b l IH]; simpl; intros a []; [subst; eauto|].
  destruct (IH b H) as (u & Hu). eauto.
Qed.
Lemma pedges_to l v : In v l -> exists u, In (u, v) (pedges l).
Proof. destruct l; [intros []|]. intros. now apply edges_from_to. Qed.
Lemma pedges_of l v : In v l -> exists u, In (v, u) (pedges l).
Proof.
  intros H. apply in_rev in H. destruct (pedges_to (rev l) v H) as (u & Hu). exists u.
  apply (Permutation_in _ (pedges_perm (rev l))) in Hu.
  apply (Permutation_in _ (edges_iter_rev l)) in Hu. apply in_map_iff in Hu as ([x y] & [= <- <-] & Hx).
  apply (Permutation_in _ (Permutation_sym (pedges_perm l))). exact Hx.
Qed.

(** ** Sums *)
Lemma qsum_perm {A} (f : A -> Qc) l l' : Permutation l l' -> qsum f l = qsum f l'.
Proof. induction 1; simpl; auto; try congruence. ring. Qed.
Lemma zsum_perm {A} (f : A -> Z) l l' : Permutation l l' -> zsum f l = zsum f l'.
Proof. induction 1; simpl; auto; try congruence; lia. Qed.
Lemma qsum_app {A} (f : A -> Qc) l l' : qsum f (l ++ l') = qsum f l + qsum f l'.
Proof. induction l; simpl; [ring|]. rewrite IHl. ring. Qed.
Lemma zsum_app {A} (f : A -> Z) l l' : zsum f (l ++ l') = (zsum f l + zsum f l')%Z.
Proof. induction l; simpl; [lia|]. rewrite IHl. lia. Qed.
Lemma qsum_map {A B} (f : B -> Qc) (g : A -> B) l : qsum f (map g l) = qsum (fun x => f (g x)) l.
Proof. induction l; simpl; congruence. Qed.
Lemma zsum_map {A B} (f : B -> Z) (g : A -> B) l : zsum f (map g l) = zsum (fun x => f (g x)) l.
Proof. induction l; simpl; congruence. Qed.
Lemma qsum_ext {A} (f g : A -> Qc) l : (forall x, In x l -> f x = g x) -> qsum f l = qsum g l.
Proof. induction l; simpl; intros; [reflexivity|]. rewrite IHl, H; auto. Qed.
Lemma zsum_ext {A} (f g : A -> Z) l : (forall x, In x l -> f x = g x) -> zsum f l = zsum g l.
Proof. induction l; simpl; intros; [reflexivity|]. rewrite IHl, H; auto. Qed.
Lemma qsum_plus {A} (f g : A -> Qc) l : qsum (fun x => f x + g x) l = qsum f l + qsum g l.
Proof. induction l; simpl; [ring|]. rewrite IHl. ring. Qed.
Lemma zsum_plus {A} (f g : A -> Z) l : zsum (fun x => (f x + g x)%Z) l = (zsum f l + zsum g l)%Z.
Proof. induction l; simpl; [lia|]. rewrite IHl. lia. Qed.
Lemma qsum_scale {A} c (f : A -> Qc) l : qsum (fun x => c * f x) l = c * qsum f l.
Proof. induction l; simpl; [ring|]. rewrite IHl. ring. Qed.
Lemma zsum_scale {A} c (f : A -> Z) l : zsum (fun x => (c * f x)%Z) l = (c * zsum f l)%Z.
Proof. induction l; simpl; [lia|]. rewrite IHl. lia. Qed.
Lemma qsum_nonneg {A} (f : A -> Qc) l : (forall x, In x l -> 0 <= f x) -> 0 <= qsum f l.
Proof. induction l; simpl; intros; [qlra|]. assert (0 <= f a) by auto. assert (0 <= qsum f l) by auto. qlra. Qed.
Lemma qsum_pos {A} (f : A -> Qc) l : (forall x, In x l -> 0 <= f x) -> (exists x, In x l /\ 0 < f x) -> 0 < qsum f l.
Proof.
  induction l; simpl; intros H (x & Hx & P); [tauto|].
  assert (0 <= f a) by auto. destruct Hx as [->|Hx].
  - assert (0 <= qsum f l) by (apply qsum_nonneg; auto). qlra.
  - assert (0 < qsum f l) by (apply IHl; eauto). qlra.
Qed.
Lemma zsum_nonneg {A} (f : A -> Z) l : (forall x, In x l -> (0 <= f x)%Z) -> (0 <= zsum f l)%Z.
Proof. induction l; simpl; intros; [lia|]. assert (0 <= f a)%Z by auto. assert (0 <= zsum f l)%Z by auto. lia. Qed.
Lemma zsum_pos {A} (f : A -> Z) l : (forall x, In x l -> (0 <= f x)%Z) -> (exists x, In x l /\ (0 < f x)%Z) -> (0 < zsum f l)%Z.
Proof.
  induction l; simpl; intros H (x & Hx & P); [tauto|].
  assert (0 <= f a)%Z by auto. destruct Hx as [->|Hx].
  - assert (0 <= zsum f l)%Z by (apply zsum_nonneg; auto). lia.
  - assert (0 < zsum f l)%Z by (apply IHl; eauto). lia.
Qed.
(** telescoping around a closed polygon *)
Lemma edges_from_tele_q (f : point -> Qc) a l : qsum (fun s => f (snd s) - f (fst s)) (edges_from a l) = f (last l a) - f a.
Proof.
  revert a. induction l as [|b l IH]; intros; cbn [edges_from qsum]; [cbn; ring|]. rewrite IH.
  rewrite (last_dep l b a b), last_cons. cbn [fst snd]. ring.
Qed.
Lemma edges_from_tele_z (f : point -> Z) a l : zsum (fun s => (f (snd s) - f (fst s))%Z) (edges_from a l) = (f (last l a) - f a)%Z.
Proof.
  revert a. induction l as [|b l IH]; intros; cbn [edges_from zsum]; [cbn; lia|]. rewrite IH.
  rewrite (last_dep l b a b), last_cons. cbn [fst snd]. lia.
Qed.
Lemma pedges_tele_q (f : point -> Qc) l : qsum (fun s => f (snd s) - f (fst s)) (pedges l) = 0.
Proof.
  destruct l as [|a l]; [reflexivity|]. rewrite pedges_cons. cbn [qsum]. rewrite edges_from_tele_q.
  cbn [fst snd]. rewrite last_cons. ring.
Qed.
Lemma pedges_tele_z (f : point -> Z) l : zsum (fun s => (f (snd s) - f (fst s))%Z) (pedges l) = 0%Z.
Proof.
  destruct l as [|a l]; [reflexivity|]. rewrite pedges_cons. cbn [zsum]. rewrite edges_from_tele_z.
  cbn [fst snd]. rewrite last_cons. lia.
Qed.
