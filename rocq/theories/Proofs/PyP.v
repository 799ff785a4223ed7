(** Facts about the Python helpers of Base/Py.v. *)
From Verif.Base Require Export Py.
From Coq Require Export Permutation Sorting.Sorted.

Section SortBy.
  Context {A : Type} (ltb : A -> A -> bool).
  Let le a b := ltb b a = false.

  Lemma insert_by_perm x l : Permutation (insert_by ltb x l) (x :: l).
  Proof.
    induction l as [|y t IH]; simpl; auto.
    destruct (ltb x y); auto.
    rewrite IH. apply perm_swap.
  Qed.
  Lemma fold_insert_perm l acc :
    Permutation (fold_left (fun acc x => insert_by ltb x acc) l acc) (l ++ acc).
  Proof.
    revert acc. induction l as [|x t IH]; intros; simpl; auto.
    rewrite IH, insert_by_perm. symmetry. apply Permutation_middle.
  Qed.
  Lemma sort_by_perm l : Permutation (sort_by ltb l) l.
  Proof. unfold sort_by. rewrite fold_insert_perm, app_nil_r. reflexivity. Qed.

  Lemma sort_by_in x l : In x (sort_by ltb l) <-> In x l.
  Proof. split; apply Permutation_in; [| symmetry]; apply sort_by_perm. Qed.
  Lemma sort_by_Forall P l : Forall P (sort_by ltb l) <-> Forall P l.
  Proof. rewrite !Forall_forall. now setoid_rewrite sort_by_in. Qed.
  Lemma sort_by_length l : length (sort_by ltb l) = length l.
  Proof. apply Permutation_length, sort_by_perm. Qed.

  Hypothesis asym : forall a b, ltb a b = true -> ltb b a = false.
  Hypothesis letrans : forall a b c, le a b -> le b c -> le a c.

  Lemma insert_by_sorted x l : StronglySorted le l -> StronglySorted le (insert_by ltb x l).
  Proof.
    induction 1 as [|y t Hs IH Hf]; simpl.
    - repeat constructor.
    - destruct (ltb x y) eqn:E.
      + constructor; [constructor; auto|]. constructor.
        * apply asym; auto.
        * eapply Forall_impl; [|apply Hf]. intros z Hz. eapply letrans; [|apply Hz].
          apply asym; auto.
      + constructor; auto.
        eapply Permutation_Forall; [symmetry; apply insert_by_perm|]. constructor; auto.
  Qed.
  Lemma sort_by_sorted l : StronglySorted le (sort_by ltb l).
  Proof.
    unfold sort_by. assert (H : StronglySorted le []) by constructor. revert H.
    generalize (@nil A) as acc. induction l; simpl; auto using insert_by_sorted.
  Qed.
End SortBy.

Lemma insert_by_last {A} (ltb : A -> A -> bool) x l :
  Forall (fun y => ltb x y = false) l -> insert_by ltb x l = l ++ [x].
Proof. induction 1; simpl; auto. now rewrite H, IHForall. Qed.
Lemma sort_by_id {A} (ltb : A -> A -> bool) l :
  StronglySorted (fun a b => ltb b a = false) l -> sort_by ltb l = l.
Proof.
  intros Hs. unfold sort_by.
  enough (G : forall l acc, StronglySorted (fun a b => ltb b a = false) (acc ++ l) ->
      fold_left (fun acc x => insert_by ltb x acc) l acc = acc ++ l) by (apply (G l []), Hs).
  clear l Hs. induction l as [|x t IH]; intros acc H; simpl.
  - now rewrite app_nil_r.
  - rewrite insert_by_last.
    + rewrite IH; rewrite <- app_assoc; auto.
    + clear IH. induction acc as [|y acc IH]; constructor.
      * inversion H; subst. rewrite Forall_forall in H3. apply H3. rewrite in_app_iff. simpl; auto.
      * apply IH. inversion H; auto.
Qed.

Lemma mapM_ok {A B} (f : A -> result B) l l' :
  mapM f l = Ok l' <-> Forall2 (fun a b => f a = Ok b) l l'.
Proof.
  revert l'. induction l as [|a t IH]; intros; simpl.
  - split; intro H; inversion H; constructor.
  - split.
    + destruct (f a) eqn:E; simpl; [|discriminate].
      destruct (mapM f t) eqn:E2; simpl; [|discriminate].
      intros H; inversion H; subst. constructor; auto. now apply IH.
    + intros H; inversion H; subst. rewrite H2; simpl. apply IH in H4. rewrite H4. reflexivity.
Qed.
Lemma mapM_map {A B C} (f : B -> result C) (g : A -> B) l :
  mapM f (map g l) = mapM (fun x => f (g x)) l.
Proof. induction l; simpl; auto. now rewrite IHl. Qed.
Lemma mapM_total {A B} (f : A -> result B) (h : A -> B) l :
  (forall a, In a l -> f a = Ok (h a)) -> mapM f l = Ok (map h l).
Proof.
  induction l; simpl; intros; auto. rewrite H; auto; simpl. rewrite IHl; auto.
Qed.

Lemma bind_ok {A B} (r : result A) (f : A -> result B) b :
  bind r f = Ok b <-> exists a, r = Ok a /\ f a = Ok b.
Proof.
  destruct r; simpl; split; intros H.
  - eauto.
  - destruct H as (? & H1 & H2). now inversion H1; subst.
  - discriminate.
  - destruct H as (? & H1 & H2). discriminate.
Qed.
Lemma passert_ok b u : passert b = Ok u <-> b = true.
Proof. unfold passert; destruct b, u; split; congruence. Qed.
(** break a successful monadic computation into its steps *)
Ltac minv :=
  repeat match goal with
  | H : bind _ _ = Ok _ |- _ => apply bind_ok in H; let a := fresh "r" in let E := fresh "E" in
                                 destruct H as (a & E & H)
  | H : Ok _ = Ok _ |- _ => injection H as H; try subst
  | H : Err _ = Ok _ |- _ => discriminate H
  | H : passert _ = Ok _ |- _ => apply passert_ok in H
  end.

(** ** Permutations of concatenations, solved by moving blocks *)
Lemma psolve_take {A} (a l l' r : list A) : Permutation l (a ++ l') -> Permutation r l' -> Permutation (a ++ r) l.
Proof. intros H1 H2. rewrite H1, H2. reflexivity. Qed.
Lemma psolve_here {A} (a l : list A) : Permutation (a ++ l) (a ++ l).
Proof. reflexivity. Qed.
Lemma psolve_skip {A} (a b l l' : list A) : Permutation l (a ++ l') -> Permutation (b ++ l) (a ++ (b ++ l')).
Proof. intros H. rewrite H, !app_assoc. apply Permutation_app_tail, Permutation_app_comm. Qed.
Lemma psolve_cons {A} (x : A) l : x :: l = [x] ++ l.
Proof. reflexivity. Qed.
Ltac psolve_norm :=
  rewrite ?app_nil_r; repeat match goal with
  | |- context [?x :: ?l] => match l with nil => fail 1 | _ => rewrite (psolve_cons x l) end
  end; rewrite <- ?app_assoc.
Ltac psolve_find := first [ apply psolve_here | apply psolve_skip; psolve_find ].
(** both sides get a trailing [++ []] so that the last block is found as well *)
Lemma psolve_init {A} (l r : list A) : Permutation (l ++ []) (r ++ []) -> Permutation l r.
Proof. now rewrite !app_nil_r. Qed.
Ltac psolve :=
  psolve_norm; apply psolve_init; rewrite <- ?app_assoc;
  repeat (first [ apply Permutation_refl | eapply psolve_take; [psolve_find|] ]).
Example psolve_test {A} (a b c d : list A) (x : A) : Permutation (a ++ (x :: b) ++ c ++ d) ((d ++ a) ++ c ++ x :: b).
Proof. psolve. Qed.
