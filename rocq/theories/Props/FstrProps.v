(** * C66: the string form of exact objects is unambiguous. *)
From Verif.Model Require Import Fstr.
From Verif.Proofs Require Import PyP DictP SheetplexP.
From Coq Require Import String Ascii DecimalString DecimalZ.

(** ** Numbers *)
Definition numeric (c : ascii) : Prop := In c (chars "0123456789-/").
Definition digitlike (c : ascii) : Prop := In c (chars "0123456789-").
Lemma uint_digits u c : In c (chars (NilEmpty.string_of_uint u)) -> digitlike c.
Proof. unfold digitlike. induction u; cbn; [tauto|..]; intros [<-|H]; first [exact (IHu H) | auto 20]. Qed.
Lemma zstr_digits z c : In c (chars (zstr z)) -> digitlike c.
Proof.
  unfold zstr. destruct (Z.to_int z) as [u|u]; cbn; [apply uint_digits|]. intros [<-|H]; [cbn; auto 20|]. now apply uint_digits in H.
Qed.
Lemma zstr_inj a b : zstr a = zstr b -> a = b.
Proof.
  unfold zstr. intros H. apply (f_equal NilEmpty.int_of_string) in H.
  assert (N : forall z, Z.to_int z <> Decimal.Pos Decimal.Nil). { intros z E. pose proof (DecimalZ.of_to z) as Z0. rewrite E in Z0. cbn in Z0. subst z. discriminate E. }
  rewrite !NilEmpty.isi in H by apply N. injection H as H. now apply DecimalZ.to_int_inj.
Qed.
Lemma digit_not_slash c : digitlike c -> c <> "/"%char.
Proof. unfold digitlike. cbn. intuition congruence. Qed.
Lemma frac_numeric q c : In c (chars (frac_str q)) -> numeric c.
Proof.
  assert (D : forall c, digitlike c -> numeric c). { unfold digitlike, numeric. cbn. tauto. }
  unfold frac_str. destruct (_ =? 1)%positive; [intros H; now apply zstr_digits, D in H|]. rewrite !chars_app, !in_app_iff. intros [H|[H|H]]; [apply zstr_digits, D in H; auto|cbn in H; destruct H as [<-|[]]; unfold numeric; cbn; tauto|apply zstr_digits, D in H; auto].
Qed.
Theorem frac_str_inj : forall p q, frac_str p = frac_str q -> p = q.
Proof.
  assert (NS : forall z, ~ In "/"%char (chars (zstr z))). { intros z H. now apply zstr_digits, digit_not_slash in H. }
  assert (QE : forall p q : Qc, Qnum (this p) = Qnum (this q) -> Qden (this p) = Qden (this q) -> p = q).
  { intros p q H1 H2. apply Qc_is_canon. destruct (this p), (this q). cbn in *. subst. reflexivity. }
  intros p q H. apply (f_equal chars) in H. unfold frac_str in H.
  destruct (Qden (this p) =? 1)%positive eqn:E1, (Qden (this q) =? 1)%positive eqn:E2; rewrite ?chars_app in H; cbn [chars list_ascii_of_string app] in H.
  - apply Pos.eqb_eq in E1, E2. apply QE; [|congruence]. now apply zstr_inj, chars_inj.
  - exfalso. apply (NS (Qnum (this p))). unfold chars in H |- *. rewrite H. apply in_app_iff. right. now left.
  - exfalso. apply (NS (Qnum (this q))). unfold chars in H |- *. rewrite <- H. apply in_app_iff. right. now left.
  - apply (split_unique "/"%char) in H as (H1 & H2); try apply NS. apply QE; [now apply zstr_inj, chars_inj|].
    apply chars_inj, zstr_inj in H2. now injection H2.
Qed.
Print Assumptions frac_str_inj.

(** ** Nested objects *)
Definition closer (c : ascii) : Prop := In c (chars ")]}").
(** what can follow an object *)
Definition delim (s : list ascii) : Prop := match s with [] => True | c :: _ => In c (chars ",)]}:") end.
Lemma num_prefix l : forall l' s s', (forall c, In c l -> numeric c) -> (forall c, In c l' -> numeric c) -> delim s -> delim s' -> l ++ s = l' ++ s' -> l = l' /\ s = s'.
Proof.
  assert (K : forall c, numeric c -> In c (chars ",)]}:") -> False). { unfold numeric. cbn. intros c. intuition congruence. }
  induction l as [|c l IH]; intros [|c' l'] s s' N N' D D' E; cbn [app] in E; auto.
  - exfalso. subst s. cbn in D. apply (K c'); auto. apply N'. now left.
  - exfalso. subst s'. cbn in D'. apply (K c); auto. apply N. now left.
  - injection E as <- E. destruct (IH l' s s') as (-> & ->); auto. + intros; apply N; now right. + intros; apply N'; now right.
Qed.

Fixpoint osize (o : pyobj) : nat :=
  S match o with
    | OFrac _ => O
    | OTuple l | OList l | OSet l => list_sum (map osize l)
    | ODict l => list_sum (map (fun e => osize (fst e) + osize (snd e))%nat l)
    end.
(** no empty set inside: it prints like an empty dict *)
Fixpoint no_empty_set (o : pyobj) : Prop :=
  match o with
  | OFrac _ => True
  | OTuple l | OList l => fold_right and True (map no_empty_set l)
  | OSet l => l <> [] /\ fold_right and True (map no_empty_set l)
  | ODict l => fold_right and True (map (fun e => no_empty_set (fst e) /\ no_empty_set (snd e)) l)
  end.
Lemma fold_and {X} (P : X -> Prop) l : fold_right and True (map P l) <-> forall x, In x l -> P x.
Proof. induction l as [|x l IH]; cbn; [tauto|]. rewrite IH. split; [intros (A & B) y [<-|H]; auto|]. auto. Qed.
Lemma size_in {X} (f : X -> nat) l x : In x l -> (f x <= list_sum (map f l))%nat.
Proof. unfold list_sum. induction l as [|y l IH]; cbn; [tauto|]. intros [->|H]; [lia|]. apply IH in H. lia. Qed.

(** the first character of an object closes nothing *)
Lemma first_char o : exists c r, chars (recurse o) = c :: r /\ ~ closer c /\ (numeric c \/ In c (chars "([{")).
Proof.
  assert (K : forall c, numeric c -> ~ closer c). { unfold numeric, closer. cbn. intros c. intuition congruence. }
  destruct o as [q|l|l|l|l]; try (eexists; eexists; split; [cbn [recurse String.append chars list_ascii_of_string]; reflexivity|]; split; [unfold closer; cbn; intuition congruence|right; cbn; tauto]).
  cbn [recurse]. assert (Z : forall z, chars (zstr z) <> []).
  { intros z E. assert (X : zstr z = EmptyString) by now apply chars_inj. unfold zstr in X. destruct (Z.to_int z) as [u|u] eqn:U; cbn in X; [|discriminate].
    assert (u = Decimal.Nil) by (destruct u; [reflexivity|discriminate..]). subst u. pose proof (DecimalZ.of_to z) as Z0. rewrite U in Z0. cbn in Z0. subst z. discriminate U. }
  destruct (chars (frac_str q)) as [|c r] eqn:E.
  - exfalso. unfold frac_str in E. destruct (_ =? 1)%positive; [exact (Z _ E)|]. rewrite chars_app in E. apply app_eq_nil in E as (E & _). exact (Z _ E).
  - exists c, r. assert (N : numeric c) by (apply (frac_numeric q); rewrite E; now left). split; auto.
Qed.

Section Lists.
Variable X : Type.
Variable str : X -> string.
(** an element can be told from what follows *)
Definition tells (x x' : X) : Prop := forall s s', delim s -> delim s' -> chars (str x) ++ s = chars (str x') ++ s' -> x = x' /\ s = s'.
Hypothesis NC : forall x, exists c r, chars (str x) = c :: r /\ ~ closer c.
Lemma concat_cons sep x l : String.concat sep (str x :: map str l) = (str x ++ match l with [] => EmptyString | _ => sep ++ String.concat sep (map str l) end)%string.
Proof. destruct l; cbn [map String.concat]; [|reflexivity]. now induction (str x) as [|c s IH]; cbn; [|rewrite <- IH]. Qed.
Lemma list_tells (sep : string) (SEP : exists r, sep = String ","%char r) l : forall l' c c' s s', (forall x x', In x l -> In x' l' -> tells x x') -> closer c -> closer c' ->
  chars (String.concat sep (map str l)) ++ c :: s = chars (String.concat sep (map str l')) ++ c' :: s' -> l = l' /\ c = c' /\ s = s'.
Proof.
  destruct SEP as (sr & ->). assert (CD : forall c s, closer c -> delim (c :: s)). { unfold closer, delim. cbn. intros c s. intuition. }
  assert (CC : forall c, closer c -> c <> ","%char). { unfold closer. cbn. intros c. intuition congruence. }
  induction l as [|x l IH]; intros [|x' l'] c c' s s' T C C' E.
  - cbn in E. injection E as <- <-. auto.
  - exfalso. destruct (NC x') as (d & r & D & N). cbn [map] in E. rewrite concat_cons, chars_app, D in E. cbn in E. injection E as <- _. exact (N C).
  - exfalso. destruct (NC x) as (d & r & D & N). cbn [map] in E. rewrite concat_cons, chars_app, D in E. cbn in E. injection E as -> _. exact (N C').
  - cbn [map] in E. rewrite !concat_cons, !chars_app, <- !app_assoc in E. apply (T x x') in E as (<- & E); [|now left|now left| |].
    + destruct l as [|y l], l' as [|y' l']; cbn [chars list_ascii_of_string app String.append] in E.
      * injection E as <- <-. auto.
      * exfalso. injection E as -> _. now apply (CC ","%char).
      * exfalso. injection E as <- _. now apply (CC ","%char).
      * injection E as E. fold chars in E. change list_ascii_of_string with chars in E. rewrite !chars_app, <- !app_assoc in E. apply app_inv_head in E.
        destruct (IH (y' :: l') c c' s s') as (-> & H); auto. intros a a' A A'. apply T; now right.
    + destruct l; cbn [chars list_ascii_of_string app String.append]; [now apply CD|cbn; auto].
    + destruct l'; cbn [chars list_ascii_of_string app String.append]; [now apply CD|cbn; auto].
Qed.
(** the same for the whole list at the end of the text *)
Lemma list_tells_end (sep : string) (SEP : exists r, sep = String ","%char r) l : forall l', (forall x x', In x l -> In x' l' -> tells x x') ->
  String.concat sep (map str l) = String.concat sep (map str l') -> l = l'.
Proof.
  intros l' T E. assert (C : closer ")"%char) by (unfold closer; cbn; auto). apply (list_tells sep SEP l l' _ _ [] [] T C C). now rewrite E.
Qed.
End Lists.

Lemma recurse_tells n : forall o o', (osize o <= n)%nat -> no_empty_set o -> no_empty_set o' -> tells pyobj recurse o o'.
Proof.
  assert (NC : forall o, exists c r, chars (recurse o) = c :: r /\ ~ closer c). { intros o. destruct (first_char o) as (c & r & H1 & H2 & _). eauto. }
  assert (SEP : exists r, ", "%string = String ","%char r) by eauto.
  induction n as [|n IH]; intros o o' L NE NE' s s' D D' E; [destruct o; cbn in L; lia|].
  assert (B : forall l l' c c', (list_sum (map osize l) <= n)%nat -> (forall x, In x l -> no_empty_set x) -> (forall x, In x l' -> no_empty_set x) -> closer c -> closer c' ->
    chars (String.concat ", " (map recurse l)) ++ c :: s = chars (String.concat ", " (map recurse l')) ++ c' :: s' -> l = l' /\ c = c' /\ s = s').
  { intros l l' c c' L' N1 N2 C C' E'. apply (list_tells pyobj recurse NC ", " SEP l l' c c' s s'); auto. intros x x' I I'. apply IH; auto. apply (size_in osize) in I. lia. }
  assert (NB : forall c, numeric c -> ~ In c (chars "([{")). { unfold numeric. cbn. intros c. intuition congruence. }
  assert (FO : forall q t c r, chars (frac_str q) ++ t = c :: r -> In c (chars "([{") -> False).
  { intros q t c r E' I. destruct (first_char (OFrac q)) as (c' & r' & H1 & _ & _). cbn [recurse] in H1. rewrite H1 in E'. cbn [app] in E'. injection E' as -> _.
    apply (NB c); auto. apply (frac_numeric q). rewrite H1. now left. }
  destruct o as [q|l|l|l|l], o' as [q'|l'|l'|l'|l'];
    try (exfalso; cbn [recurse String.append] in E; cbn [chars list_ascii_of_string app] in E; solve [apply FO in E; [exact E|cbn; tauto] | symmetry in E; apply FO in E; [exact E|cbn; tauto] | discriminate E]).
  - cbn [recurse] in E. destruct (num_prefix _ _ _ _ (frac_numeric q) (frac_numeric q') D D' E) as (X & ->). apply chars_inj, frac_str_inj in X as ->. auto.
  - cbn in L, NE, NE'. rewrite fold_and in NE, NE'. cbn [recurse] in E. rewrite !chars_app, <- !app_assoc in E. cbn in E. injection E as E. apply B in E as (-> & _ & ->); auto; try lia; unfold closer; cbn; auto.
  - cbn in L, NE, NE'. rewrite fold_and in NE, NE'. cbn [recurse] in E. rewrite !chars_app, <- !app_assoc in E. cbn in E. injection E as E. apply B in E as (-> & _ & ->); auto; try lia; unfold closer; cbn; auto.
  - cbn in L, NE, NE'. rewrite fold_and in NE, NE'. destruct NE as (_ & NE), NE' as (_ & NE'). cbn [recurse] in E. rewrite !chars_app, <- !app_assoc in E. cbn in E. injection E as E. apply B in E as (-> & _ & ->); auto; try lia; unfold closer; cbn; auto.
  - (* set and dict *) exfalso. cbn in L, NE. rewrite fold_and in NE. destruct NE as (NN & NE). destruct l as [|x l]; [congruence|]. cbn [recurse] in E. rewrite !chars_app, <- !app_assoc in E. change (chars "{") with ["{"%char] in E. cbn [app] in E. apply (f_equal (@tl ascii)) in E. cbn [tl] in E. destruct l' as [|(k & v) l'].
    + destruct (NC x) as (c & r & H1 & H2). cbn [map] in E. change list_ascii_of_string with chars in E. rewrite (concat_cons pyobj recurse), chars_app, H1 in E. cbn in E. injection E as -> _. apply H2. unfold closer. cbn. auto.
    + cbn [map] in E. change list_ascii_of_string with chars in E. cbn [fst snd] in E.
      pose proof (concat_cons (pyobj * pyobj) (fun e => recurse (fst e) ++ ": " ++ recurse (snd e))%string ", " (k, v) l') as CC. cbn [fst snd] in CC.
      rewrite (concat_cons pyobj recurse), CC in E. clear CC. rewrite !chars_app, <- !app_assoc in E. cbn in NE'. destruct NE' as ((K1 & _) & _). cbn in L.
      apply (IH x k) in E as (_ & E); auto; [| lia | apply NE; now left | | cbn; auto 10].
      * destruct l; cbn in E; discriminate E.
      * destruct l; cbn; auto 10.
  - exfalso. cbn in L, NE'. rewrite fold_and in NE'. destruct NE' as (NN & NE'). destruct l' as [|x l']; [congruence|]. cbn [recurse] in E. rewrite !chars_app, <- !app_assoc in E. change (chars "{") with ["{"%char] in E. cbn [app] in E. apply (f_equal (@tl ascii)) in E. cbn [tl] in E. destruct l as [|(k & v) l].
    + destruct (NC x) as (c & r & H1 & H2). cbn [map] in E. change list_ascii_of_string with chars in E. rewrite (concat_cons pyobj recurse), chars_app, H1 in E. cbn in E. injection E as <- _. apply H2. unfold closer. cbn. auto.
    + cbn [map] in E. change list_ascii_of_string with chars in E. cbn [fst snd] in E.
      pose proof (concat_cons (pyobj * pyobj) (fun e => recurse (fst e) ++ ": " ++ recurse (snd e))%string ", " (k, v) l) as CC. cbn [fst snd] in CC.
      rewrite (concat_cons pyobj recurse), CC in E. clear CC. rewrite !chars_app, <- !app_assoc in E. cbn in NE. destruct NE as ((K1 & _) & _). cbn in L.
      apply (IH k x) in E as (_ & E); auto; [| lia | apply NE'; now left | cbn; auto 10 |].
      * destruct l'; cbn in E; discriminate E.
      * destruct l'; cbn; auto 10.
  - cbn in L, NE, NE'. rewrite fold_and in NE, NE'. cbn [recurse] in E. rewrite !chars_app, <- !app_assoc in E. change (chars "{") with ["{"%char] in E. cbn [app] in E. apply (f_equal (@tl ascii)) in E. cbn [tl] in E.
    apply (list_tells (pyobj * pyobj) (fun e => recurse (fst e) ++ ": " ++ recurse (snd e))%string) in E as (-> & _ & ->); auto.
    + intros (k & v). destruct (NC k) as (c & r & H1 & H2). exists c. eexists. cbn [fst snd]. rewrite chars_app, H1. cbn. split; [reflexivity|auto].
    + intros (k & v) (k' & v') I I' t t' T T' E'. cbn [fst snd] in E'. rewrite !chars_app, <- !app_assoc in E'. destruct (NE _ I) as (N1 & N2), (NE' _ I') as (N1' & N2'). cbn [fst snd] in *.
      pose proof (size_in (fun e => osize (fst e) + osize (snd e))%nat l (k, v) I) as SZ. cbn [fst snd] in SZ.
      apply (IH k k') in E' as (<- & E'); auto; [|lia|cbn; auto 10|cbn; auto 10]. cbn in E'. injection E' as E'. change list_ascii_of_string with chars in E'. apply (IH v v') in E' as (<- & ->); auto. lia.
    + unfold closer. cbn. auto.
    + unfold closer. cbn. auto.
Qed.

(** ** C66 *)
Theorem fstr_unambiguous : forall l l', (forall o, In o (l ++ l') -> no_empty_set o) -> fstr l = fstr l' -> l = l'.
Proof.
  intros l l' N E. unfold fstr in E. apply (f_equal chars) in E. rewrite !chars_app in E. cbn [chars list_ascii_of_string] in E. apply app_inv_head in E. apply app_inv_tail in E. apply chars_inj in E.
  apply (list_tells_end pyobj recurse) in E; auto.
  - intros o. destruct (first_char o) as (c & r & H1 & H2 & _). eauto.
  - eauto.
  - intros x x' I I'. apply (recurse_tells (osize x)); auto; apply N; rewrite in_app_iff; auto.
Qed.
Print Assumptions fstr_unambiguous.
(** the restriction is needed *)
Theorem fstr_empty_refuted : exists a b, a <> b /\ fstr [a] = fstr [b].
Proof. exists (OSet []), (ODict []). split; [discriminate|reflexivity]. Qed.
Print Assumptions fstr_empty_refuted.
Open Scope Qc_scope.
Example fstr_ex : fstr [OTuple [OFrac (qq 1 2); OList [OFrac (zq (-3))]]; OFrac (qq 2 4)] = "FS/(1/2, [-3]),1/2/"%string.
Proof. reflexivity. Qed.
