(** * The cell merger never makes up an edge: whatever cells are added, every edge of a merged cell is
    an edge of one of them. *)
From Verif.Proofs Require Import MergerP MergerQ PyP.
From Verif.Model Require Import CellMerger.

Section Edges.
Context {V : Type} (veqb : V -> V -> bool) (vspec : forall a b, reflect (a = b) (veqb a b)).
Variable o : nat -> nat.
Notation edge := (V * V)%type.
Variable E : edge -> Prop.

Definition dict_in (d : list (V * list V)) : Prop := forall k vs v, In (k, vs) d -> In v vs -> E (k, v).
Definition all_in (l : list edge) : Prop := forall e, In e l -> E e.
Definition cell_in (c : cell (V := V)) : Prop := all_in (half_edges c) /\ all_in (cyc_edges (vertices c)).

Lemma d_set_existing_in d k vs : dict_in d -> (forall v, In v vs -> E (k, v)) -> dict_in (d_set_existing veqb d k vs).
Proof.
  intros D H. induction d as [|[x w] d IH]; cbn; auto. destruct (vspec x k) as [->|N]; intros k' vs' v [X|X] I.
  - injection X as <- <-. auto.
  - apply (D k' vs' v); auto. now right.
  - injection X as <- <-. apply (D x w v); auto. now left.
  - apply (IH (fun a b c P => D a b c (or_intror P)) k' vs' v); auto.
Qed.
Lemma d_put_in d k vs : dict_in d -> (forall v, In v vs -> E (k, v)) -> dict_in (d_put veqb d k vs).
Proof.
  intros D H. unfold d_put. destruct (d_get veqb d k); [now apply d_set_existing_in|].
  intros k' vs' v [X|X] I; [injection X as <- <-; auto|eapply D; eauto].
Qed.
Lemma d_del_sub d v : dict_in d -> dict_in (d_del veqb d v).
Proof. intros D k vs x I. apply filter_In in I as (I & _). eapply D; eauto. Qed.
Lemma put_rest_in d k vs v : dict_in d -> (forall v, In v vs -> E (k, v)) -> dict_in (put_rest veqb d k vs v).
Proof.
  intros D H. unfold put_rest. destruct (1 <? length vs)%nat; auto. apply d_put_in; auto.
  intros x I. apply filter_In in I as (I & _). auto.
Qed.
Lemma d_add_in d e : dict_in d -> E e -> dict_in (d_add veqb d e).
Proof.
  intros D H. unfold d_add. destruct (d_get veqb d (fst e)) as [vs|] eqn:G.
  - destruct (mem_v veqb (snd e) vs); auto. apply d_set_existing_in; auto. intros v I. apply in_app_or in I as [I|[<-|[]]].
    + apply (D _ vs); auto. apply (d_get_in veqb vspec); auto.
    + now destruct e.
  - intros k vs v [X|X] I; [|eapply D; eauto]. injection X as <- <-. destruct I as [<-|[]]. now destruct e.
Qed.
Lemma build_nxt_in es : all_in es -> dict_in (build_nxt veqb es).
Proof.
  intros H. unfold build_nxt. assert (D : dict_in []) by intros ? ? ? []. revert D H. generalize (@nil (V * list V)). induction es as [|e es IH]; intros d D H; cbn; auto.
  apply IH; [apply d_add_in; auto; apply H; now left|]. intros x I. apply H. now right.
Qed.
Lemma pick_some {A} k (l : list A) x : pick o k l = Some x -> In x l.
Proof. unfold pick. apply nth_error_In. Qed.

Lemma walk_in fuel k nxt k0 v lst l' nxt' k' : dict_in nxt -> all_in (steps lst v) ->
  walk veqb o fuel k nxt k0 v lst = Ok (l', nxt', k') -> dict_in nxt' /\ all_in (steps l' k0) /\ exists r, l' = lst ++ r.
Proof.
  revert k nxt v lst. induction fuel as [|f IH]; intros k nxt v lst D S H; cbn [walk] in H; destruct (vspec v k0) as [->|N].
  1, 3: injection H as <- <- <-; repeat split; auto; exists []; now rewrite app_nil_r.
  - discriminate.
  - destruct (d_get veqb nxt v) as [vs|] eqn:G; [|discriminate]. destruct (pick o k vs) as [w|] eqn:P; [|discriminate].
    apply (d_get_in veqb vspec) in G. apply pick_some in P. apply IH in H.
    + destruct H as (H1 & H2 & r & ->). repeat split; auto. exists (v :: r). now rewrite <- app_assoc.
    + apply put_rest_in; [now apply d_del_sub|]. intros x I. eapply D; eauto.
    + rewrite steps_snoc. intros e I. apply in_app_or in I as [I|[<-|[]]]; auto. eapply D; eauto.
Qed.
Lemma dict_keys_in acc l : all_in acc -> all_in l -> all_in (dict_keys veqb acc l).
Proof.
  revert acc. induction l as [|e l IH]; intros acc A L; cbn; auto.
  assert (A' : all_in (acc ++ [e])) by (intros x I; apply in_app_or in I as [I|[<-|[]]]; auto; apply L; now left).
  assert (L' : all_in l) by (intros x I; apply L; now right). destruct (mem_edge veqb e acc); auto.
Qed.
Lemma Cell_in vs os : all_in (cyc_edges vs) -> cell_in (Cell veqb vs os).
Proof. intros H. split; cbn; auto. apply dict_keys_in; auto. intros x []. Qed.
Lemma thread_in fuel k nxt os res cs k' : dict_in nxt -> Forall cell_in res ->
  thread veqb o fuel k nxt os res = Ok (cs, k') -> Forall cell_in cs.
Proof.
  revert k nxt res. induction fuel as [|f IH]; intros k nxt res D R H; destruct nxt as [|[k0 vs] nxt]; cbn [thread] in H; try discriminate.
  1, 2: now injection H as <- <-.
  destruct (pick o k vs) as [v|] eqn:P; [|discriminate]. apply bind_ok in H as (((l & nxt') & k1) & W & H).
  apply pick_some in P. apply walk_in in W as (W1 & W2 & r & ->).
  - apply IH in H; auto. apply Forall_app. split; auto. constructor; [|constructor]. apply Cell_in. cbn [app] in *. now rewrite cyc_steps.
  - apply put_rest_in; [|intros x I; apply (D k0 vs); auto; now left]. intros a b c I. apply D. now right.
  - intros e [<-|[]]. apply (D k0 vs); auto. now left.
Qed.
Lemma cancel_in todo se oe ch se' oe' ch' : cancel veqb todo se oe ch = Ok (se', oe', ch') -> incl se' se /\ incl oe' oe.
Proof.
  revert se oe ch. induction todo as [|[a b] todo IH]; intros se oe ch H; cbn in H.
  - injection H as <- <- <-. split; apply incl_refl.
  - apply bind_ok in H as (? & _ & H). destruct (mem_edge veqb (b, a) oe); apply IH in H as (H1 & H2); split; auto;
      intros y I; (apply H1 in I || apply H2 in I); auto; now apply filter_In in I as (I & _).
Qed.
Lemma merged_in k c d m k' : cell_in c -> cell_in d -> merged veqb o k c d = Ok (Some m, k') -> Forall cell_in m.
Proof.
  intros (C & _) (D & _) H. unfold merged in H. apply bind_ok in H as (((se & oe) & ch) & X & H).
  apply cancel_in in X as (X1 & X2). destruct (negb ch); [congruence|]. apply bind_ok in H as ((res & k1) & T & H). injection H as <- <-.
  apply thread_in in T; auto. apply build_nxt_in. intros e I. apply in_app_or in I as [I|I]; auto.
Qed.
Lemma absorb_in os cs : Forall cell_in cs -> Forall cell_in (fst (absorb veqb os cs)).
Proof. intros H. cbn. apply Forall_map. revert H. apply Forall_impl. intros c (A & B). destruct (negb _); split; auto. Qed.
Lemma for_others_in k c todo kept more ann r : cell_in c -> Forall cell_in todo -> Forall cell_in kept -> Forall cell_in more ->
  for_others veqb o k c todo kept more ann = Ok r ->
  Forall cell_in (f_cells r) /\ Forall cell_in (f_more r) /\ match f_cell r with Some c => cell_in c | None => True end.
Proof.
  revert k c kept more. induction todo as [|x todo IH]; intros k c kept more C T K M H; cbn [for_others] in H.
  - injection H as <-. auto.
  - inversion T; subst. apply bind_ok in H as ((m & k1) & X & H). destruct m as [[|m0 ms]|].
    + apply bind_ok in H as (? & _ & H). pose proof (absorb_in (union_l veqb (origs c) (origs x)) (kept ++ todo)) as AB.
      destruct (absorb veqb _ _) as [cs s]. injection H as <-. cbn in *. split; auto. apply AB, Forall_app; auto.
    + apply merged_in in X; auto. inversion X; subst. apply IH in H; auto. apply Forall_app; auto.
    + apply IH in H; auto. apply Forall_app; auto.
Qed.
Lemma add_loop_in fuel k ta cs ann cs' ann' k' : Forall cell_in ta -> Forall cell_in cs ->
  add_loop veqb o fuel k ta cs ann = Ok (cs', ann', k') -> Forall cell_in cs'.
Proof.
  revert k ta cs ann. induction fuel as [|f IH]; intros k ta cs ann T C H; destruct ta as [|c ta]; cbn [add_loop] in H; try discriminate.
  1, 2: now injection H as <- <- <-.
  pose proof (shuffle_perm o (length cs) k cs) as SP. destruct (shuffle o (length cs) k cs) as [sn k1]. cbn in SP.
  apply bind_ok in H as (r & X & H). inversion T; subst. apply for_others_in in X as (X1 & X2 & X3); auto.
  - apply IH in H; auto.
    + apply Forall_app. split; auto. now apply Forall_rev.
    + destruct (f_cell r); auto.
  - rewrite Forall_forall in *. intros y I. apply C. now rewrite <- SP in I || now rewrite SP in I.
Qed.
Theorem add_cells_in fuel k m l m' k' : Forall cell_in (cells m) -> (forall c, In c l -> all_in (cyc_edges c)) ->
  add_cells veqb o fuel k m l = Ok (m', k') -> Forall cell_in (cells m').
Proof.
  revert k m. induction l as [|c l IH]; intros k m M L H; cbn in H.
  - injection H as <- <-. auto.
  - apply bind_ok in H as ((m1 & k1) & X & H). apply IH in H; auto; [|intros; apply L; now right].
    unfold add_cell in X. apply bind_ok in X as (? & _ & X). apply bind_ok in X as (((cs & ann) & k2) & X & Y). injection Y as <- <-. cbn.
    apply add_loop_in in X; auto. constructor; auto. apply Cell_in. apply L. now left.
Qed.
End Edges.
