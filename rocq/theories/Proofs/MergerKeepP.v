(** Whatever distinct half-edges the cells have, spikes included, merging only ever cancels pairs of
    opposite half-edges. *)
From Verif.Proofs Require Export MergerQ.
From Verif.Proofs Require Import PyP.

Section M.
Context {V : Type} (veqb : V -> V -> bool).
Hypothesis vspec : forall a b, reflect (a = b) (veqb a b).
Variable o : nat -> nat.
Notation cel := (@cell V).

Lemma for_others_keep k c todo kept more ann r :
  wfc c -> Forall wfc (kept ++ todo) -> NoDup (half_edges c ++ edges_of (kept ++ todo)) ->
  for_others veqb o k c todo kept more ann = Ok r ->
  exists X new, f_more r = more ++ new /\
    Permutation (half_edges c ++ edges_of (kept ++ todo)) (X ++ map swap X ++ edges_of (cells_after r) ++ edges_of new) /\
    Forall wfc (cells_after r) /\ Forall wfc new.
Proof.
  revert k c kept more. induction todo as [|other todo IH]; intros k c kept more Wc Wk D H; cbn [for_others] in H.
  - injection H as <-. rewrite app_nil_r in *. exists [], []. unfold cells_after. cbn [f_cell f_cells f_more f_ann].
    split; [now rewrite app_nil_r|]. split; [cbn; rewrite app_nil_r; reflexivity|]. split; constructor; auto.
  - assert (Pk : Permutation (kept ++ other :: todo) (other :: kept ++ todo)) by (symmetry; apply Permutation_middle).
    assert (Wo : wfc other) by (rewrite Forall_forall in Wk; apply Wk, in_or_app; cbn; auto).
    assert (Wr : Forall wfc (kept ++ todo)).
    { apply (Permutation_Forall Pk) in Wk. now inversion Wk. }
    assert (D' : NoDup (half_edges c ++ half_edges other ++ edges_of (kept ++ todo))).
    { eapply Permutation_NoDup; [|apply D]. apply Permutation_app_head. rewrite (edges_perm _ _ Pk). reflexivity. }
    destruct (merged_ok veqb vspec o k c other Wc Wo) as [(E & N)|(X & m & k' & E & NX & P & HX & FM)].
    { rewrite app_assoc in D'. eapply NoDup_app_l; eauto. }
    + rewrite E in H. cbn [bind] in H.
      assert (Eq : (kept ++ [other]) ++ todo = kept ++ other :: todo) by (rewrite <- app_assoc; reflexivity).
      apply IH in H; rewrite ?Eq in *; auto.
    + rewrite E in H. cbn [bind] in H. destruct m as [|m0 ms].
      * apply bind_ok in H as (u & _ & H).
        set (oc := union_l veqb (origs c) (origs other)) in *.
        destruct (absorb veqb oc (kept ++ todo)) as [cs saved] eqn:EA. injection H as <-.
        assert (Ecs : edges_of cs = edges_of (kept ++ todo)).
        { pose proof (absorb_edges veqb oc (kept ++ todo)) as HA. now rewrite EA in HA. }
        exists X, []. unfold cells_after. cbn [f_cell f_cells f_more f_ann]. split; [now rewrite app_nil_r|]. split.
        { cbn [edges_of flat_map] in P. rewrite app_nil_r in P. rewrite Ecs. cbn [edges_of flat_map]. rewrite app_nil_r.
          rewrite (edges_perm _ _ Pk). cbn [edges_of flat_map]. fold (edges_of (kept ++ todo)).
          rewrite app_assoc, P. rewrite <- app_assoc. reflexivity. }
        split; [|constructor]. pose proof (absorb_wfc veqb oc (kept ++ todo) Wr) as HW. now rewrite EA in HW.
      * inversion FM as [|? ? (Wm0 & Om0) FMs]; subst. cbn [edges_of flat_map] in P. fold (edges_of ms) in P.
        apply IH in H as (Y & new & Hmore & PR & WR & FN); auto.
        2:{ apply (NoDup_app_r (X ++ map swap X ++ edges_of ms)).
          eapply Permutation_NoDup; [|apply D']. rewrite app_assoc, P.
          rewrite <- !app_assoc. do 2 apply Permutation_app_head.
          rewrite !app_assoc. apply Permutation_app_tail, Permutation_app_comm. }
        exists (X ++ Y), (ms ++ new). split; [rewrite Hmore, <- app_assoc; reflexivity|]. split; [|split; [exact WR|]].
        { rewrite (edges_perm _ _ Pk). cbn [edges_of flat_map]. fold (edges_of (kept ++ todo)).
          rewrite app_assoc, P, map_app. rewrite <- !app_assoc.
          transitivity (X ++ map swap X ++ edges_of ms ++ (half_edges m0 ++ edges_of (kept ++ todo))); [psolve|].
          rewrite PR. rewrite edges_app. psolve. }
        { apply Forall_app. split; [|exact FN]. eapply Forall_impl; [|exact FMs]. intros x (Q & _). exact Q. }
Qed.

Lemma add_loop_keep fuel k to_add cs ann cs' ann' k' :
  Forall wfc to_add -> Forall wfc cs -> NoDup (edges_of to_add ++ edges_of cs) ->
  add_loop veqb o fuel k to_add cs ann = Ok (cs', ann', k') ->
  exists X, Permutation (edges_of to_add ++ edges_of cs) (X ++ map swap X ++ edges_of cs') /\ Forall wfc cs'.
Proof.
  revert k to_add cs ann. induction fuel as [|fuel IH]; intros k to_add cs ann Ft Wc D H; destruct to_add as [|c to_add]; cbn [add_loop] in H; try discriminate.
  1, 2: injection H as <- <- <-; exists []; cbn; auto.
  pose proof (shuffle_perm o (length cs) k cs) as PS. destruct (shuffle o (length cs) k cs) as [snap k1]. cbn [fst] in PS.
  inversion Ft as [|? ? Wc0 Ft']; subst. pose proof (edges_perm _ _ PS) as PSE.
  assert (Dd : NoDup ((half_edges c ++ edges_of snap) ++ edges_of to_add)).
  { eapply Permutation_NoDup; [|apply D]. cbn [edges_of flat_map]. fold (edges_of to_add). rewrite PSE. psolve. }
  apply bind_ok in H as (r & R & H).
  apply for_others_keep in R as (X & new & HM & P & W & FN); auto.
  2:{ cbn. eapply Permutation_Forall; [symmetry; apply PS|auto]. }
  2:{ cbn. eapply NoDup_app_l; eauto. }
  rewrite HM in H. cbn [app] in H, P. change (match f_cell r with Some c' => c' :: f_cells r | None => f_cells r end) with (cells_after r) in H.
  assert (Pr : Permutation (edges_of (rev new)) (edges_of new)) by (apply edges_perm; symmetry; apply Permutation_rev).
  assert (Pall : Permutation (edges_of (c :: to_add) ++ edges_of cs)
            (X ++ map swap X ++ edges_of (rev new ++ to_add) ++ edges_of (cells_after r))).
  { rewrite edges_app, Pr. cbn [edges_of flat_map]. fold (edges_of to_add). rewrite <- PSE.
    transitivity ((half_edges c ++ edges_of snap) ++ edges_of to_add); [psolve|]. rewrite P. psolve. }
  apply IH in H as (Y & P' & W'); auto.
  - exists (X ++ Y). split; auto. rewrite Pall, P', map_app. psolve.
  - apply Forall_app. split; auto. now apply Forall_rev.
  - eapply NoDup_app_r. eapply NoDup_app_r. eapply Permutation_NoDup; [apply Pall|exact D].
Qed.

Lemma add_cells_keep fuel k m l m' k' done :
  (exists X, Permutation (inserted_edges done) (X ++ map swap X ++ edges_of (cells m))) -> Forall wfc (cells m) ->
  NoDup (inserted_edges (done ++ l)) -> Forall (fun c => c <> []) l ->
  add_cells veqb o fuel k m l = Ok (m', k') ->
  (exists X, Permutation (inserted_edges (done ++ l)) (X ++ map swap X ++ edges_of (cells m'))) /\ Forall wfc (cells m').
Proof.
  revert k m done. induction l as [|c l IH]; intros k m done (X & P) W D F H; cbn [add_cells] in H.
  - injection H as <- <-. rewrite app_nil_r. eauto.
  - inversion F as [|? ? Nc F']; subst. apply bind_ok in H as ((m1 & k1) & A & H). unfold add_cell in A.
    apply bind_ok in A as (? & _ & A). apply bind_ok in A as (((cs & ann) & k2) & A & E). injection E as <- <-.
    assert (Eq : done ++ c :: l = (done ++ [c]) ++ l) by (rewrite <- app_assoc; reflexivity).
    rewrite Eq in *. pose proof D as D0.
    unfold inserted_edges in D. rewrite !flat_map_app in D. cbn [flat_map] in D. rewrite app_nil_r in D.
    fold (inserted_edges done) in D. fold (inserted_edges l) in D.
    assert (Dc : NoDup (cyc_edges c)).
    { apply NoDup_app_l in D. apply NoDup_app_r in D. exact D. }
    assert (Wc : wfc (Cell veqb c [c])) by (apply Cell_wfc; auto).
    assert (He : half_edges (Cell veqb c [c]) = cyc_edges c) by (destruct Wc as (_ & E & _); exact E).
    apply add_loop_keep in A as (Y & P' & W'); auto.
    2:{ eapply (NoDup_app_r (X ++ map swap X)).
      eapply Permutation_NoDup; [|eapply NoDup_app_l; apply D]. rewrite P. cbn [edges_of flat_map]. rewrite He.
      fold (edges_of (cells m)). psolve. }
    apply IH with (done := done ++ [c]) in H; auto.
    exists (X ++ Y). cbn [cells].
    unfold inserted_edges. rewrite flat_map_app. fold (inserted_edges done). cbn [flat_map]. rewrite app_nil_r.
    rewrite P. cbn [edges_of flat_map] in P'. rewrite He, app_nil_r in P'. fold (edges_of (cells m)) in P'.
    transitivity (X ++ map swap X ++ (cyc_edges c ++ edges_of (cells m))); [psolve|]. rewrite P', map_app. psolve.
Qed.
Lemma merger_keep fuel k l m' k' : NoDup (inserted_edges l) -> Forall (fun c => c <> []) l ->
  add_cells veqb o fuel k CellMergerSlow l = Ok (m', k') ->
  (exists X, Permutation (inserted_edges l) (X ++ map swap X ++ inserted_edges (map vertices (cells m')))) /\
  Forall (fun c => c <> []) (map vertices (cells m')).
Proof.
  intros D F H. apply (add_cells_keep fuel k CellMergerSlow l m' k' []) in H as ((X & P) & W); auto; [|exists []; reflexivity|constructor].
  split.
  - exists X. cbn [app] in P. rewrite P. assert (E : edges_of (cells m') = inserted_edges (map vertices (cells m'))); [|now rewrite E].
    clear P. induction W as [|c cs (_ & E & _) W IH]; cbn; auto. unfold edges_of, inserted_edges in *. now rewrite IH, E.
  - apply Forall_map. eapply Forall_impl; [|exact W]. intros c (Q & _). exact Q.
Qed.
End M.
