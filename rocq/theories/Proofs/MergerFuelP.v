(** * The cell merger ends normally or with an AssertionError for all cells with distinct half-edges,
    whether or not they run along some edge in both directions. *)
From Verif.Proofs Require Import MergerP MergerQ PyP.
From Verif.Model Require Import CellMerger.

Section M.
Context {V : Type} (veqb : V -> V -> bool).
Hypothesis vspec : forall a b, reflect (a = b) (veqb a b).
Variable o : nat -> nat.
Notation edge := (V * V)%type.
Notation cel := (@cell V).
Notation edges_of := (@edges_of V).
Notation wfc := (@wfc V).

Lemma for_others_light k c todo kept more ann :
  wfc c -> Forall wfc (kept ++ todo) -> NoDup (half_edges c ++ edges_of (kept ++ todo)) ->
  for_others veqb o k c todo kept more ann = Err AssertionError \/
  exists r X new, for_others veqb o k c todo kept more ann = Ok r /\ f_more r = more ++ new /\
    Permutation (half_edges c ++ edges_of (kept ++ todo)) (X ++ map swap X ++ edges_of (cells_after r) ++ edges_of new) /\
    Forall wfc (cells_after r) /\ Forall wfc new /\ (X = [] -> new = []).
Proof.
  revert k c kept more. induction todo as [|other todo IH]; intros k c kept more Wc Wk D; cbn [for_others].
  - right. rewrite app_nil_r in *. exists (mkFor (Some c) kept more ann k), [], []. unfold cells_after. cbn [f_cell f_cells f_more f_ann].
    split; [reflexivity|]. split; [now rewrite app_nil_r|]. split; [cbn; rewrite app_nil_r; reflexivity|].
    split; [constructor; auto|]. split; [constructor|auto].
  - assert (Pk : Permutation (kept ++ other :: todo) (other :: kept ++ todo)) by (symmetry; apply Permutation_middle).
    assert (Wo : wfc other) by (rewrite Forall_forall in Wk; apply Wk, in_or_app; cbn; auto).
    assert (Wr : Forall wfc (kept ++ todo)).
    { apply (Permutation_Forall Pk) in Wk. now inversion Wk. }
    assert (D' : NoDup (half_edges c ++ half_edges other ++ edges_of (kept ++ todo))).
    { eapply Permutation_NoDup; [|apply D]. apply Permutation_app_head. rewrite (edges_perm _ _ Pk). reflexivity. }
    destruct (merged_ok veqb vspec o k c other Wc Wo) as [(E & N)|(X & m & k' & E & NX & P & HX & FM)].
    { rewrite app_assoc in D'. eapply NoDup_app_l; eauto. }
    + rewrite E. cbn [bind].
      assert (Eq : (kept ++ [other]) ++ todo = kept ++ other :: todo) by (rewrite <- app_assoc; reflexivity).
      destruct (IH k c (kept ++ [other]) more) as [IH'|IH']; auto; rewrite ?Eq; auto.
      right. rewrite Eq in IH'. exact IH'.
    + rewrite E. cbn [bind]. destruct m as [|m0 ms].
      * destruct (length (inter_l veqb (origs c) (origs other)) =? 0)%nat; cbn [passert bind]; [right|left; reflexivity].
        set (oc := union_l veqb (origs c) (origs other)).
        destruct (absorb veqb oc (kept ++ todo)) as [cs saved] eqn:EA.
        exists (mkFor None cs more (if saved then ann else union_l veqb ann oc) k'), X, [].
        unfold cells_after. cbn [f_cell f_cells f_more f_ann].
        assert (Ecs : edges_of cs = edges_of (kept ++ todo)).
        { pose proof (absorb_edges veqb oc (kept ++ todo)) as HA. now rewrite EA in HA. }
        split; [reflexivity|]. split; [now rewrite app_nil_r|]. split.
        { cbn [MergerQ.edges_of flat_map] in P. rewrite app_nil_r in P. rewrite Ecs. cbn [MergerQ.edges_of flat_map]. rewrite app_nil_r.
          rewrite (edges_perm _ _ Pk). cbn [MergerQ.edges_of flat_map]. fold (edges_of (kept ++ todo)).
          rewrite app_assoc, P. rewrite <- app_assoc. reflexivity. }
        split; [|split; [constructor|reflexivity]].
        pose proof (absorb_wfc veqb oc (kept ++ todo) Wr) as H. now rewrite EA in H.
      * inversion FM as [|? ? (Wm0 & Om0) FMs]; subst.
        cbn [MergerQ.edges_of flat_map] in P. fold (edges_of ms) in P.
        destruct (IH k' m0 kept (more ++ ms)) as [IH'|(r & Y & new & R & Hmore & PR & WR & FN & HY)]; auto.
        { apply (NoDup_app_r (X ++ map swap X ++ edges_of ms)).
          eapply Permutation_NoDup; [|apply D']. rewrite app_assoc, P.
          rewrite <- !app_assoc. do 2 apply Permutation_app_head.
          rewrite !app_assoc. apply Permutation_app_tail, Permutation_app_comm. }
        right. exists r, (X ++ Y), (ms ++ new). split; [exact R|]. split; [rewrite Hmore, <- app_assoc; reflexivity|].
        split; [|split; [exact WR|split]].
        { rewrite (edges_perm _ _ Pk). cbn [MergerQ.edges_of flat_map]. fold (edges_of (kept ++ todo)).
          rewrite app_assoc, P, map_app. rewrite <- !app_assoc.
          transitivity (X ++ map swap X ++ edges_of ms ++ (half_edges m0 ++ edges_of (kept ++ todo))); [psolve|].
          rewrite PR. rewrite edges_app. psolve. }
        { apply Forall_app. split; [|exact FN]. eapply Forall_impl; [|apply FMs]. intros a (A & _). exact A. }
        { intros HXY. destruct X; [congruence|discriminate]. }
Qed.
Lemma add_loop_light E0 fuel k to_add cs ann :
  Forall wfc to_add -> Forall wfc cs -> NoDup (edges_of to_add ++ edges_of cs) ->
  (length (edges_of to_add ++ edges_of cs) <= E0)%nat ->
  (length (edges_of to_add ++ edges_of cs) * S E0 + length to_add <= fuel)%nat ->
  add_loop veqb o fuel k to_add cs ann = Err AssertionError \/
  exists cs' ann' k' X, add_loop veqb o fuel k to_add cs ann = Ok (cs', ann', k') /\
    Permutation (edges_of to_add ++ edges_of cs) (X ++ map swap X ++ edges_of cs') /\ Forall wfc cs'.
Proof.
  revert k to_add cs ann. induction fuel as [|fuel IH]; intros k to_add cs ann Ft Wc D HE HF; destruct to_add as [|c to_add]; cbn [add_loop].
  - right. exists cs, ann, k, []. cbn. repeat split; auto.
  - exfalso. cbn [length] in HF. lia.
  - right. exists cs, ann, k, []. cbn. repeat split; auto.
  - pose proof (shuffle_perm o (length cs) k cs) as PS. destruct (shuffle o (length cs) k cs) as [snap k1]. cbn [fst] in PS.
    inversion Ft as [|? ? Wc0 Ft']; subst.
    pose proof (edges_perm _ _ PS) as PSE.
    assert (Dd : NoDup ((half_edges c ++ edges_of snap) ++ edges_of to_add)).
    { eapply Permutation_NoDup; [|apply D]. cbn [MergerQ.edges_of flat_map]. fold (edges_of to_add). rewrite PSE. psolve. }
    destruct (for_others_light k1 c snap [] [] ann) as [E|(r & X & new & R & HM & P & W & FN & HX)]; auto.
    { cbn. eapply Permutation_Forall; [symmetry; apply PS|auto]. }
    { cbn. eapply NoDup_app_l; eauto. }
    + left. rewrite E. reflexivity.
    + rewrite R. cbn [bind]. rewrite HM. cbn [app]. change (match f_cell r with Some c' => c' :: f_cells r | None => f_cells r end) with (cells_after r).
      cbn [app] in P.
      assert (Pr : Permutation (edges_of (rev new)) (edges_of new)) by (apply edges_perm; symmetry; apply Permutation_rev).
      assert (Pall : Permutation (edges_of (c :: to_add) ++ edges_of cs)
                (X ++ map swap X ++ edges_of (rev new ++ to_add) ++ edges_of (cells_after r))).
      { rewrite edges_app, Pr. cbn [MergerQ.edges_of flat_map]. fold (edges_of to_add). rewrite <- PSE.
        transitivity ((half_edges c ++ edges_of snap) ++ edges_of to_add); [psolve|]. rewrite P. psolve. }
      pose proof (Permutation_length Pall) as L. rewrite !app_length, map_length in L.
      destruct (IH (f_k r) (rev new ++ to_add) (cells_after r) (f_ann r)) as [E|(cs' & ann' & k' & Y & R' & P' & W')]; auto.
      * apply Forall_app. split; auto. apply Forall_rev. exact FN.
      * eapply NoDup_app_r. eapply NoDup_app_r. eapply Permutation_NoDup; [apply Pall|exact D].
      * rewrite app_length in *. lia.
      * rewrite !app_length, rev_length in *.
        destruct X as [|e X].
        { rewrite (HX eq_refl) in *. cbn [rev length app] in *. nia. }
        { cbn [length] in *.
          assert (Ln : (length new <= length (edges_of new))%nat) by now apply length_edges_ge.
          pose proof (Permutation_length Pr) as Lr. rewrite edges_app, app_length in *. nia. }
      * right. exists cs', ann', k', (X ++ Y). split; [exact R'|]. split; [|auto]. rewrite Pall, P', map_app. psolve.
Qed.

Lemma add_cells_light fuel k m done l :
  (exists X, Permutation (inserted_edges done) (X ++ map swap X ++ edges_of (cells m)) /\ Forall wfc (cells m)) ->
  NoDup (inserted_edges (done ++ l)) -> Forall (fun c => c <> []) l ->
  (length (inserted_edges (done ++ l)) * S (length (inserted_edges (done ++ l))) + 1 <= fuel)%nat ->
  add_cells veqb o fuel k m l = Err AssertionError \/
  exists m' k', add_cells veqb o fuel k m l = Ok (m', k') /\
    exists X, Permutation (inserted_edges (done ++ l)) (X ++ map swap X ++ edges_of (cells m')) /\ Forall wfc (cells m').
Proof.
  revert k m done. induction l as [|c l IH]; intros k m done I D F L; cbn [add_cells].
  - right. exists m, k. rewrite app_nil_r. auto.
  - inversion F as [|? ? Nc F']; subst.
    destruct I as (X & P & W).
    unfold add_cell. destruct (mem_l veqb c (original_cells m)); cbn [negb passert bind]; [left; reflexivity|].
    assert (Eq : done ++ c :: l = (done ++ [c]) ++ l) by (rewrite <- app_assoc; reflexivity).
    rewrite Eq in *.
    unfold inserted_edges in D, L. rewrite !flat_map_app in D, L. cbn [flat_map] in D, L. rewrite app_nil_r in D, L.
    fold (inserted_edges done) in D, L. fold (inserted_edges l) in D, L.
    assert (Dc : NoDup (cyc_edges c)).
    { apply NoDup_app_l in D. apply NoDup_app_r in D. exact D. }
    assert (Wc : wfc (Cell veqb c [c])) by (apply Cell_wfc; auto).
    assert (He : half_edges (Cell veqb c [c]) = cyc_edges c) by (destruct Wc as (_ & E & _); exact E).
    assert (Le : (length (edges_of [Cell veqb c [c]] ++ edges_of (cells m)) <= length (inserted_edges done ++ cyc_edges c))%nat).
    { apply Permutation_length in P. rewrite !app_length in P. cbn [MergerQ.edges_of flat_map].
      rewrite He, app_nil_r, !app_length. unfold MergerQ.edges_of in *. rewrite map_length in P. lia. }
    destruct (add_loop_light (length ((inserted_edges done ++ cyc_edges c) ++ inserted_edges l)) fuel k [Cell veqb c [c]] (cells m) (annihilated m))
      as [E|(cs' & ann' & k' & Y & R & P' & W')]; auto.
    + eapply (NoDup_app_r (X ++ map swap X)).
      eapply Permutation_NoDup; [|eapply NoDup_app_l; apply D]. rewrite P. cbn [MergerQ.edges_of flat_map]. rewrite He.
      fold (edges_of (cells m)). psolve.
    + eapply Nat.le_trans; [apply Le|]. rewrite (app_length (inserted_edges done ++ cyc_edges c)). lia.
    + set (N := length ((inserted_edges done ++ cyc_edges c) ++ inserted_edges l)) in *.
      assert (length (inserted_edges done ++ cyc_edges c) <= N)%nat
        by (unfold N; rewrite (app_length (inserted_edges done ++ cyc_edges c)); lia).
      cbn [length]. nia.
    + left. rewrite E. reflexivity.
    + rewrite R. cbn [bind].
      destruct (IH k' (mkMerger cs' (original_cells m ++ [c]) ann') (done ++ [c])) as [E|G]; auto.
      * exists (X ++ Y). cbn [cells original_cells annihilated]. split; [|auto].
        unfold inserted_edges. rewrite flat_map_app. fold (inserted_edges done). cbn [flat_map]. rewrite app_nil_r.
        rewrite P. cbn [MergerQ.edges_of flat_map] in P'. rewrite He, app_nil_r in P'. fold (edges_of (cells m)) in P'.
        transitivity (X ++ map swap X ++ (cyc_edges c ++ edges_of (cells m))); [psolve|]. rewrite P', map_app. psolve.
      * unfold inserted_edges. rewrite !flat_map_app. cbn [flat_map]. rewrite app_nil_r. exact D.
      * unfold inserted_edges. rewrite !flat_map_app. cbn [flat_map]. rewrite app_nil_r. exact L.
Qed.
End M.
