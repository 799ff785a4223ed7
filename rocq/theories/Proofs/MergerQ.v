(** Invariants of the merging loops. *)
From Verif.Proofs Require Export MergerP.

Section M.
Context {V : Type} (veqb : V -> V -> bool).
Hypothesis vspec : forall a b, reflect (a = b) (veqb a b).
Variable o : nat -> nat.
Notation edge := (V * V)%type.
Notation cel := (@cell V).

Definition edges_of (cs : list cel) : list edge := flat_map half_edges cs.
(** no half-edge of [a] has its opposite in [b] *)
Definition noopp (a b : list edge) : Prop := forall e, In e a -> ~ In (swap e) b.

Lemma noopp_sym a b : noopp a b -> noopp b a.
Proof. intros H e He Hs. apply (H _ Hs). rewrite swap_swap. auto. Qed.
Lemma noopp_app_l a b c : noopp (a ++ b) c <-> noopp a c /\ noopp b c.
Proof.
  unfold noopp. split.
  - intros H. split; intros e He; apply H, in_or_app; auto.
  - intros (H1 & H2) e He. apply in_app_or in He. destruct He; auto.
Qed.
Lemma noopp_app_r a b c : noopp a (b ++ c) <-> noopp a b /\ noopp a c.
Proof.
  split.
  - intros H. apply noopp_sym, noopp_app_l in H. destruct H. split; apply noopp_sym; auto.
  - intros (H1 & H2). apply noopp_sym, noopp_app_l. split; apply noopp_sym; auto.
Qed.
Lemma noopp_incl a b a' b' : noopp a b -> incl a' a -> incl b' b -> noopp a' b'.
Proof. intros H I J e He Hs. apply (H e); auto. Qed.
Lemma noopp_perm a b : Permutation a b -> noopp a a -> noopp b b.
Proof. intros P H. eapply noopp_incl; [apply H| |]; intros x; apply Permutation_in; symmetry; auto. Qed.
Lemma edges_app a b : edges_of (a ++ b) = edges_of a ++ edges_of b.
Proof. apply flat_map_app. Qed.
Lemma edges_perm a b : Permutation a b -> Permutation (edges_of a) (edges_of b).
Proof. intros; unfold edges_of; now apply Permutation_flat_map. Qed.

Lemma take_at_perm {A} i (l : list A) x t : take_at i l = Some (x, t) -> Permutation l (x :: t).
Proof.
  revert i x t. induction l as [|y l IH]; intros [|i] x t; cbn; try congruence.
  - intros [= -> ->]. reflexivity.
  - destruct (take_at i l) as [[z t']|] eqn:E; [|congruence]. intros [= -> <-].
    rewrite (IH _ _ _ E). apply perm_swap.
Qed.
Lemma shuffle_perm {A} f k (l : list A) : Permutation (fst (shuffle o f k l)) l.
Proof.
  revert k l. induction f as [|f IH]; intros k l; cbn; auto.
  destruct (take_at _ l) as [[x t]|] eqn:E; auto.
  specialize (IH (S k) t). destruct (shuffle o f (S k) t) as [r k'] eqn:E2. cbn in *.
  rewrite IH. symmetry. eapply take_at_perm; eauto.
Qed.

Definition cells_after (r : @for_result V) : list cel :=
  match f_cell r with Some c => c :: f_cells r | None => f_cells r end.

Lemma absorb_edges os cs : edges_of (fst (absorb veqb os cs)) = edges_of cs.
Proof.
  unfold absorb, edges_of. cbn. induction cs; cbn; auto. rewrite IHcs. f_equal. destruct (negb _); auto.
Qed.
Lemma absorb_wfc os cs : Forall wfc cs -> Forall wfc (fst (absorb veqb os cs)).
Proof.
  unfold absorb. cbn. intros F. apply Forall_map. eapply Forall_impl; [|apply F].
  intros c H. destruct (negb _); auto.
Qed.
Lemma union_l_in a b x : In x (union_l veqb a b) <-> In x a \/ In x b.
Proof.
  unfold union_l. rewrite in_app_iff, filter_In. destruct (mem_l veqb x a) eqn:E; cbn.
  - apply (mem_l_in veqb vspec) in E. tauto.
  - tauto.
Qed.
Lemma inter_l_in a b x : In x (inter_l veqb a b) <-> In x a /\ In x b.
Proof. unfold inter_l. rewrite filter_In. rewrite (mem_l_in veqb vspec). tauto. Qed.

Lemma absorb_origs os cs x :
  snd (absorb veqb os cs) = true ->
  In x (flat_map origs (fst (absorb veqb os cs))) <-> In x (flat_map origs cs) \/ In x os.
Proof.
  unfold absorb. cbn [fst snd]. rewrite existsb_exists. intros (c & Hc & Ec).
  rewrite !in_flat_map. split.
  - intros (c' & Hc' & Hx). apply in_map_iff in Hc'. destruct Hc' as (c1 & <- & Hc1).
    match type of Hx with context [if ?b then _ else _] => destruct b end; cbn [origs] in Hx; [rewrite union_l_in in Hx|]; intuition eauto.
  - intros [(c1 & Hc1 & Hx)|Hx].
    + eexists. split; [apply in_map; eauto|]. cbv beta. match goal with |- context [if ?b then _ else _] => destruct b end; cbn [origs]; auto. rewrite union_l_in; auto.
    + eexists. split; [apply in_map, Hc|]. cbv beta. rewrite Ec. cbn [origs]. rewrite union_l_in; auto.
Qed.
Lemma absorb_none os cs : snd (absorb veqb os cs) = false -> fst (absorb veqb os cs) = cs.
Proof.
  unfold absorb. cbn [fst snd]. induction cs as [|c cs IH]; cbn; auto.
  rewrite orb_false_iff. intros (H1 & H2). rewrite H1, IH; auto.
Qed.

Lemma Permutation_in_iff_origs (a b : list cel) x : Permutation a b -> In x (flat_map origs a) <-> In x (flat_map origs b).
Proof. intros P. split; apply Permutation_in; [|symmetry]; now apply Permutation_flat_map. Qed.

Lemma wfc_edges (c : cel) : wfc c -> half_edges c <> [].
Proof.
  intros (H & E & _). rewrite E. destruct (vertices c) as [|v l]; [congruence|]. rewrite cyc_steps. discriminate.
Qed.

Lemma for_others_ok k c todo kept more ann :
  wfc c -> noopp (half_edges c) (half_edges c) -> Forall wfc (kept ++ todo) ->
  noopp (edges_of (kept ++ todo)) (edges_of (kept ++ todo)) ->
  noopp (half_edges c) (edges_of kept) -> NoDup (half_edges c ++ edges_of (kept ++ todo)) ->
  for_others veqb o k c todo kept more ann = Err AssertionError \/
  exists r X new, for_others veqb o k c todo kept more ann = Ok r /\ f_more r = more ++ new /\
    Permutation (half_edges c ++ edges_of (kept ++ todo)) (X ++ map swap X ++ edges_of (cells_after r) ++ edges_of new) /\
    noopp (edges_of (cells_after r)) (edges_of (cells_after r)) /\
    Forall wfc (cells_after r) /\ Forall (fun c => wfc c /\ noopp (half_edges c) (half_edges c)) new /\
    (X = [] -> new = []) /\
    (forall x, In x (origs c) \/ In x (flat_map origs (kept ++ todo)) \/ In x ann <->
               In x (flat_map origs (cells_after r)) \/ In x (flat_map origs new) \/ In x (f_ann r)).
Proof.
  revert k c kept more. induction todo as [|other todo IH]; intros k c kept more Wc Cc Wk Ck Cck D; cbn [for_others].
  - right. rewrite app_nil_r in *. exists (mkFor (Some c) kept more ann k), [], []. unfold cells_after. cbn [f_cell f_cells f_more f_ann].
    split; [reflexivity|]. split; [now rewrite app_nil_r|]. split; [cbn; rewrite app_nil_r; reflexivity|].
    split; [|split; [constructor; auto|split; [constructor|split; [auto|]]]].
    + cbn [edges_of flat_map]. fold (edges_of kept). apply noopp_app_l. split; apply noopp_app_r; auto using noopp_sym.
    + intros x. cbn. rewrite in_app_iff. tauto.
  - assert (Pk : Permutation (kept ++ other :: todo) (other :: kept ++ todo)) by (symmetry; apply Permutation_middle).
    assert (Wo : wfc other) by (rewrite Forall_forall in Wk; apply Wk, in_or_app; cbn; auto).
    assert (Wr : Forall wfc (kept ++ todo)).
    { apply (Permutation_Forall Pk) in Wk. now inversion Wk. }
    assert (D' : NoDup (half_edges c ++ half_edges other ++ edges_of (kept ++ todo))).
    { eapply Permutation_NoDup; [|apply D]. apply Permutation_app_head. rewrite (edges_perm _ _ Pk). reflexivity. }
    assert (Ck' : noopp (half_edges other ++ edges_of (kept ++ todo)) (half_edges other ++ edges_of (kept ++ todo))).
    { eapply noopp_perm; [|apply Ck]. rewrite (edges_perm _ _ Pk). reflexivity. }
    destruct (merged_ok veqb vspec o k c other Wc Wo) as [(E & N)|(X & m & k' & E & NX & P & HX & FM)].
    { rewrite app_assoc in D'. eapply NoDup_app_l; eauto. }
    + rewrite E. cbn [bind].
      assert (Eq : (kept ++ [other]) ++ todo = kept ++ other :: todo) by (rewrite <- app_assoc; reflexivity).
      destruct (IH k c (kept ++ [other]) more) as [IH'|IH']; auto; rewrite ?Eq; auto.
      { rewrite edges_app. apply noopp_app_r. split; auto. cbn. rewrite app_nil_r. exact N. }
      right. rewrite Eq in IH'. exact IH'.
    + rewrite E. cbn [bind].
      (* facts about the merged cells *)
      assert (Dm : NoDup (X ++ map swap X ++ edges_of m)).
      { eapply Permutation_NoDup; [apply P|]. rewrite app_assoc in D'. eapply NoDup_app_l; eauto. }
      assert (Im : forall e, In e (edges_of m) -> (In e (half_edges c) \/ In e (half_edges other)) /\ ~ In e X /\ ~ In (swap e) X).
      { intros e He. split; [|split].
        - apply in_app_or. eapply Permutation_in; [symmetry; apply P|]. apply in_or_app. right. apply in_or_app. auto.
        - intros H. eapply (NoDup_app_disj _ _ _ Dm H), in_or_app; auto.
        - intros H. apply NoDup_app_r in Dm. apply (NoDup_app_disj _ _ e Dm); auto.
          rewrite <- (swap_swap e). apply in_map. auto. }
      assert (Cm : noopp (edges_of m) (edges_of m)).
      { intros e He Hs. destruct (Im _ He) as (H1 & H2 & H3). destruct (Im _ Hs) as (H4 & H5 & H6).
        destruct H1 as [H1|H1], H4 as [H4|H4].
        - apply (Cc _ H1 H4). - apply H2, HX. auto.
        - apply H3, HX. rewrite swap_swap. auto.
        - apply noopp_app_l in Ck'. destruct Ck' as (Ck' & _). apply noopp_app_r in Ck'. destruct Ck' as (Ck' & _).
          apply (Ck' _ H1 H4). }
      assert (Ckr : noopp (edges_of (kept ++ todo)) (edges_of (kept ++ todo))).
      { apply noopp_app_l in Ck'. destruct Ck' as (_ & Ck'). apply noopp_app_r in Ck'. tauto. }
      assert (Cok : noopp (half_edges other) (edges_of (kept ++ todo))).
      { apply noopp_app_l in Ck'. destruct Ck' as (Ck' & _). apply noopp_app_r in Ck'. tauto. }
      destruct m as [|m0 ms].
      * destruct (length (inter_l veqb (origs c) (origs other)) =? 0)%nat; cbn [passert bind]; [right|left; reflexivity].
        set (oc := union_l veqb (origs c) (origs other)).
        destruct (absorb veqb oc (kept ++ todo)) as [cs saved] eqn:EA.
        exists (mkFor None cs more (if saved then ann else union_l veqb ann oc) k'), X, [].
        unfold cells_after. cbn [f_cell f_cells f_more f_ann].
        assert (Ecs : edges_of cs = edges_of (kept ++ todo)).
        { pose proof (absorb_edges oc (kept ++ todo)) as HA. now rewrite EA in HA. }
        split; [reflexivity|]. split; [now rewrite app_nil_r|]. split.
        { cbn [edges_of flat_map] in P. rewrite app_nil_r in P. rewrite Ecs. cbn [edges_of flat_map]. rewrite app_nil_r.
          rewrite (edges_perm _ _ Pk). cbn [edges_of flat_map]. fold (edges_of (kept ++ todo)).
          rewrite app_assoc, P. rewrite <- app_assoc. reflexivity. }
        split; [rewrite Ecs; auto|]. split.
        { pose proof (absorb_wfc oc (kept ++ todo) Wr) as H. now rewrite EA in H. }
        split; [constructor|]. split; [reflexivity|].
        intros x. cbn [flat_map]. rewrite (Permutation_in_iff_origs _ _ x Pk). cbn [flat_map]. rewrite in_app_iff.
        destruct saved.
        -- pose proof (absorb_origs oc (kept ++ todo) x) as H. rewrite EA in H. cbn [fst snd] in H. rewrite H by reflexivity.
           unfold oc. rewrite union_l_in. cbn. tauto.
        -- pose proof (absorb_none oc (kept ++ todo)) as H. rewrite EA in H. cbn [fst snd] in H. rewrite H by reflexivity.
           rewrite union_l_in. unfold oc. rewrite union_l_in. cbn. tauto.
      * inversion FM as [|? ? (Wm0 & Om0) FMs]; subst.
        cbn [edges_of flat_map] in P, Cm, Dm, Im. fold (edges_of ms) in P, Cm, Dm, Im.
        assert (Cm0 : noopp (half_edges m0) (half_edges m0)).
        { apply noopp_app_l in Cm. destruct Cm as (Cm & _). apply noopp_app_r in Cm. tauto. }
        destruct (IH k' m0 kept (more ++ ms)) as [IH'|(r & Y & new & R & Hmore & PR & CR & WR & FN & HY & HO)]; auto.
        { intros e He Hs. destruct (Im e) as ([H|H] & _); [apply in_or_app; auto| |].
          - apply (Cck e H Hs). - apply (Cok e H). rewrite edges_app, in_app_iff. auto. }
        { apply (NoDup_app_r (X ++ map swap X ++ edges_of ms)).
          eapply Permutation_NoDup; [|apply D']. rewrite app_assoc, P.
          rewrite <- !app_assoc. do 2 apply Permutation_app_head.
          rewrite !app_assoc. apply Permutation_app_tail, Permutation_app_comm. }
        right. exists r, (X ++ Y), (ms ++ new). split; [exact R|]. split; [rewrite Hmore, <- app_assoc; reflexivity|].
        split; [|split; [exact CR|split; [exact WR|split; [|split]]]].
        { rewrite (edges_perm _ _ Pk). cbn [edges_of flat_map]. fold (edges_of (kept ++ todo)).
          rewrite app_assoc, P, map_app. rewrite <- !app_assoc.
          transitivity (X ++ map swap X ++ edges_of ms ++ (half_edges m0 ++ edges_of (kept ++ todo))); [psolve|].
          rewrite PR. rewrite edges_app. psolve. }
        { apply Forall_app. split; [|exact FN]. rewrite Forall_forall in *. intros c' Hc'. split; [apply (FMs c' Hc')|].
          eapply noopp_incl; [apply Cm| |]; intros e He; apply in_or_app; right; apply in_flat_map; eauto. }
        { intros HXY. destruct X; [congruence|discriminate]. }
        { intros x. rewrite (Permutation_in_iff_origs _ _ x Pk). cbn [flat_map]. rewrite (flat_map_app _ ms new), !in_app_iff.
          specialize (HO x). rewrite Om0, in_app_iff in HO.
          assert (Hms : In x (flat_map origs ms) -> In x (origs c) \/ In x (origs other)).
          { rewrite in_flat_map. intros (c' & Hc' & Hx). rewrite Forall_forall in FMs. destruct (FMs c' Hc') as (_ & E').
            rewrite E', in_app_iff in Hx. auto. }
          tauto. }
Qed.
(** ** the outer loop *)
Definition cclean (c : cel) : Prop := wfc c /\ noopp (half_edges c) (half_edges c).

Lemma length_edges_ge (cs : list cel) : Forall wfc cs -> (length cs <= length (edges_of cs))%nat.
Proof.
  induction 1 as [|c cs W F IH]; cbn; [lia|]. fold (edges_of cs). rewrite app_length.
  pose proof (wfc_edges _ W). destruct (half_edges c); [congruence|]. cbn. lia.
Qed.

Lemma add_loop_ok E0 fuel k to_add cs ann :
  Forall cclean to_add -> Forall wfc cs -> noopp (edges_of cs) (edges_of cs) ->
  NoDup (edges_of to_add ++ edges_of cs) ->
  (length (edges_of to_add ++ edges_of cs) <= E0)%nat ->
  (length (edges_of to_add ++ edges_of cs) * S E0 + length to_add <= fuel)%nat ->
  add_loop veqb o fuel k to_add cs ann = Err AssertionError \/
  exists cs' ann' k' X, add_loop veqb o fuel k to_add cs ann = Ok (cs', ann', k') /\
    Permutation (edges_of to_add ++ edges_of cs) (X ++ map swap X ++ edges_of cs') /\
    Forall wfc cs' /\ noopp (edges_of cs') (edges_of cs') /\
    (forall x, In x (flat_map origs to_add) \/ In x (flat_map origs cs) \/ In x ann <->
               In x (flat_map origs cs') \/ In x ann').
Proof.
  revert k to_add cs ann. induction fuel as [|fuel IH]; intros k to_add cs ann Ft Wc Cc D HE HF; destruct to_add as [|c to_add]; cbn [add_loop].
  - right. exists cs, ann, k, []. cbn. repeat split; auto; tauto.
  - exfalso. cbn [length] in HF. lia.
  - right. exists cs, ann, k, []. cbn. repeat split; auto; tauto.
  - pose proof (shuffle_perm (length cs) k cs) as PS. destruct (shuffle o (length cs) k cs) as [snap k1]. cbn [fst] in PS.
    inversion Ft as [|? ? (Wc0 & Cc0) Ft']; subst.
    pose proof (edges_perm _ _ PS) as PSE.
    assert (Dd : NoDup ((half_edges c ++ edges_of snap) ++ edges_of to_add)).
    { eapply Permutation_NoDup; [|apply D]. cbn [edges_of flat_map]. fold (edges_of to_add). rewrite PSE. psolve. }
    destruct (for_others_ok k1 c snap [] [] ann) as [E|(r & X & new & R & HM & P & C & W & FN & HX & HO)]; auto.
    { cbn. eapply Permutation_Forall; [symmetry; apply PS|auto]. }
    { cbn. eapply noopp_perm; [symmetry; apply PSE|auto]. }
    { intros e _ []. }
    { cbn. eapply NoDup_app_l; eauto. }
    + left. rewrite E. reflexivity.
    + rewrite R. cbn [bind]. rewrite HM. cbn [app]. change (match f_cell r with Some c' => c' :: f_cells r | None => f_cells r end) with (cells_after r).
      cbn [app] in P, HO.
      assert (Pr : Permutation (edges_of (rev new)) (edges_of new)) by (apply edges_perm; symmetry; apply Permutation_rev).
      assert (Pall : Permutation (edges_of (c :: to_add) ++ edges_of cs)
                (X ++ map swap X ++ edges_of (rev new ++ to_add) ++ edges_of (cells_after r))).
      { rewrite edges_app, Pr. cbn [edges_of flat_map]. fold (edges_of to_add). rewrite <- PSE.
        transitivity ((half_edges c ++ edges_of snap) ++ edges_of to_add); [psolve|]. rewrite P. psolve. }
      pose proof (Permutation_length Pall) as L. rewrite !app_length, map_length in L.
      destruct (IH (f_k r) (rev new ++ to_add) (cells_after r) (f_ann r)) as [E|(cs' & ann' & k' & Y & R' & P' & W' & C' & HO')]; auto.
      * apply Forall_app. split; auto. apply Forall_rev. exact FN.
      * eapply NoDup_app_r. eapply NoDup_app_r. eapply Permutation_NoDup; [apply Pall|exact D].
      * rewrite app_length in *. lia.
      * rewrite !app_length, rev_length in *.
        destruct X as [|e X].
        { rewrite (HX eq_refl) in *. cbn [rev length app] in *. nia. }
        { cbn [length] in *.
          assert (Ln : (length new <= length (edges_of new))%nat).
          { apply length_edges_ge. eapply Forall_impl; [|apply FN]. intros a (H & _). exact H. }
          pose proof (Permutation_length Pr) as Lr. rewrite edges_app, app_length in *. nia. }
      * right. exists cs', ann', k', (X ++ Y). split; [exact R'|]. split; [|split; [auto|split; [auto|]]].
        { rewrite Pall, P', map_app. psolve. }
        { intros x. rewrite <- HO'. specialize (HO x). rewrite flat_map_app, in_app_iff. cbn [flat_map].
          rewrite in_app_iff. rewrite (Permutation_in_iff_origs _ _ x PS) in HO.
          assert (Hr : In x (flat_map origs (rev new)) <-> In x (flat_map origs new))
            by (apply Permutation_in_iff_origs; symmetry; apply Permutation_rev).
          rewrite Hr. tauto. }
Qed.

(** the half-edges of the inserted vertex lists *)
Definition inserted_edges (l : list (list V)) : list edge := flat_map cyc_edges l.

Definition minv_ok (m : @merger V) (done : list (list V)) : Prop :=
  exists X, Permutation (inserted_edges done) (X ++ map swap X ++ edges_of (cells m)) /\
    Forall wfc (cells m) /\ noopp (edges_of (cells m)) (edges_of (cells m)) /\
    original_cells m = done /\
    (forall x, In x (flat_map origs (cells m)) \/ In x (annihilated m) <-> In x done).

Lemma add_cells_ok fuel k m done l :
  minv_ok m done -> NoDup (inserted_edges (done ++ l)) ->
  Forall (fun c => c <> [] /\ noopp (cyc_edges c) (cyc_edges c)) l ->
  (length (inserted_edges (done ++ l)) * S (length (inserted_edges (done ++ l))) + 1 <= fuel)%nat ->
  add_cells veqb o fuel k m l = Err AssertionError \/
  exists m' k', add_cells veqb o fuel k m l = Ok (m', k') /\ minv_ok m' (done ++ l).
Proof.
  revert k m done. induction l as [|c l IH]; intros k m done I D F L; cbn [add_cells].
  - right. exists m, k. rewrite app_nil_r. auto.
  - inversion F as [|? ? (Nc & Cc) F']; subst.
    destruct I as (X & P & W & C & O & HO).
    unfold add_cell. destruct (mem_l veqb c (original_cells m)); cbn [negb passert bind]; [left; reflexivity|].
    assert (Eq : done ++ c :: l = (done ++ [c]) ++ l) by (rewrite <- app_assoc; reflexivity).
    rewrite Eq in *.
    unfold inserted_edges in D, L. rewrite !flat_map_app in D, L. cbn [flat_map] in D, L. rewrite app_nil_r in D, L.
    fold (inserted_edges done) in D, L. fold (inserted_edges l) in D, L.
    assert (Dc : NoDup (cyc_edges c)).
    { apply NoDup_app_l in D. apply NoDup_app_r in D. exact D. }
    assert (Wc : wfc (Cell veqb c [c])) by (apply Cell_wfc; auto).
    assert (He : half_edges (Cell veqb c [c]) = cyc_edges c) by (destruct Wc as (_ & E & _); exact E).
    assert (Le : (length (edges_of [Cell veqb c [c]] ++ edges_of (cells m)) <= length (inserted_edges done ++ cyc_edges c))%nat).
    { apply Permutation_length in P. rewrite !app_length in P. cbn [edges_of flat_map].
      rewrite He, app_nil_r, !app_length. unfold edges_of in *. rewrite map_length in P. lia. }
    destruct (add_loop_ok (length ((inserted_edges done ++ cyc_edges c) ++ inserted_edges l)) fuel k [Cell veqb c [c]] (cells m) (annihilated m))
      as [E|(cs' & ann' & k' & Y & R & P' & W' & C' & HO')]; auto.
    + constructor; [|constructor]. split; auto. rewrite He. exact Cc.
    + eapply (NoDup_app_r (X ++ map swap X)).
      eapply Permutation_NoDup; [|eapply NoDup_app_l; apply D]. rewrite P. cbn [edges_of flat_map]. rewrite He.
      fold (edges_of (cells m)). psolve.
    + eapply Nat.le_trans; [apply Le|]. rewrite (app_length (inserted_edges done ++ cyc_edges c)). lia.
    + set (N := length ((inserted_edges done ++ cyc_edges c) ++ inserted_edges l)) in *.
      assert (length (inserted_edges done ++ cyc_edges c) <= N)%nat
        by (unfold N; rewrite (app_length (inserted_edges done ++ cyc_edges c)); lia).
      cbn [length]. nia.
    + left. rewrite E. reflexivity.
    + rewrite R. cbn [bind].
      destruct (IH k' (mkMerger cs' (original_cells m ++ [c]) ann') (done ++ [c])) as [E|G]; auto.
      * exists (X ++ Y). cbn [cells original_cells annihilated]. split; [|split; [auto|split; [auto|split; [rewrite O; auto|]]]].
        { unfold inserted_edges. rewrite flat_map_app. fold (inserted_edges done). cbn [flat_map]. rewrite app_nil_r.
          rewrite P. cbn [edges_of flat_map] in P'. rewrite He, app_nil_r in P'. fold (edges_of (cells m)) in P'.
          transitivity (X ++ map swap X ++ (cyc_edges c ++ edges_of (cells m))); [psolve|]. rewrite P', map_app. psolve. }
        { intros x. rewrite <- HO'. cbn. rewrite in_app_iff. cbn. specialize (HO x). tauto. }
      * unfold inserted_edges. rewrite !flat_map_app. cbn [flat_map]. rewrite app_nil_r. exact D.
      * unfold inserted_edges. rewrite !flat_map_app. cbn [flat_map]. rewrite app_nil_r. exact L.
Qed.
End M.
