(** Proofs about Model/Geom1d.v. *)
From Verif.Proofs Require Export PyP ExtOrd.

(** membership, extended to infinite "points" *)
Definition ein (x : ext) (i : iv) : Prop := ele (fst i) x /\ elt x (snd i).
Definition epts (g : list iv) (x : ext) : Prop := exists i, In i g /\ ein x i.

Lemma pts_epts g x : pts g x <-> epts g (Fin x).
Proof. reflexivity. Qed.
Lemma epts_nil x : epts [] x <-> False.
Proof. split; [intros (i & [] & _) | tauto]. Qed.
Lemma epts_cons i g x : epts (i :: g) x <-> ein x i \/ epts g x.
Proof.
  split.
  - intros (j & [<- | H] & E); [auto | right; exists j; auto].
  - intros [E | (j & H & E)]; [exists i | exists j]; simpl; auto.
Qed.
Lemma epts_app g h x : epts (g ++ h) x <-> epts g x \/ epts h x.
Proof.
  induction g; simpl.
  - rewrite epts_nil; tauto.
  - rewrite !epts_cons, IHg; tauto.
Qed.
Lemma epts_perm g h x : Permutation g h -> epts g x <-> epts h x.
Proof.
  intros P; split; intros (i & H & E); exists i; split; auto.
  - exact (Permutation_in _ P H).
  - exact (Permutation_in _ (Permutation_sym P) H).
Qed.

Definition valid (l : list iv) := Forall (fun i => ele (fst i) (snd i)) l.
Lemma valid_b l : forallb (fun i => eleb (fst i) (snd i)) l = true <-> valid l.
Proof.
  unfold valid. rewrite forallb_forall, Forall_forall.
  setoid_rewrite eleb_le. reflexivity.
Qed.
Lemma geom1d_of_ok l g : geom1d_of l = Ok g <-> valid l /\ g = normalize l.
Proof.
  unfold geom1d_of. rewrite <- valid_b. destruct forallb; split; intros H; try discriminate.
  - inversion H; auto.
  - destruct H; congruence.
  - destruct H; discriminate.
Qed.
Lemma geom1d_of_valid l : valid l -> geom1d_of l = Ok (normalize l).
Proof. intros; apply geom1d_of_ok; auto. Qed.

(** sorting by first end *)
Definition fst_le (i j : iv) := ele (fst i) (fst j).
Lemma iv_ltb_asym a b : iv_ltb a b = true -> iv_ltb b a = false.
Proof.
  unfold iv_ltb. repeat (ecase1; auto; try congruence); intros; exfalso; eord.
Qed.
Lemma iv_ltb_le a b :
  iv_ltb b a = false <-> elt (fst a) (fst b) \/ (fst a = fst b /\ ele (snd a) (snd b)).
Proof.
  unfold iv_ltb. destruct (eeqb_spec (fst b) (fst a)) as [e|n].
  - destruct (eltb_spec (snd b) (snd a)); eneg.
    + split; [discriminate|]. intros [H|[_ H]]; exfalso; [rewrite e in H|]; eord.
    + split; auto.
  - destruct (eltb_spec (fst b) (fst a)); eneg.
    + split; [discriminate|]. intros [H|[H _]]; [exfalso; eord | congruence].
    + split; auto. intros _. left. destruct (ele_cases _ _ n0); auto. congruence.
Qed.
Lemma iv_ltb_trans a b c : iv_ltb b a = false -> iv_ltb c b = false -> iv_ltb c a = false.
Proof.
  rewrite !iv_ltb_le. intros [H|[H H']] [K|[K K']].
  - left; eord.
  - left; rewrite <- K; auto.
  - left; rewrite H; auto.
  - right; split; [congruence | eord].
Qed.
Lemma sort_fst_sorted l : StronglySorted fst_le (sort_by iv_ltb l).
Proof.
  pose proof (sort_by_sorted iv_ltb iv_ltb_asym iv_ltb_trans l) as H.
  induction H as [|x t Hs IH Hf]; constructor; auto.
  eapply Forall_impl; [|apply Hf]. intros y Hy. apply iv_ltb_le in Hy. unfold fst_le.
  destruct Hy as [Hy|[Hy _]]; [now apply elt_le | rewrite Hy; apply ele_refl].
Qed.

(** ** the merge loop *)
Lemma merge_epts l : forall prev,
  valid l -> StronglySorted fst_le l ->
  match prev with None => True | Some p => elt (fst p) (snd p) /\ Forall (fst_le p) l end ->
  forall x, epts (merge prev l) x <->
            epts (match prev with None => [] | Some p => [p] end ++ l) x.
Proof.
  induction l as [|i l IH]; intros prev Hv Hs Hp x; simpl.
  - destruct prev; reflexivity.
  - inversion Hv as [|? ? Hi Hv']; subst. inversion Hs as [|? ? Hs' Hf]; subst.
    destruct prev as [p|]; simpl.
    + destruct Hp as [Hp Hpl]. inversion Hpl as [|? ? Hpi Hpl']; subst. unfold fst_le in Hpi.
      destruct (eeqb_spec (fst i) (snd i)) as [e|n].
      { rewrite IH; auto. rewrite !epts_app, !epts_cons, epts_nil.
        assert (~ ein x i) by (intros [? ?]; rewrite e in *; eord). tauto. }
      destruct (eleb_spec (fst i) (snd p)); eneg.
      * destruct (eltb_spec (snd p) (snd i)); eneg.
        { rewrite IH; auto; simpl.
          2: split; [eord | exact Hpl'].
          rewrite !epts_cons. unfold ein; simpl.
          assert (ele (fst p) x /\ elt x (snd i) <->
                  (ele (fst p) x /\ elt x (snd p)) \/ (ele (fst i) x /\ elt x (snd i))); [|tauto].
          split; [intros [? ?]; destruct (elt_or_le x (snd p)); [left|right]; split; eord
                 | intros [[? ?]|[? ?]]; split; eord]. }
        { rewrite IH; auto; simpl. rewrite !epts_cons. unfold ein.
          assert (ele (fst i) x /\ elt x (snd i) -> ele (fst p) x /\ elt x (snd p)); [|tauto].
          intros [? ?]; split; eord. }
      * rewrite epts_cons, IH; auto; simpl. { now rewrite !epts_cons. }
        split; auto. destruct (ele_cases _ _ Hi); congruence.
    + destruct (eeqb_spec (fst i) (snd i)) as [e|n].
      { rewrite IH; auto. simpl. rewrite epts_cons.
        assert (~ ein x i) by (intros [? ?]; rewrite e in *; eord). tauto. }
      rewrite IH; auto; simpl. { reflexivity. }
      split; auto. destruct (ele_cases _ _ Hi); congruence.
Qed.

Lemma normal_cons i g :
  normal (i :: g) <-> elt (fst i) (snd i) /\ normal g /\
                      match g with [] => True | j :: _ => elt (snd i) (fst j) end.
Proof. destruct i, g as [|[]]; simpl; tauto. Qed.

Lemma merge_normal l : forall prev,
  valid l -> StronglySorted fst_le l ->
  match prev with None => True | Some p => elt (fst p) (snd p) end ->
  normal (merge prev l) /\
  match prev with
  | None => True
  | Some p => match merge prev l with [] => False | j :: _ => fst j = fst p end
  end.
Proof.
  induction l as [|i l IH]; intros prev Hv Hs Hp; simpl.
  - destruct prev as [p|]; simpl; auto. destruct p; simpl in *; auto.
  - inversion Hv as [|? ? Hi Hv']; subst. inversion Hs as [|? ? Hs' Hf]; subst.
    destruct prev as [p|]; simpl.
    + destruct (eeqb_spec (fst i) (snd i)) as [e|n].
      { apply (IH (Some p)); auto. }
      assert (Hi' : elt (fst i) (snd i)) by (destruct (ele_cases _ _ Hi); congruence).
      destruct (eleb_spec (fst i) (snd p)); eneg.
      * destruct (eltb_spec (snd p) (snd i)); eneg.
        { assert (H : elt (fst (fst p, snd i)) (snd (fst p, snd i))) by (simpl; eord).
          exact (IH (Some (fst p, snd i)) Hv' Hs' H). }
        { apply (IH (Some p)); auto. }
      * destruct (IH (Some i) Hv' Hs' Hi') as [N M].
        split; auto. apply normal_cons; repeat split; auto.
        destruct (merge (Some i) l); auto. now rewrite M.
    + destruct (eeqb_spec (fst i) (snd i)) as [e|n].
      { apply (IH None); auto. }
      assert (Hi' : elt (fst i) (snd i)) by (destruct (ele_cases _ _ Hi); congruence).
      destruct (IH (Some i) Hv' Hs' Hi') as [N M]. split; auto.
Qed.

Lemma valid_sort l : valid l -> valid (sort_by iv_ltb l).
Proof. unfold valid. now rewrite sort_by_Forall. Qed.

Lemma normalize_normal l : valid l -> normal (normalize l).
Proof. intros. apply (merge_normal _ None); auto using valid_sort, sort_fst_sorted. Qed.
Lemma normalize_epts l x : valid l -> epts (normalize l) x <-> epts l x.
Proof.
  intros. unfold normalize. rewrite merge_epts; auto using valid_sort, sort_fst_sorted.
  simpl. apply epts_perm, sort_by_perm.
Qed.

(** ** facts about normal lists *)
Lemma normal_valid g : normal g -> valid g.
Proof.
  induction g as [|i g IH]; intros H; constructor; apply normal_cons in H; destruct H as (? & ? & ?).
  - now apply elt_le.
  - now apply IH.
Qed.
Lemma normal_after i g : normal (i :: g) -> Forall (fun j => elt (snd i) (fst j)) g.
Proof.
  revert i. induction g as [|j g IH]; intros i H; constructor; apply normal_cons in H;
    destruct H as (? & H & ?); auto.
  specialize (IH _ H). apply normal_cons in H. destruct H as (? & ? & ?).
  eapply Forall_impl; [|apply IH]. simpl; intros. eord.
Qed.
Lemma normal_below i g x : normal (i :: g) -> ele x (snd i) -> ~ epts g x.
Proof.
  intros N H (j & Hj & [E1 E2]). apply normal_after in N. rewrite Forall_forall in N.
  specialize (N _ Hj). simpl in N. eord.
Qed.
Lemma normal_lt_fst i g x : normal (i :: g) -> elt x (fst i) -> ~ epts (i :: g) x.
Proof.
  intros N H. rewrite epts_cons. apply normal_cons in N as N'. destruct N' as (N1 & _ & _).
  intros [[E1 E2]|E]; [eord|]. revert E. apply (normal_below i); auto. eord.
Qed.

(** canonical: same rational points, same list *)
Lemma normal_canonical g : forall h,
  normal g -> normal h -> (forall x, pts g x <-> pts h x) -> g = h.
Proof.
  induction g as [|[a b] g IH]; intros [|[c d] h] Ng Nh E; auto.
  - exfalso. apply normal_cons in Nh as (N & _). destruct (edense _ _ N) as (x & H1 & H2).
    apply (epts_nil (Fin x)), E. exists (c, d). split; simpl; auto. split; auto.
  - exfalso. apply normal_cons in Ng as (N & _). destruct (edense _ _ N) as (x & H1 & H2).
    apply (epts_nil (Fin x)), E. exists (a, b). split; simpl; auto. split; auto.
  - pose proof (proj1 (normal_cons _ _) Ng) as (N1 & N2 & N3).
    pose proof (proj1 (normal_cons _ _) Nh) as (M1 & M2 & M3). simpl in N1, M1.
    assert (A : forall a b c d g h, normal ((a, b) :: g) -> normal ((c, d) :: h) ->
        (forall x, pts ((a, b) :: g) x <-> pts ((c, d) :: h) x) -> ele c a).
    { clear. intros a b c d g h Ng Nh E. destruct (elt_or_le a c) as [L|L]; auto. exfalso.
      apply normal_cons in Ng as (N1 & _).
      destruct (edense2 _ _ _ L N1) as (x & H1 & H2 & H3).
      apply (normal_lt_fst _ _ (Fin x) Nh H2). apply E. exists (a, b). split; simpl; auto. split; auto. }
    assert (a = c) as ->.
    { apply ele_antisym; [eapply (A c d a b h g) | eapply (A a b c d g h)]; eauto.
      intros; symmetry; auto. }
    assert (B : forall b d g h, normal ((c, b) :: g) -> normal ((c, d) :: h) ->
        (forall x, pts ((c, b) :: g) x <-> pts ((c, d) :: h) x) -> ele d b).
    { clear. intros b d g h Ng Nh E. destruct (elt_or_le b d) as [L|L]; auto. exfalso.
      apply normal_cons in Ng as (N1 & N2 & N3). apply normal_cons in Nh as (M1 & M2 & M3). simpl in *.
      assert (exists x, ele b (Fin x) /\ elt (Fin x) d /\ ~ epts g (Fin x)) as (x & X1 & X2 & X3).
      { destruct g as [|j g].
        - destruct (edense _ _ L) as (x & ? & ?). exists x. rewrite epts_nil. auto.
        - destruct (edense2 _ _ _ L N3) as (x & ? & ? & ?). exists x.
          repeat split; auto. apply normal_lt_fst; auto. }
      assert (P : pts ((c, b) :: g) x).
      { apply E. exists (c, d). split; simpl; auto. split; simpl; auto. eord. }
      apply pts_epts, epts_cons in P. destruct P as [[? P]|P]; auto. simpl in P. eord. }
    assert (b = d) as ->.
    { apply ele_antisym; [eapply (B d b h g) | eapply (B b d g h)]; eauto.
      intros; symmetry; auto. }
    f_equal. apply IH; auto. intros x. specialize (E x).
    rewrite !pts_epts, !epts_cons in E. rewrite !pts_epts.
    destruct (elt_or_le (Fin x) d).
    + split; intros P; exfalso; revert P; eapply normal_below; eauto; simpl; now apply elt_le.
    + assert (~ ein (Fin x) (c, d)) by (intros [? ?]; simpl in *; eord). tauto.
Qed.

Lemma normalize_id g : normal g -> normalize g = g.
Proof.
  intros. apply normal_canonical; auto using normalize_normal, normal_valid.
  intros. rewrite !pts_epts. apply normalize_epts, normal_valid; auto.
Qed.

(** ** complement *)
Fixpoint gaps (lo : ext) (g : list iv) : list iv :=
  match g with [] => [(lo, PInf)] | (a, b) :: g' => (lo, a) :: gaps b g' end.
Lemma inv_pairs g : combine (evens (inv_points g)) (odds (inv_points g)) = gaps NInf g.
Proof.
  unfold inv_points. simpl app. generalize NInf as lo.
  induction g as [|[a b] g IH]; intros; simpl; auto.
  f_equal. rewrite <- IH. reflexivity.
Qed.
Lemma gaps_valid g : forall lo, normal g -> match g with [] => True | i :: _ => ele lo (fst i) end ->
  valid (gaps lo g).
Proof.
  induction g as [|[a b] g IH]; intros lo N H; simpl.
  - repeat constructor. apply ele_PInf.
  - constructor; simpl; auto. apply normal_cons in N as (N1 & N2 & N3). apply IH; auto.
    destruct g; auto. now apply elt_le.
Qed.
Lemma gaps_epts g : forall lo, normal g -> match g with [] => True | i :: _ => ele lo (fst i) end ->
  forall x, elt x PInf -> (epts (gaps lo g) x <-> ele lo x /\ ~ epts g x).
Proof.
  induction g as [|[a b] g IH]; intros lo N H x Hx; simpl.
  - rewrite epts_cons, !epts_nil. unfold ein; simpl. tauto.
  - pose proof (proj1 (normal_cons _ _) N) as (N1 & N2 & N3). simpl in N1, N3, H.
    rewrite epts_cons, IH; auto. 2: destruct g; auto; now apply elt_le.
    rewrite epts_cons. unfold ein; simpl.
    pose proof (normal_below _ _ x N) as NB. simpl in NB.
    destruct (elt_or_le x a).
    + assert (elt x b) by eord. assert (ele x b) by eord.
      split; [intros [[? ?]|[? ?]] | intros [? ?]].
      * split; auto. intros [[? ?]|?]; [eord | tauto].
      * exfalso. eord.
      * left; split; auto.
    + destruct (elt_or_le x b).
      * split; [intros [[? ?]|[? ?]] | intros [? Z]]; exfalso; try eord. apply Z. left; auto.
      * split; [intros [[? ?]|[? ?]] | intros [? Z]].
        { exfalso; eord. }
        { split; [eord|]. intros [[? ?]|?]; [eord | tauto]. }
        { right; split; auto. }
Qed.
Definition inv_pure (g : geom1d) : geom1d := normalize (gaps NInf g).
Lemma g_invert_ok g : normal g -> g_invert g = Ok (inv_pure g).
Proof.
  intros. unfold g_invert. rewrite inv_pairs. apply geom1d_of_valid.
  apply gaps_valid; auto. destruct g; simpl; auto.
Qed.
Lemma inv_valid g : normal g -> valid (gaps NInf g).
Proof. intros; apply gaps_valid; auto. destruct g; simpl; auto. Qed.
Lemma inv_normal g : normal g -> normal (inv_pure g).
Proof. intros. apply normalize_normal, inv_valid; auto. Qed.
Lemma inv_epts g x : normal g -> elt x PInf -> (epts (inv_pure g) x <-> ~ epts g x).
Proof.
  intros. unfold inv_pure. rewrite normalize_epts by auto using inv_valid.
  rewrite gaps_epts; auto. 2: destruct g; simpl; auto.
  pose proof (ele_NInf x). tauto.
Qed.

Definition or_pure (a b : geom1d) : geom1d := normalize (a ++ b).
Lemma app_valid a b : valid a -> valid b -> valid (a ++ b).
Proof. intros; apply Forall_app; auto. Qed.
Lemma or_valid a b : normal a -> normal b -> valid (a ++ b).
Proof. auto using app_valid, normal_valid. Qed.
Lemma g_or_ok a b : normal a -> normal b -> g_or a b = Ok (or_pure a b).
Proof. intros. apply geom1d_of_valid, or_valid; auto. Qed.
Lemma or_normal a b : normal a -> normal b -> normal (or_pure a b).
Proof. intros. apply normalize_normal, or_valid; auto. Qed.
Lemma or_epts a b x : normal a -> normal b -> (epts (or_pure a b) x <-> epts a x \/ epts b x).
Proof. intros. unfold or_pure. now rewrite normalize_epts, epts_app by auto using or_valid. Qed.

Definition and_pure (a b : geom1d) : geom1d := inv_pure (or_pure (inv_pure a) (inv_pure b)).
Lemma g_and_ok a b : normal a -> normal b -> g_and a b = Ok (and_pure a b).
Proof.
  intros. unfold g_and. rewrite !g_invert_ok; auto; simpl.
  rewrite g_or_ok by auto using inv_normal; simpl.
  now rewrite g_invert_ok by auto using or_normal, inv_normal.
Qed.
Lemma and_normal a b : normal a -> normal b -> normal (and_pure a b).
Proof. intros; unfold and_pure; auto using or_normal, inv_normal. Qed.
Lemma epts_dec g x : epts g x \/ ~ epts g x.
Proof.
  induction g as [|i g IH].
  - right; now rewrite epts_nil.
  - rewrite epts_cons. unfold ein.
    destruct (eleb_spec (fst i) x), (eltb_spec x (snd i)), IH; tauto.
Qed.
Lemma and_epts a b x : normal a -> normal b -> elt x PInf ->
  (epts (and_pure a b) x <-> epts a x /\ epts b x).
Proof.
  intros. unfold and_pure.
  rewrite inv_epts, or_epts, !inv_epts by auto using or_normal, inv_normal.
  destruct (epts_dec a x), (epts_dec b x); tauto.
Qed.

Definition sub_pure (a b : geom1d) : geom1d := and_pure a (inv_pure b).
Lemma g_sub_ok a b : normal a -> normal b -> g_sub a b = Ok (sub_pure a b).
Proof. intros. unfold g_sub. rewrite g_invert_ok; auto; simpl. apply g_and_ok; auto using inv_normal. Qed.
Lemma sub_normal a b : normal a -> normal b -> normal (sub_pure a b).
Proof. intros; unfold sub_pure; auto using and_normal, inv_normal. Qed.
Lemma sub_epts a b x : normal a -> normal b -> elt x PInf ->
  (epts (sub_pure a b) x <-> epts a x /\ ~ epts b x).
Proof. intros. unfold sub_pure. rewrite and_epts, inv_epts by auto using inv_normal. tauto. Qed.

Definition xor_pure (a b : geom1d) : geom1d := or_pure (and_pure (inv_pure a) b) (and_pure a (inv_pure b)).
Lemma g_xor_ok a b : normal a -> normal b -> g_xor a b = Ok (xor_pure a b).
Proof.
  intros. unfold g_xor. rewrite g_invert_ok; auto; simpl.
  rewrite g_and_ok by auto using inv_normal; simpl. rewrite g_invert_ok; auto; simpl.
  rewrite g_and_ok by auto using inv_normal; simpl.
  apply g_or_ok; auto using and_normal, inv_normal.
Qed.
Lemma xor_normal a b : normal a -> normal b -> normal (xor_pure a b).
Proof. intros; unfold xor_pure; auto using or_normal, and_normal, inv_normal. Qed.
Lemma xor_epts a b x : normal a -> normal b -> elt x PInf ->
  (epts (xor_pure a b) x <-> (~ epts a x /\ epts b x) \/ (epts a x /\ ~ epts b x)).
Proof.
  intros. unfold xor_pure.
  rewrite or_epts, !and_epts, !inv_epts by auto using and_normal, inv_normal. tauto.
Qed.

(** ** filter, pieces *)
Lemma normal_filter f g : normal g -> normal (filter f g).
Proof.
  induction g as [|i g IH]; intros N; simpl; auto.
  pose proof (normal_after _ _ N) as A. apply normal_cons in N as (N1 & N2 & N3).
  destruct (f i); auto. apply normal_cons. repeat split; auto.
  destruct (filter f g) as [|j h] eqn:E; auto.
  rewrite Forall_forall in A. apply A. assert (In j (filter f g)) by (rewrite E; simpl; auto).
  apply filter_In in H; tauto.
Qed.
Lemma g_filter_ok f g : normal g -> g_filter f g = Ok (filter (fun i => f (fst i) (snd i)) g).
Proof.
  intros. unfold g_filter. rewrite geom1d_of_valid by auto using normal_valid, normal_filter.
  now rewrite normalize_id by auto using normal_filter.
Qed.
Lemma normal_single i : elt (fst i) (snd i) -> normal [i].
Proof. destruct i; simpl; auto. Qed.
Lemma normal_In g i : normal g -> In i g -> elt (fst i) (snd i).
Proof.
  induction g as [|j g IH]; simpl; [tauto|]. intros N. apply normal_cons in N as (N1 & N2 & N3).
  intros [<-|]; auto.
Qed.
Lemma disjoint_pieces_ok g : normal g -> disjoint_pieces g = Ok (map (fun i => [i]) g).
Proof.
  intros N. apply mapM_total. intros i Hi. apply normal_In in Hi; auto.
  rewrite geom1d_of_valid by auto using normal_valid, normal_single.
  now rewrite normalize_id by auto using normal_single.
Qed.

(** ** locate *)
Lemma locate_boundary g p : normal g ->
  (locate g p = 0%Z <-> exists i, In i g /\ (fst i = Fin p \/ snd i = Fin p)).
Proof.
  induction g as [|[a b] g IH]; intros N; simpl.
  - split; [discriminate | intros (? & [] & _)].
  - pose proof (normal_after _ _ N) as A. apply normal_cons in N as (N1 & N2 & N3). simpl in *.
    destruct (eeqb_spec a (Fin p)) as [e|n]; simpl.
    { split; auto. intros _. exists (a, b); simpl; auto. }
    destruct (eeqb_spec b (Fin p)) as [e|n']; simpl.
    { split; auto. intros _. exists (a, b); simpl; auto. }
    assert (L : elt (Fin p) b -> exists i, ((a, b) = i \/ In i g) /\ (fst i = Fin p \/ snd i = Fin p) -> False).
    { intros. exists (a, b). intros [_ [?|?]]; simpl in *; congruence. }
    clear L.
    assert (L : elt (Fin p) b -> (exists i, ((a, b) = i \/ In i g) /\ (fst i = Fin p \/ snd i = Fin p)) -> False).
    { intros Hb (i & [<-|Hi] & [E|E]); simpl in *; try congruence.
      - rewrite Forall_forall in A. specialize (A _ Hi). rewrite E in A. eord.
      - rewrite Forall_forall in A. specialize (A _ Hi). apply normal_In in Hi; auto. rewrite E in Hi. eord. }
    destruct (eltb_spec a (Fin p)); simpl; eneg.
    + destruct (eltb_spec (Fin p) b); simpl; eneg.
      { split; [discriminate|]. tauto. }
      destruct (eltb_spec (Fin p) a); [exfalso; eord|].
      rewrite IH; auto. split.
      * intros (i & ? & ?). exists i; auto.
      * intros (i & [<-|Hi] & [E|E]); simpl in *; try congruence; exists i; auto.
    + assert (elt (Fin p) a) by (destruct (ele_cases _ _ n0); congruence).
      destruct (eltb_spec (Fin p) a); [|tauto].
      split; [discriminate|]. intros. exfalso. apply L; auto. eord.
Qed.
Lemma locate_inside g p : normal g ->
  (locate g p = 1%Z <-> exists i, In i g /\ elt (fst i) (Fin p) /\ elt (Fin p) (snd i)).
Proof.
  induction g as [|[a b] g IH]; intros N; simpl.
  - split; [discriminate | intros (? & [] & _)].
  - pose proof (normal_after _ _ N) as A. apply normal_cons in N as (N1 & N2 & N3). simpl in *.
    assert (L : ele (Fin p) b -> (exists i, ((a, b) = i \/ In i g) /\ elt (fst i) (Fin p) /\ elt (Fin p) (snd i)) ->
                elt a (Fin p) /\ elt (Fin p) b).
    { intros Hb (i & [<-|Hi] & E1 & E2); simpl in *; auto. exfalso.
      rewrite Forall_forall in A. specialize (A _ Hi). eord. }
    destruct (eeqb_spec a (Fin p)) as [e|n]; simpl.
    { split; [discriminate|]. intros H. destruct L; auto. { subst. eord. } subst. exfalso; eord. }
    destruct (eeqb_spec b (Fin p)) as [e|n']; simpl.
    { split; [discriminate|]. intros H. destruct L; auto. { subst. apply ele_refl. } subst. exfalso; eord. }
    destruct (eltb_spec a (Fin p)); simpl; eneg.
    + destruct (eltb_spec (Fin p) b); simpl; eneg.
      { split; auto. intros _. exists (a, b). auto. }
      destruct (eltb_spec (Fin p) a); [exfalso; eord|].
      rewrite IH; auto. split.
      * intros (i & ? & ?). exists i; auto.
      * intros (i & [<-|Hi] & E1 & E2); simpl in *; [exfalso; eord|]. exists i; auto.
    + assert (elt (Fin p) a) by (destruct (ele_cases _ _ n0); congruence).
      destruct (eltb_spec (Fin p) a); [|tauto].
      split; [discriminate|]. intros. exfalso. destruct L; auto; eord.
Qed.
Lemma locate_range g p : locate g p = 0%Z \/ locate g p = 1%Z \/ locate g p = (-1)%Z.
Proof.
  induction g as [|[a b] g IH]; simpl; auto. destruct (_ || _); auto. destruct (_ && _); auto.
  destruct (eltb _ _); auto.
Qed.
