(** Buffer, measure and constructor proofs for Model/Geom1d.v. *)
From Verif.Proofs Require Export Geom1dP.

(** ** buffer *)
Lemma buffer_raw_valid g q : valid (buffer_raw g q).
Proof.
  unfold valid, buffer_raw. apply Forall_flat_map, Forall_forall. intros i _.
  simpl. ecase1; constructor; auto. simpl. eord.
Qed.
Definition buffer_pure g q := normalize (buffer_raw g q).
Lemma buffer_q_ok g q : buffer_q g q = Ok (buffer_pure g q).
Proof. apply geom1d_of_valid, buffer_raw_valid. Qed.
Lemma buffer_normal g q : normal (buffer_pure g q).
Proof. apply normalize_normal, buffer_raw_valid. Qed.
Lemma buffer_epts g q x :
  epts (buffer_pure g q) x <->
  exists i, In i g /\ ele (eshift (fst i) (- q)) x /\ elt x (eshift (snd i) q).
Proof.
  unfold buffer_pure. rewrite normalize_epts by apply buffer_raw_valid.
  unfold epts, buffer_raw. setoid_rewrite in_flat_map. split.
  - intros (j & (i & Hi & Hj) & E). exists i. split; auto.
    simpl in Hj. revert Hj. ecase1; simpl; intros Hj; [tauto|]. destruct Hj as [<-|[]]. exact E.
  - intros (i & Hi & E1 & E2).
    exists (eshift (fst i) (- q), eshift (snd i) q). split; [|split; auto].
    exists i; split; auto. simpl. ecase1; simpl; auto. eord.
Qed.

Lemma buffer_minkowski g q x : normal g -> 0 <= q ->
  (pts (buffer_pure g q) x <-> exists y, pts g y /\ x - q <= y /\ y <= x + q).
Proof.
  intros N Hq. rewrite pts_epts, buffer_epts. split.
  - intros ((a, b) & Hi & E1 & E2). simpl in *. pose proof (normal_In _ _ N Hi) as Hab. simpl in Hab.
    assert (exists y, ele a (Fin y) /\ elt (Fin y) b /\ x - q <= y /\ y <= x + q) as (y & Y1 & Y2 & Y3).
    { destruct a as [|a|], b as [|b|]; unfold ele, elt in *; simpl in *; try tauto.
      - destruct (qltb_spec x b).
        + exists x. repeat split; auto; qlra.
        + exists (x - q). repeat split; auto; qlra.
      - exists x. repeat split; auto; qlra.
      - destruct (qleb_spec a x).
        + destruct (qltb_spec x b).
          * exists x. repeat split; auto; qlra.
          * destruct (qleb_spec a (x - q)).
            { exists (x - q). repeat split; auto; qlra. }
            { exists a. repeat split; auto; qlra. }
        + exists a. repeat split; auto; qlra.
      - destruct (qleb_spec a x).
        + exists x. repeat split; auto; qlra.
        + exists a. repeat split; auto; qlra. }
    exists y. split; auto. exists (a, b). split; auto. split; auto.
  - intros (y & ((a, b) & Hi & E1 & E2) & Y1 & Y2). exists (a, b). split; auto. simpl in *.
    destruct a as [|a|], b as [|b|]; unfold ele, elt in *; simpl in *; try tauto;
      repeat split; auto; qlra.
Qed.

(** a normal geom that contains a whole closed rational range has one interval that does *)
Lemma normal_connected g lo hi : normal g -> lo <= hi ->
  (forall y, lo <= y -> y <= hi -> pts g y) ->
  exists i, In i g /\ ele (fst i) (Fin lo) /\ elt (Fin hi) (snd i).
Proof.
  intros N Hl H. destruct (H lo) as (i & Hi & [E1 E2]); try qlra.
  exists i. split; auto. split; auto.
  destruct (elt_or_le (Fin hi) (snd i)); auto. exfalso.
  destruct i as (a, b). simpl in *. destruct b as [|b|]; unfold ele, elt in *; simpl in *; try tauto.
  destruct (H b) as ((c, d) & Hj & [F1 F2]); try qlra.
  clear H E1 H0 Hl.
  induction g as [|i g IH]; simpl in *; [tauto|].
  pose proof (normal_after _ _ N) as A. rewrite Forall_forall in A.
  apply normal_cons in N as (N1 & N2 & N3).
  destruct Hi as [-> | Hi], Hj as [Hj|Hj].
  - inversion Hj; subst. eapply elt_irrefl; apply F2.
  - specialize (A _ Hj). simpl in A. eapply elt_irrefl. eapply elt_le_trans; eauto.
  - subst i. specialize (A _ Hi). simpl in *. apply normal_In in Hi; auto. simpl in *.
    assert (elt d (Fin b)) by eord. eord.
  - auto.
Qed.

Lemma buffer_erosion g q x : normal g -> 0 <= q ->
  (pts (buffer_pure g (- q)) x <-> forall y, x - q <= y -> y <= x + q -> pts g y).
Proof.
  intros N Hq. rewrite pts_epts, buffer_epts. split.
  - intros ((a, b) & Hi & E1 & E2) y Y1 Y2. exists (a, b). split; auto. unfold in_iv. simpl in *.
    destruct a as [|a|], b as [|b|]; unfold ele, elt in *; simpl in *; try tauto;
      repeat split; auto; qlra.
  - intros H. destruct (normal_connected g (x - q) (x + q)) as ((a, b) & Hi & E1 & E2); auto; try qlra.
    exists (a, b). split; auto. simpl in *.
    destruct a as [|a|], b as [|b|]; unfold ele, elt in *; simpl in *; try tauto;
      repeat split; auto; qlra.
Qed.

(** opening: shrink by e then grow by e = drop the pieces of length <= 2e *)
Definition longer (e : Qc) (a b : ext) : bool := negb (eleb (eshift b (- e)) (eshift a e)).
Lemma shrink_raw g e : buffer_raw g (- e) =
  map (fun i => (eshift (fst i) e, eshift (snd i) (- e))) (filter (fun i => longer e (fst i) (snd i)) g).
Proof.
  unfold buffer_raw. induction g as [|i g IH]; simpl; auto.
  rewrite IH. unfold longer. replace (- - e) with e by ring.
  destruct (eleb _ _); reflexivity.
Qed.
Lemma eshift_lt a b e : elt (eshift a e) (eshift b e) <-> elt a b.
Proof. destruct a, b; unfold elt; simpl; try tauto. split; intros; qlra. Qed.
Lemma shrink_normal g e : 0 < e -> normal g -> normal (buffer_raw g (- e)).
Proof.
  intros He N. rewrite shrink_raw.
  assert (N' : normal (filter (fun i => longer e (fst i) (snd i)) g)) by now apply normal_filter.
  assert (F : Forall (fun i => longer e (fst i) (snd i) = true) (filter (fun i => longer e (fst i) (snd i)) g)).
  { apply Forall_forall. intros i Hi. apply filter_In in Hi. tauto. }
  revert N' F. generalize (filter (fun i => longer e (fst i) (snd i)) g) as l.
  induction l as [|i l IH]; intros N' F; simpl; auto.
  inversion F as [|? ? F1 F2]; subst. apply normal_cons in N' as (N1 & N2 & N3).
  assert (elt (eshift (fst i) e) (eshift (snd i) (- e))).
  { unfold longer in F1. revert F1. ecase1; simpl; intros; [discriminate|auto]. }
  specialize (IH N2 F2). repeat split; auto.
  destruct l as [|[c d] l]; simpl; auto. simpl in N3.
  destruct (snd i), c; unfold elt in *; simpl in *; auto. qlra.
Qed.
Lemma opening g e : 0 < e -> normal g ->
  buffer_pure (buffer_pure g (- e)) e = filter (fun i => longer e (fst i) (snd i)) g.
Proof.
  intros He N. unfold buffer_pure at 2. rewrite normalize_id by now apply shrink_normal.
  rewrite shrink_raw.
  assert (E : buffer_raw (map (fun i => (eshift (fst i) e, eshift (snd i) (- e)))
            (filter (fun i => longer e (fst i) (snd i)) g)) e
          = filter (fun i => longer e (fst i) (snd i)) g).
  { assert (F : forall i, In i (filter (fun i => longer e (fst i) (snd i)) g) -> elt (fst i) (snd i)).
    { intros i Hi. apply filter_In in Hi. eapply normal_In; eauto. tauto. }
    induction (filter (fun i => longer e (fst i) (snd i)) g) as [|[a b] l IH]; simpl; auto.
    assert (E1 : eshift (eshift a e) (- e) = a) by (destruct a; simpl; auto; f_equal; ring).
    assert (E2 : eshift (eshift b (- e)) e = b) by (destruct b; simpl; auto; f_equal; ring).
    rewrite E1, E2. specialize (F (a, b) (or_introl eq_refl)) as F'. simpl in F'.
    ecase1; [exfalso; eord|]. simpl. f_equal. apply IH. intros; apply F; simpl; auto. }
  unfold buffer_pure. rewrite E. apply normalize_id, normal_filter; auto.
Qed.
Lemma longer_spec e a b : longer e a b = true <->
  match a, b with
  | Fin p, Fin q => e + e < q - p
  | NInf, NInf => False | PInf, _ => False | _, NInf => False
  | _, _ => True
  end.
Proof.
  unfold longer. destruct a as [|p|], b as [|q|]; simpl;
    try (cbv [eleb]; simpl; split; [discriminate || tauto | tauto || auto]; fail).
  ecase1; simpl; unfold ele, elt in *; split; auto; try discriminate; intros; qlra.
Qed.

(** ** measure *)
Definition eplus (a b : ext) : ext :=
  match a, b with Fin p, Fin q => Fin (p + q) | _, _ => PInf end.
Definition elen (a b : ext) : ext :=
  if eleb b a then Fin 0 else match a, b with Fin p, Fin q => Fin (q - p) | _, _ => PInf end.
Fixpoint mes (g : list iv) : ext :=
  match g with [] => Fin 0 | i :: g' => eplus (elen (fst i) (snd i)) (mes g') end.
Definition nneg (a : ext) := ele (Fin 0) a.

Lemma eplus_comm a b : eplus a b = eplus b a.
Proof. destruct a, b; simpl; auto. f_equal; ring. Qed.
Lemma eplus_assoc a b c : eplus (eplus a b) c = eplus a (eplus b c).
Proof. destruct a, b, c; simpl; auto. f_equal; ring. Qed.
Lemma elen_nneg a b : nneg (elen a b).
Proof.
  unfold elen, nneg. ecase1; auto.
  destruct a, b; unfold elt, ele in *; simpl in *; auto; qlra.
Qed.
Lemma eplus_nneg a b : nneg a -> nneg b -> nneg (eplus a b).
Proof. unfold nneg. destruct a, b; unfold ele; simpl; auto. intros; qlra. Qed.
Lemma eplus_0 a : nneg a -> eplus (Fin 0) a = a.
Proof. unfold nneg, ele. destruct a; simpl; auto; [tauto|]. intros; f_equal; ring. Qed.
Lemma mes_nneg g : nneg (mes g).
Proof. induction g; simpl; auto using eplus_nneg, elen_nneg. unfold nneg; auto. Qed.
Lemma elen_pos a b : elt a b -> elt (Fin 0) (elen a b).
Proof.
  intros H. unfold elen. ecase1; [exfalso; eord|].
  destruct a, b; unfold elt in *; simpl in *; auto; qlra.
Qed.
Lemma esub_elen a b : elt a b -> esub b a = Some (elen a b).
Proof.
  intros H. unfold elen. ecase1; [exfalso; eord|].
  destruct a, b; unfold elt in *; simpl in *; auto; tauto.
Qed.
Lemma oadd_eplus a b : nneg a -> nneg b -> oadd (Some a) (Some b) = Some (eplus a b).
Proof. unfold nneg, ele. destruct a, b; simpl; auto; tauto. Qed.
Lemma measure_mes g : normal g -> measure1d g = Some (mes g).
Proof.
  unfold measure1d. intros N.
  enough (G : forall acc, nneg acc ->
    fold_left (fun acc i => oadd acc (esub (snd i) (fst i))) g (Some acc) = Some (eplus acc (mes g))).
  { rewrite G; [|unfold nneg; auto]. now rewrite eplus_0 by apply mes_nneg. }
  induction g as [|i g IH]; intros acc Ha; cbn [fold_left mes].
  - f_equal. unfold nneg, ele in Ha. destruct acc; simpl; auto; [tauto|]. f_equal; ring.
  - apply normal_cons in N as (N1 & N2 & N3). rewrite esub_elen by auto.
    rewrite oadd_eplus by auto using elen_nneg.
    rewrite IH by auto using eplus_nneg, elen_nneg. now rewrite eplus_assoc.
Qed.

(** common refinement *)
Fixpoint memb (g : list iv) (x : ext) : bool :=
  match g with [] => false | i :: g' => (eleb (fst i) x && eltb x (snd i)) || memb g' x end.
Lemma memb_spec g x : reflect (epts g x) (memb g x).
Proof.
  apply iff_reflect. induction g as [|i g IH]; simpl.
  - rewrite epts_nil. split; [tauto|discriminate].
  - rewrite epts_cons, IH, orb_true_iff, andb_true_iff, eleb_le, eltb_lt. reflexivity.
Qed.
Fixpoint msum (P : list ext) (g : list iv) : ext :=
  match P with
  | p :: (q :: _) as P' => eplus (if memb g p then elen p q else Fin 0) (msum P' g)
  | _ => Fin 0
  end.
Lemma msum_cons p q P g :
  msum (p :: q :: P) g = eplus (if memb g p then elen p q else Fin 0) (msum (q :: P) g).
Proof. reflexivity. Qed.
Definition ends (g : list iv) : list ext := flat_map (fun i => [fst i; snd i]) g.
Definition esorted := StronglySorted ele.

Lemma msum_ext P g h : (forall x, In x P -> memb g x = memb h x) -> msum P g = msum P h.
Proof.
  induction P as [|p [|q P] IH]; intros H; auto.
  rewrite ?msum_cons. rewrite (H p) by (simpl; auto). f_equal. apply IH. intros; apply H; simpl in *; auto.
Qed.
Lemma msum_nil P : msum P [] = Fin 0.
Proof. induction P as [|p [|q P] IH]; auto. rewrite msum_cons, IH. reflexivity. Qed.
Lemma ends_ge g p : normal g -> match g with [] => True | i :: _ => ele p (fst i) end ->
  Forall (ele p) (ends g).
Proof.
  destruct g as [|i g]; intros N H; [constructor|].
  pose proof (normal_after _ _ N) as A. apply Forall_forall. intros e He.
  unfold ends in He. apply in_flat_map in He. destruct He as (j & Hj & He).
  pose proof (normal_In _ _ N Hj) as L. apply normal_cons in N as (N1 & N2 & N3).
  assert (ele p (fst j)). { destruct Hj as [<-|Hj]; auto. rewrite Forall_forall in A. specialize (A _ Hj). simpl in A. eord. }
  simpl in He. destruct He as [<-|[<-|[]]]; auto. eord.
Qed.

Lemma elen_split a q b : elt a q -> ele q b -> elen a b = eplus (elen a q) (elen q b).
Proof.
  intros. unfold elen. destruct (eleb_spec b a); [exfalso; eord|].
  destruct (eleb_spec q a); [exfalso; eord|]. eneg.
  destruct (eleb_spec b q).
  - assert (q = b) as -> by eord. destruct a, b; unfold elt, ele in *; simpl in *; auto; try tauto.
    f_equal; ring.
  - eneg. destruct a, q, b; unfold elt, ele in *; simpl in *; auto; try tauto. f_equal; ring.
Qed.

Lemma mes_refine P : forall g, esorted P -> normal g -> incl (ends g) P -> mes g = msum P g.
Proof.
  induction P as [|p P IH]; intros g S N I.
  - destruct g as [|i g]; auto. exfalso. apply (I (fst i)). simpl; auto.
  - destruct g as [|[a b] g].
    { now rewrite msum_nil. }
    inversion S as [|? ? S' F]; subst. rewrite Forall_forall in F.
    pose proof (proj1 (normal_cons _ _) N) as (N1 & N2 & N3). simpl in N1, N3.
    assert (Hb : In b (p :: P)) by (apply I; simpl; auto).
    assert (Ha : In a (p :: P)) by (apply I; simpl; auto).
    destruct P as [|q P].
    { simpl in Ha, Hb. destruct Ha as [->|[]], Hb as [->|[]]. exfalso; eord. }
    assert (Hpq : ele p q) by (apply F; simpl; auto).
    inversion S' as [|? ? S'' F']; subst. rewrite Forall_forall in F'.
    destruct (eeqb_spec p a) as [->|n].
    + (* the first cell starts at a *)
      assert (Hb' : In b (q :: P)) by (destruct Hb; auto; subst; exfalso; eord).
      assert (Hqb : ele q b) by (destruct Hb' as [->|Hb']; auto).
      assert (Ig : incl (ends g) (q :: P)).
      { intros e He. destruct (I e) as [<-|]; auto. { simpl; auto. }
        exfalso. assert (Forall (ele b) (ends g)).
        { apply ends_ge; auto. destruct g; auto. now apply elt_le. }
        rewrite Forall_forall in H. specialize (H _ He). eord. }
      rewrite ?msum_cons. assert (memb ((a, b) :: g) a = true) as ->.
      { simpl. destruct (eleb_spec a a); [|elim n; auto]. destruct (eltb_spec a b); [auto|contradiction]. }
      destruct (ele_cases _ _ Hpq) as [Lq | ->].
      * destruct (ele_cases _ _ Hqb) as [Lb | ->].
        { rewrite (msum_ext (q :: P) ((a, b) :: g) ((q, b) :: g)).
          - rewrite <- IH; auto.
            + cbn [mes fst snd]. rewrite (elen_split a q b) by auto. now rewrite eplus_assoc.
            + apply normal_cons; repeat split; auto.
            + intros e [<-|[<-|He]]; [simpl; auto | exact Hb' | exact (Ig _ He)].
          - intros x Hx. simpl. f_equal. f_equal.
            assert (ele q x) by (destruct Hx as [->|Hx]; auto).
            destruct (eleb_spec a x), (eleb_spec q x); auto; exfalso; eneg; eord. }
        { rewrite (msum_ext (b :: P) ((a, b) :: g) g).
          - rewrite <- IH; auto.
          - intros x Hx. simpl. assert (ele b x) by (destruct Hx as [->|Hx]; auto).
            destruct (eltb_spec x b); [exfalso; eord|]. now rewrite andb_false_r. }
      * assert (elen q q = Fin 0) as ->.
        { unfold elen. destruct (eleb_spec q q); auto. elim n; auto. }
        rewrite <- IH; auto.
        -- rewrite eplus_0; auto. apply mes_nneg.
        -- intros e [<-|[<-|He]]; [simpl; auto | exact Hb' | exact (Ig _ He)].
    + (* the first cell is outside *)
      assert (ele p a) by (destruct Ha as [->|Ha]; [congruence|auto]).
      assert (elt p a) by (destruct (ele_cases _ _ H); [auto|congruence]).
      rewrite ?msum_cons. assert (memb ((a, b) :: g) p = false) as ->.
      { destruct (memb_spec ((a, b) :: g) p); auto. exfalso. revert e. apply normal_lt_fst; auto. }
      rewrite <- IH; auto.
      * now rewrite eplus_0 by apply mes_nneg.
      * intros e He. destruct (I e He) as [<-|]; auto. exfalso.
        assert (Forall (ele a) (ends ((a, b) :: g))) by (apply ends_ge; simpl; auto).
        rewrite Forall_forall in H1. specialize (H1 _ He). eord.
Qed.

Definition esort := sort_by eltb.
Lemma esort_sorted P : esorted (esort P).
Proof.
  assert (A : forall a b, eltb a b = true -> eltb b a = false).
  { intros a b. repeat ecase1; auto. intros _. exfalso; eord. }
  assert (T : forall a b c, eltb b a = false -> eltb c b = false -> eltb c a = false).
  { intros a b c. repeat ecase1; auto; intros; try discriminate. exfalso; eord. }
  pose proof (sort_by_sorted eltb A T P) as H. unfold esorted, esort.
  induction H as [|x t Hs IH Hf]; constructor; auto.
  eapply Forall_impl; [|apply Hf]. simpl. intros y. ecase1; [discriminate|auto].
Qed.
Lemma epts_PInf g : ~ epts g PInf.
Proof. intros (i & _ & _ & E). destruct (snd i); unfold elt in E; auto. Qed.

Lemma msum_additive P a b c d :
  (forall x, epts c x <-> epts a x \/ epts b x) -> (forall x, epts d x <-> epts a x /\ epts b x) ->
  eplus (msum P c) (msum P d) = eplus (msum P a) (msum P b).
Proof.
  intros Hc Hd. induction P as [|p [|q P] IH]; auto.
  rewrite ?msum_cons. set (L := elen p q).
  assert (E : forall u v w z, eplus (eplus u v) (eplus w z) = eplus (eplus u w) (eplus v z)).
  { intros. rewrite !eplus_assoc. f_equal. rewrite <- !eplus_assoc. f_equal. apply eplus_comm. }
  rewrite E, (E _ (msum (q :: P) a)), IH. f_equal.
  specialize (Hc p). specialize (Hd p).
  destruct (memb_spec a p), (memb_spec b p), (memb_spec c p), (memb_spec d p);
    try tauto; auto; try apply eplus_comm.
Qed.
Lemma msum_mono P a b : (forall x, epts a x -> epts b x) -> ele (msum P a) (msum P b).
Proof.
  intros H. induction P as [|p [|q P] IH]; auto.
  rewrite ?msum_cons. assert (M : forall u v w z, nneg u -> nneg v -> ele u w -> ele v z -> ele (eplus u v) (eplus w z)).
  { intros u v w z. unfold nneg, ele. destruct u, v, w, z; simpl; auto; try tauto. intros; qlra. }
  assert (Z : nneg (Fin 0)) by (unfold nneg; auto).
  assert (NN : forall P g, nneg (msum P g)).
  { clear -Z. intros P g. induction P as [|p [|q P] IH]; auto. rewrite ?msum_cons.
    apply eplus_nneg; auto. destruct (memb g p); auto using elen_nneg. }
  apply M; auto; destruct (memb_spec a p); auto using elen_nneg; destruct (memb_spec b p); auto.
  - exfalso; auto.
  - apply elen_nneg.
Qed.

Lemma mes_additive a b : normal a -> normal b ->
  eplus (mes (or_pure a b)) (mes (and_pure a b)) = eplus (mes a) (mes b).
Proof.
  intros Na Nb.
  set (P := esort (ends a ++ ends b ++ ends (or_pure a b) ++ ends (and_pure a b))).
  assert (I : forall l, incl l (ends a ++ ends b ++ ends (or_pure a b) ++ ends (and_pure a b)) -> incl l P).
  { intros l Hl e He. apply sort_by_in, Hl, He. }
  rewrite !(mes_refine P); auto using esort_sorted, or_normal, and_normal;
    try apply esort_sorted; try (apply I; intros e He; rewrite !in_app_iff; tauto).
  apply msum_additive.
  - intros; now apply or_epts.
  - intros x. destruct (elt_or_le x PInf).
    + now apply and_epts.
    + assert (x = PInf) as -> by (apply ele_antisym; auto). split; [intros K|intros [K _]]; exfalso; exact (epts_PInf _ K).
Qed.

Lemma or_absorb a b : normal a -> normal b -> (forall x, pts a x -> pts b x) -> or_pure a b = b.
Proof.
  intros. apply normal_canonical; auto using or_normal. intros x.
  rewrite !pts_epts, or_epts by auto. rewrite <- !pts_epts. specialize (H1 x). tauto.
Qed.
Lemma mes_mono a b : normal a -> normal b -> (forall x, pts a x -> pts b x) -> ele (mes a) (mes b).
Proof.
  intros Na Nb H.
  assert (H' : forall x, epts a x -> epts b x).
  { intros x Hx. rewrite <- (or_absorb a b) by auto. apply or_epts; auto. }
  set (P := esort (ends a ++ ends b)).
  assert (I : forall l, incl l (ends a ++ ends b) -> incl l P).
  { intros l Hl e He. apply sort_by_in, Hl, He. }
  rewrite !(mes_refine P); auto using esort_sorted;
    try apply esort_sorted; try (apply I; intros e He; rewrite !in_app_iff; tauto).
  now apply msum_mono.
Qed.
Lemma mes_zero g : normal g -> (mes g = Fin 0 <-> g = []).
Proof.
  destruct g as [|i g]; intros N; [simpl; tauto|]. split; [|discriminate]. intros E. exfalso.
  apply normal_cons in N as (N1 & _). apply elen_pos in N1.
  simpl in E. pose proof (mes_nneg g) as G. unfold nneg in G.
  destruct (elen _ _) as [|u|], (mes g) as [|v|]; simpl in E; try discriminate. unfold elt, ele in *.
  assert (u + v = 0) by congruence. qlra.
Qed.

Lemma mes_bounded g : normal g ->
  ((exists q, mes g = Fin q) <-> exists lo hi, forall x, pts g x -> lo <= x /\ x <= hi).
Proof.
  intros N. split.
  - intros (q & E). assert (F : forall i, In i g -> exists p r, i = (Fin p, Fin r)).
    { revert q E. induction g as [|[a b] g IH]; simpl; [tauto|]. intros q E i.
      pose proof (proj1 (normal_cons _ _) N) as (N1 & N2 & N3). simpl in N1.
      destruct (elen a b) as [|l|] eqn:El, (mes g) as [|m|] eqn:Em; simpl in E; try discriminate.
      intros [<-|Hi].
      - unfold elen in El. revert El. ecase1; [exfalso; eord|].
        destruct a, b; try discriminate; eauto. 
      - eapply IH; eauto. }
    clear E q N. induction g as [|i g IH].
    + exists 0, 0. intros x (? & [] & _).
    + destruct IH as (lo & hi & H). { intros; apply F; simpl; auto. }
      destruct (F i) as (p & r & ->); simpl; auto.
      exists (qmin lo p), (qmax hi r). intros x Hx. apply pts_epts, epts_cons in Hx.
      destruct Hx as [[E1 E2]|Hx].
      * unfold ele, elt, qmin, qmax in *; simpl in *. split; qcase1; qlra.
      * apply H in Hx. destruct Hx. unfold qmin, qmax. split; qcase1; qlra.
  - intros (lo & hi & H). induction g as [|[a b] g IH].
    + simpl; eauto.
    + pose proof (proj1 (normal_cons _ _) N) as (N1 & N2 & N3). simpl in N1.
      destruct IH as (q & E); auto. { intros x Hx. apply H, epts_cons. auto. }
      assert (K : forall x, ele a (Fin x) -> elt (Fin x) b -> lo <= x /\ x <= hi).
      { intros. apply H, epts_cons. left; split; auto. }
      simpl. rewrite E. unfold elen. ecase1; [exfalso; eord|].
      destruct a as [|a|], b as [|b|]; unfold elt, ele in *; simpl in *; try tauto; eauto; exfalso.
      * destruct (K (qmin (lo - 1) (b - 1))); auto; unfold qmin in *; qcase1; qlra.
      * destruct (K (lo - 1)); auto; qlra.
      * destruct (K (qmax (hi + 1) a)); auto; unfold qmax in *; qcase1; qlra.
Qed.

(** ** the constructor on Python values *)
Lemma sort_by_map {A B} (l1 : A -> A -> bool) (l2 : B -> B -> bool) (f : A -> B) l :
  (forall x y, In x l -> In y l -> l1 x y = l2 (f x) (f y)) ->
  map f (sort_by l1 l) = sort_by l2 (map f l).
Proof.
  unfold sort_by.
  enough (G : forall l acc, (forall x y, In x (l ++ acc) -> In y (l ++ acc) -> l1 x y = l2 (f x) (f y)) ->
     map f (fold_left (fun acc x => insert_by l1 x acc) l acc)
     = fold_left (fun acc x => insert_by l2 x acc) (map f l) (map f acc)).
  { intros H. rewrite (G l []); auto. now rewrite app_nil_r. }
  clear l. induction l as [|x l IH]; intros acc H; simpl; auto.
  rewrite IH.
  - f_equal. assert (E : forall y, In y acc -> l1 x y = l2 (f x) (f y)).
    { intros; apply H; simpl; auto. right. rewrite in_app_iff; auto. }
    clear -E. induction acc as [|y acc IH]; simpl; auto.
    rewrite <- E by (simpl; auto). destruct (l1 x y); simpl; auto. f_equal. apply IH.
    intros; apply E; simpl; auto.
  - intros u v Hu Hv. assert (Q : forall w, In w (l ++ insert_by l1 x acc) -> In w ((x :: l) ++ acc)).
    { intros w. rewrite !in_app_iff. intros [K|K]; simpl; auto.
      apply (Permutation_in _ (insert_by_perm l1 x acc)) in K. simpl in K. tauto. }
    apply H; auto.
Qed.

Lemma FFEOI_val v e : FractionFromExactOrInf v = Ok e -> pval v = Some e.
Proof. destruct v; simpl; intros H; try discriminate; minv; auto. Qed.
Lemma conv_val i p : conv_interval i = Ok p ->
  exists a b, i = [a; b] /\ FractionFromExactOrInf a = Ok (fst p) /\ FractionFromExactOrInf b = Ok (snd p) /\
              ele (fst p) (snd p).
Proof.
  destruct i as [|a [|b [|]]]; simpl; try discriminate. intros H. minv. simpl.
  exists a, b. repeat split; auto. apply FFEOI_val in E0, E1. unfold py_leb in E. rewrite E0, E1 in E.
  now apply eleb_le.
Qed.
Definition conv_pure (i : list pynum) : iv :=
  match conv_interval i with Ok p => p | Err _ => (NInf, NInf) end.
Lemma conv_cmp i j p q : conv_interval i = Ok p -> conv_interval j = Ok q -> pylist_ltb i j = iv_ltb p q.
Proof.
  intros Hi Hj. apply conv_val in Hi, Hj.
  destruct Hi as (a & b & -> & A & B & _), Hj as (c & d & -> & C & D & _).
  apply FFEOI_val in A, B, C, D.
  simpl. unfold py_eqb, py_ltb. rewrite A, B, C, D. unfold iv_ltb.
  destruct (eeqb_spec (fst p) (fst q)); auto. destruct (eeqb_spec (snd p) (snd q)) as [->|]; auto.
  symmetry. ecase1; auto. exfalso; eord.
Qed.
Lemma Geom1D_ok l : (forall i, In i l -> exists p, conv_interval i = Ok p) ->
  Geom1D l = Ok (normalize (map conv_pure l)) /\ valid (map conv_pure l).
Proof.
  intros H. assert (C : forall i, In i l -> conv_interval i = Ok (conv_pure i)).
  { intros i Hi. unfold conv_pure. destruct (H i Hi) as (p & ->). auto. }
  split.
  - unfold Geom1D. rewrite (mapM_total _ conv_pure).
    + simpl. unfold normalize. f_equal. f_equal.
      apply (sort_by_map pylist_ltb iv_ltb). intros x y Hx Hy. apply conv_cmp; auto.
    + intros a Ha. apply sort_by_in in Ha. auto.
  - apply Forall_forall. intros p Hp. apply in_map_iff in Hp. destruct Hp as (i & <- & Hi).
    destruct (conv_val _ _ (C i Hi)) as (? & ? & _ & _ & _ & ?). auto.
Qed.
Lemma Geom1D_inv l g : Geom1D l = Ok g -> forall i, In i l -> exists p, conv_interval i = Ok p.
Proof.
  unfold Geom1D. intros H i Hi. minv. apply mapM_ok in E.
  apply (sort_by_in pylist_ltb) in Hi.
  induction E; simpl in Hi; [tauto|]. destruct Hi as [<-|Hi]; eauto.
Qed.

(** end points of the result are end points of the input *)
Lemma merge_ends l : forall prev, incl (ends (merge prev l)) (ends (match prev with None => [] | Some p => [p] end ++ l)).
Proof.
  induction l as [|i l IH]; intros [p|]; simpl; try (intros z He; exact He).
  - destruct (eeqb (fst i) (snd i)).
    + intros z He. specialize (IH (Some p) z He). simpl in *. tauto.
    + destruct (eleb (fst i) (snd p)); [destruct (eltb (snd p) (snd i))|].
      * intros z He. specialize (IH (Some (fst p, snd i)) z He). simpl in *. tauto.
      * intros z He. specialize (IH (Some p) z He). simpl in *. tauto.
      * intros z He. simpl in He. destruct He as [He|[He|He]]; [simpl; auto..|]. specialize (IH (Some i) z He). simpl in *. tauto.
  - destruct (eeqb (fst i) (snd i)).
    + intros z He. specialize (IH None z He). simpl in *. tauto.
    + intros z He. specialize (IH (Some i) z He). simpl in *. tauto.
Qed.
Lemma normalize_ends l : incl (ends (normalize l)) (ends l).
Proof.
  intros e He. apply (merge_ends _ None) in He. simpl in He. unfold ends in *.
  apply in_flat_map in He. destruct He as (i & Hi & He). apply sort_by_in in Hi.
  apply in_flat_map. eauto.
Qed.
