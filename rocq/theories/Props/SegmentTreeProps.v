(** C23: SegmentTree1D.stab equals brute force. *)
From Verif.Model Require Export SegmentTree.
From Verif.Proofs Require Export PyP.

Section P.
Context {A : Type}.
Implicit Types (t : stree A) (s : seg A).

(** The set of values a node stands for. *)
Definition t_in t (v : Qc) : Prop :=
  (if t_clow t then t_min t <= v else t_min t < v) /\ (if t_chigh t then v <= t_max t else v < t_max t).

(** Shape invariant: children are adjacent, bounds are the children's. *)
Fixpoint wf t : Prop :=
  match t with
  | PointLeaf _ _ => True
  | RangeLeaf lo hi _ => lo < hi
  | SNode mn cl mx ch cut l r _ =>
      wf l /\ wf r /\ t_max l = cut /\ t_min r = cut /\ t_chigh l = negb (t_clow r)
      /\ mn = t_min l /\ cl = t_clow l /\ mx = t_max r /\ ch = t_chigh r
  end.
(** no end point inside an open range leaf *)
Fixpoint elem t (e : Qc) : Prop :=
  match t with
  | PointLeaf _ _ => True
  | RangeLeaf lo hi _ => e <= lo \/ hi <= e
  | SNode _ _ _ _ _ l r _ => elem l e /\ elem r e
  end.

Lemma wf_le t : wf t -> t_min t <= t_max t.
Proof.
  induction t; cbn [wf]; intros W; cbn; try qlra.
  destruct W as (W1 & W2 & Ha & Hb & _ & -> & _ & -> & _).
  specialize (IHt1 W1). specialize (IHt2 W2). qlra.
Qed.

Lemma add_bounds t s :
  t_min (add_segment t s) = t_min t /\ t_max (add_segment t s) = t_max t
  /\ t_clow (add_segment t s) = t_clow t /\ t_chigh (add_segment t s) = t_chigh t.
Proof. destruct t; simpl; repeat match goal with |- context [if ?b then _ else _] => destruct b end; auto. Qed.

Lemma add_wf t s : wf t -> wf (add_segment t s).
Proof.
  induction t; cbn [wf add_segment]; intros W.
  - destruct (_ && _); exact I.
  - destruct (_ && _); exact W.
  - repeat match goal with |- context [if ?b then _ else _] => destruct b end; auto.
    destruct (add_bounds t1 s) as (B1 & B2 & B3 & B4).
    destruct (add_bounds t2 s) as (B5 & B6 & B7 & B8).
    cbn [wf]. rewrite B1, B2, B3, B4, B5, B6, B7, B8. intuition.
Qed.
Lemma add_elem t s e : elem t e -> elem (add_segment t s) e.
Proof.
  induction t; cbn [elem add_segment]; intros W;
    repeat match goal with |- context [if ?b then _ else _] => destruct b end; cbn [elem]; intuition.
Qed.

(** The two facts about a descent. *)
Lemma descend_in t v mn cl mx ch cut l r segs :
  t = SNode mn cl mx ch cut l r segs -> wf t -> t_in t v ->
  if qltb v cut || (qeqb v cut && t_chigh l) then t_in l v else t_in r v.
Proof.
  intros -> (W1 & W2 & Ha & Hb & Hc & Hd & He & Hf & Hg). unfold t_in; cbn [t_clow t_chigh t_min t_max].
  intros (L & U). subst mn cl mx ch. rewrite Ha, Hb.
  destruct (t_chigh l) eqn:E, (t_clow r) eqn:E2; try discriminate;
    repeat qcase1; cbn [orb andb]; subst; (split; auto; try qlra).
  all: destruct (qc_not_eq _ _ n0); qlra.
Qed.

Lemma t_stab_add t s v : wf t -> t_in t v -> s_low s <= s_high s -> elem t (s_low s) -> elem t (s_high s) ->
  Permutation (t_stab (add_segment t s) v)
              ((if qleb (s_low s) v && qleb v (s_high s) then [s] else []) ++ t_stab t v).
Proof.
  intros W V LH EL EH. induction t.
  - cbn [add_segment]. destruct V as (V1 & V2); cbn in V1, V2.
    assert (v = value) by qlra. subst v.
    destruct (_ && _); cbn [t_stab app]; rewrite ?qeqb_refl; auto.
    symmetry. apply Permutation_cons_append.
  - cbn [add_segment]. destruct V as (V1 & V2); cbn in V1, V2, EL, EH.
    destruct (qltb_spec (s_low s) high), (qltb_spec low (s_high s)); cbn [andb t_stab];
    destruct (qleb_spec (s_low s) v), (qleb_spec v (s_high s)); cbn [andb app]; auto;
    try (exfalso; destruct EL, EH; qlra).
    destruct (_ && _) eqn:E.
    + symmetry. apply Permutation_cons_append.
    + exfalso. destruct (qltb_spec low v), (qltb_spec v high); try discriminate; qlra.
  - pose proof (descend_in _ v _ _ _ _ _ _ _ _ eq_refl W V) as D.
    pose proof V as (V1 & V2). cbn [t_clow t_chigh t_min t_max] in V1, V2.
    assert (Hmm : mn <= v /\ v <= mx).
    { split; [destruct clow|destruct chigh]; qlra. }
    destruct W as (W1 & W2 & Ha & Hb & Hc & Hd & He & Hf & Hg).
    destruct EL as (EL1 & EL2), EH as (EH1 & EH2).
    cbn [add_segment].
    destruct (inside_below_max mx chigh (s_low s)) eqn:I1; cbn [negb].
    2:{ destruct (qleb_spec (s_low s) v); cbn [andb app]; auto. exfalso.
        unfold inside_below_max in I1. destruct chigh; repeat qcase1; try discriminate; qlra. }
    destruct (inside_above_min mn clow (s_high s)) eqn:I2; cbn [negb].
    2:{ destruct (qleb_spec v (s_high s)); [|rewrite andb_false_r]; cbn [andb app]; auto. exfalso.
        unfold inside_above_min in I2. destruct clow; repeat qcase1; try discriminate; qlra. }
    destruct (qleb_spec (s_low s) mn), (qleb_spec mx (s_high s)); cbn [andb].
    1:{ destruct Hmm. cbn [t_stab].
        destruct (qleb_spec (s_low s) v), (qleb_spec v (s_high s)); try (exfalso; qlra).
        cbn [andb app]. destruct (qleb_spec mn v), (qleb_spec v mx); try (exfalso; qlra). cbn [andb].
        rewrite <- app_assoc. cbn [app]. symmetry. apply Permutation_middle. }
    all: cbn [t_stab]; rewrite (proj2 (proj2 (proj2 (add_bounds t1 s))));
      destruct (qltb v cut || _); [rewrite IHt1 by auto | rewrite IHt2 by auto];
      rewrite !app_assoc; apply Permutation_app_tail, Permutation_app_comm.
Qed.

Lemma t_stab_fold segs t v : wf t -> t_in t v ->
  Forall (fun s => s_low s <= s_high s /\ elem t (s_low s) /\ elem t (s_high s)) segs ->
  Permutation (t_stab (fold_left add_segment segs t) v) (slow_stab segs v ++ t_stab t v).
Proof.
  revert t. induction segs as [|s segs IH]; intros t W V F; cbn [fold_left].
  - reflexivity.
  - inversion F as [|? ? (F1 & F2 & F3) F4]; subst. rewrite IH.
    + rewrite t_stab_add by auto. cbn [slow_stab filter].
      destruct (_ && _); cbn [app]; auto.
      symmetry. apply Permutation_middle.
    + now apply add_wf.
    + unfold t_in. destruct (add_bounds t s) as (-> & -> & -> & ->). exact V.
    + eapply Forall_impl; [|apply F4]. intros x (G1 & G2 & G3). auto using add_elem.
Qed.

(** outside the range nothing is reported *)
Lemma t_stab_out t v : wf t -> v < t_min t \/ t_max t < v -> t_stab t v = [].
Proof.
  intros W O. induction t; cbn [t_stab]; cbn in O.
  - qcase1; auto. exfalso. destruct O; qlra.
  - destruct (qltb_spec low v), (qltb_spec v high); auto. exfalso. destruct O; qlra.
  - destruct W as (W1 & W2 & Ha & Hb & Hc & Hd & He & Hf & Hg).
    pose proof (wf_le _ W1). pose proof (wf_le _ W2).
    destruct (qleb_spec mn v), (qleb_spec v mx); cbn [andb]; try (exfalso; destruct O; qlra);
    cbn [app]; (destruct (qltb_spec v cut), (qeqb_spec v cut); cbn [orb andb];
      [ .. ]; try (destruct (t_chigh t1)); [..]);
    first [ apply IHt1; [assumption|]; subst; destruct O; [left|right]; qlra
          | apply IHt2; [assumption|]; subst; destruct O; [left|right]; qlra
          | exfalso; subst; destruct O; qlra
          | idtac ].
    all: try (exfalso; destruct O; qlra).
    all: destruct (qc_not_eq _ _ n1); try (exfalso; destruct O; qlra);
       first [apply IHt2; [assumption|]; subst; destruct O; [left|right]; qlra | idtac].
Qed.

(** ** Building the tree *)
Fixpoint chain (nodes : list (stree A)) : Prop :=
  match nodes with
  | a :: rest => match rest with b :: _ => t_max a = t_min b /\ t_chigh a = negb (t_clow b) | [] => True end
                 /\ chain rest
  | [] => True
  end.

Definition good (P : stree A -> Prop) nodes := chain nodes /\ Forall wf nodes /\ Forall P nodes.

Lemma pair_up_spec (e : Qc -> Prop) nodes :
  chain nodes -> Forall wf nodes -> (forall x, e x -> Forall (fun t => elem t x) nodes) ->
  (forall t v, In t nodes -> t_stab t v = []) -> nodes <> [] ->
  exists nodes', pair_up nodes = Ok nodes' /\ chain nodes' /\ Forall wf nodes'
    /\ (forall x, e x -> Forall (fun t => elem t x) nodes')
    /\ (forall t v, In t nodes' -> t_stab t v = [])
    /\ (forall d d', nodes' <> []
        /\ t_min (hd d nodes') = t_min (hd d' nodes) /\ t_clow (hd d nodes') = t_clow (hd d' nodes)
        /\ t_max (last nodes' d) = t_max (last nodes d') /\ t_chigh (last nodes' d) = t_chigh (last nodes d'))
    /\ (length nodes' + length nodes' <= length nodes + 1)%nat.
Proof.
  remember (length nodes) as n eqn:Hn. assert (Hle : (length nodes <= n)%nat) by lia. clear Hn.
  assert (Hex : exists m, length nodes = m) by eauto. destruct Hex as (m & Hm).
  revert nodes m Hm Hle. induction n as [n IH] using lt_wf_ind. intros nodes m Hm Hle C W E S N.
  destruct nodes as [|a [|b rest]]; [congruence| |].
  - exists [a]. cbn. repeat split; auto; try congruence. cbn in Hle. lia.
  - cbn [pair_up]. cbn [chain] in C. destruct C as ((C1 & C2) & C3).
    inversion W as [|? ? Wa W']; subst. inversion W' as [|? ? Wb Wr]; subst.
    unfold Node. rewrite C1, qeqb_refl, C2, Bool.eqb_reflx. cbn [passert bind].
    set (nd := SNode _ _ _ _ _ _ _ _).
    assert (Wn : wf nd) by (cbn; repeat split; auto).
    assert (En : forall x, e x -> elem nd x).
    { intros x Hx. specialize (E x Hx). inversion E as [|? ? Ea E']; subst. inversion E'; subst. cbn; auto. }
    assert (Sn : forall v, t_stab nd v = []).
    { intros v. cbn. rewrite (S a), (S b) by (cbn; auto).
      destruct (_ && _), (_ || _); reflexivity. }
    destruct rest as [|c rest].
    + cbn [pair_up bind]. exists [nd]. cbn. repeat split; auto; try congruence; try lia.
      * intros t v [<-|[]]. apply Sn.
      * cbn in Hle. lia.
    + assert (C3' : chain (c :: rest)) by (destruct C3; auto).
      destruct (IH (n - 2)%nat) with (nodes := c :: rest) (m := length (c :: rest)) as (ns & P & I1 & I2 & I3 & I4 & I5 & I6).
      * cbn in *. lia. * auto. * cbn in *. lia. * auto. * auto.
      * intros x Hx. specialize (E x Hx). inversion E as [|? ? Ea E']; subst. now inversion E'; subst.
      * intros; apply S; cbn; auto. * congruence.
      * rewrite P. cbn [bind]. exists (nd :: ns).
        destruct (I5 nd nd) as (Q0 & Q1 & Q2 & Q3 & Q4).
        destruct ns as [|n0 ns]; [congruence|].
        split; [reflexivity|]. split; [|split; [|split; [|split; [|split]]]].
        -- cbn [chain] in *. destruct C3 as ((C4 & C5) & _). split; [|split; tauto || (destruct I1; auto)].
           cbn [hd] in Q1, Q2. rewrite Q1, Q2. cbn. auto.
        -- constructor; auto.
        -- intros x Hx. constructor; auto.
        -- intros t v [<-|H]; auto.
        -- intros d d'. split; [congruence|]. cbn [hd]. split; [reflexivity|]. split; [reflexivity|].
           destruct (I5 d d') as (_ & _ & _ & R3 & R4).
           change (last (nd :: n0 :: ns) d) with (last (n0 :: ns) d).
           change (last (a :: b :: c :: rest) d') with (last (c :: rest) d'). auto.
        -- cbn [length] in *. lia.
Qed.

Lemma build_spec (e : Qc -> Prop) fuel nodes :
  (length nodes <= S fuel)%nat ->
  chain nodes -> Forall wf nodes -> (forall x, e x -> Forall (fun t => elem t x) nodes) ->
  (forall t v, In t nodes -> t_stab t v = []) -> nodes <> [] ->
  exists root, build fuel nodes = Ok root /\ wf root /\ (forall x, e x -> elem root x)
    /\ (forall v, t_stab root v = [])
    /\ (forall d, t_min root = t_min (hd d nodes) /\ t_clow root = t_clow (hd d nodes)
        /\ t_max root = t_max (last nodes d) /\ t_chigh root = t_chigh (last nodes d)).
Proof.
  revert nodes. induction fuel as [|fuel IH]; intros nodes L C W E S N.
  - destruct nodes as [|a [|b r]]; [congruence| |cbn in L; lia].
    exists a. cbn. inversion W; subst. repeat split; auto.
    + intros x Hx. specialize (E x Hx). now inversion E.
    + intros; apply S; cbn; auto.
  - destruct nodes as [|a [|b r]]; [congruence| |].
    + exists a. cbn. inversion W; subst. repeat split; auto.
      * intros x Hx. specialize (E x Hx). now inversion E.
      * intros; apply S; cbn; auto.
    + destruct (pair_up_spec e (a :: b :: r) C W E S N) as (ns & P & I1 & I2 & I3 & I4 & I5 & I6).
      cbn [build]. rewrite P. cbn [bind].
      destruct (IH ns) as (root & B & B1 & B2 & B3 & B4); auto.
      * cbn in *. lia.
      * apply (I5 a a).
      * exists root. repeat split; auto;
        destruct (I5 d d) as (_ & ? & ? & ? & ?); destruct (B4 d) as (? & ? & ? & ?); congruence.
Qed.

Lemma leaves_good prev l :
  StronglySorted Qclt (prev :: l) ->
  let nodes := PointLeaf prev [] :: leaves_from prev l in
  chain nodes /\ Forall wf nodes /\ (forall x, In x (prev :: l) -> Forall (fun t => elem t x) nodes)
  /\ (forall t v, In t nodes -> @t_stab A t v = [])
  /\ t_chigh (last nodes (PointLeaf 0 [])) = true /\ t_max (last nodes (PointLeaf 0 [])) = last (prev :: l) 0.
Proof.
  revert prev. induction l as [|e l IH]; intros prev Hs nodes; subst nodes.
  - split; [cbn; auto|]. split; [repeat constructor|]. split; [intros; repeat constructor|].
    split; [|cbn; auto]. intros t v [<-|[]]. cbn. now destruct (qeqb v prev).
  - inversion Hs as [|? ? Hs' Hf]; subst.
    inversion Hf as [|? ? He Hf']; subst.
    destruct (IH e Hs') as (I1 & I2 & I3 & I4 & I5 & I6). cbn [leaves_from].
    split; [|split; [|split; [|split]]].
    + cbn [chain] in *. cbn [t_max t_min t_chigh t_clow negb]. tauto.
    + constructor; [exact I|]. constructor; auto.
    + intros x Hx. constructor; [exact I|]. constructor.
      * cbn [elem]. destruct Hx as [<-|[<-|Hx]].
        -- left. qlra. -- right. qlra.
        -- right. inversion Hs' as [|? ? _ Hg]; subst. rewrite Forall_forall in Hg.
           specialize (Hg x Hx). qlra.
      * destruct Hx as [<-|Hx]; [|apply I3, Hx].
        (* everything right of e has no end point below *)
        clear - Hs' He. revert e He Hs'. induction l as [|f l IH]; intros e He Hs'; cbn [leaves_from].
        -- repeat constructor.
        -- inversion Hs' as [|? ? Hs2 Hf2]; subst. inversion Hf2; subst.
           constructor; [exact I|]. constructor.
           ++ cbn. left. qlra.
           ++ apply IH; auto. qlra.
    + intros t v [<-|[<-|H]]; [| |apply I4, H]; cbn.
      * now destruct (qeqb v prev).
      * now destruct (_ && _).
    + exact (conj I5 I6).
Qed.

Lemma sorted_strict (l : list Qc) : NoDup l -> StronglySorted Qclt (sort_by qltb l).
Proof.
  intros ND.
  assert (S1 : StronglySorted (fun a b => qltb b a = false) (sort_by qltb l)).
  { apply sort_by_sorted; intros; repeat qcase1; try congruence; qlra. }
  assert (N1 : NoDup (sort_by qltb l)) by (eapply Permutation_NoDup; [symmetry; apply sort_by_perm|auto]).
  induction S1; constructor.
  - apply IHS1. now inversion N1.
  - inversion N1; subst. rewrite Forall_forall in *. intros x Hx. specialize (H x Hx).
    destruct (qltb_spec x a); [discriminate|].
    assert (x <> a) by congruence. destruct (qc_not_eq _ _ H0); auto; qlra.
Qed.

Lemma fold_add_bounds segs t :
  t_min (fold_left add_segment segs t) = t_min t /\ t_max (fold_left add_segment segs t) = t_max t.
Proof.
  revert t. induction segs as [|s segs IH]; intros; cbn [fold_left]; auto.
  destruct (IH (add_segment t s)) as (-> & ->). destruct (add_bounds t s) as (? & ? & _). auto.
Qed.

Lemma sorted_head_le (e : Qc) l x : StronglySorted Qclt (e :: l) -> In x (e :: l) -> e <= x.
Proof.
  intros SS [<-|A1]; [qlra|]. inversion SS as [|? ? _ Hf]; subst. rewrite Forall_forall in Hf.
  specialize (Hf _ A1). qlra.
Qed.
Lemma sorted_last_ge (e : Qc) l x : StronglySorted Qclt (e :: l) -> In x (e :: l) -> x <= last (e :: l) 0.
Proof.
  revert e x. induction l as [|f l IH]; intros e x SS [<-|A2].
  - cbn; qlra.
  - destruct A2.
  - change (last (e :: f :: l) 0) with (last (f :: l) 0).
    inversion SS as [|? ? S2 Hf]; subst. inversion Hf; subst.
    specialize (IH f f S2 (or_introl eq_refl)). qlra.
  - change (last (e :: f :: l) 0) with (last (f :: l) 0). apply IH; auto. now inversion SS.
Qed.
Lemma filter_nil {B} (f : B -> bool) l : (forall x, In x l -> f x = false) -> filter f l = [].
Proof. induction l as [|x l IH]; intros H; cbn; auto. rewrite H by (cbn; auto). apply IH. intros; apply H; cbn; auto. Qed.
Lemma fold_wf segs t : wf t -> wf (fold_left add_segment segs t).
Proof. revert t. induction segs; cbn; intros; auto using add_wf. Qed.

Lemma init2_valid pass1 pass2 :
  Forall (fun s => s_low s <= s_high s) pass1 -> incl pass2 pass1 ->
  exists t, init2 pass1 pass2 = Ok t /\ forall v, Permutation (t_stab t v) (slow_stab pass2 v).
Proof.
  intros HV HI. unfold init2.
  assert (F : forallb (fun s => qleb (s_low s) (s_high s)) pass1 = true).
  { apply forallb_forall. intros x Hx. rewrite Forall_forall in HV. apply qleb_le. auto. }
  rewrite F. cbn [passert bind].
  set (eps := match endpoints_of pass1 with [] => [0;1] | e => e end).
  assert (HS : StronglySorted Qclt eps /\ eps <> [] /\
     forall s, In s pass1 -> In (s_low s) eps /\ In (s_high s) eps).
  { unfold eps. assert (SS : StronglySorted Qclt (endpoints_of pass1)) by (apply sorted_strict, NoDup_nodup).
    assert (IN : forall s, In s pass1 -> In (s_low s) (endpoints_of pass1) /\ In (s_high s) (endpoints_of pass1)).
    { intros s Hs. unfold endpoints_of. rewrite !sort_by_in, !nodup_In, !in_flat_map.
      split; exists s; cbn; auto. }
    destruct (endpoints_of pass1) as [|e l] eqn:E; [|repeat split; auto; try congruence; apply IN; auto].
    split; [repeat constructor; qlra|]. split; [congruence|].
    intros s Hs. destruct (IN s Hs) as ([] & _). }
  destruct HS as (SS & NE & IN). clearbody eps.
  destruct eps as [|e l]; [congruence|]. cbn [leaves].
  destruct (leaves_good e l SS) as (I1 & I2 & I3 & I4 & I5 & I6).
  set (nodes := PointLeaf e [] :: leaves_from e l) in *.
  destruct (build_spec (fun x => In x (e :: l)) (length nodes) nodes) as (root & B & B1 & B2 & B3 & B4); auto.
  { unfold nodes; congruence. }
  rewrite B. cbn [bind].
  destruct (B4 (PointLeaf 0 [])) as (M1 & M2 & M3 & M4).
  rewrite I5 in M4. rewrite I6 in M3. cbn in M1, M2.
  destruct (fold_add_bounds pass2 root) as (N1 & N2).
  rewrite N1, N2, M1, M3. cbn [hd]. rewrite !qeqb_refl. cbn [passert bind].
  eexists; split; [reflexivity|]. intros v.
  assert (FS : Forall (fun s => s_low s <= s_high s /\ elem root (s_low s) /\ elem root (s_high s)) pass2).
  { apply Forall_forall. intros s Hs. rewrite Forall_forall in HV. apply HI in Hs.
    destruct (IN s Hs). auto. }
  destruct (qltb_spec v (t_min root)) as [Lo|Lo]; [|destruct (qltb_spec (t_max root) v) as [Hi|Hi]].
  3:{ rewrite t_stab_fold; auto.
      - rewrite B3, app_nil_r. reflexivity.
      - unfold t_in. rewrite M2, M4. split; qlra. }
  all: assert (Hall : forall s, In s pass2 -> t_min root <= s_low s /\ s_high s <= t_max root);
    [ intros s Hs; rewrite M1, M3; destruct (IN s (HI s Hs)) as (A1 & A2); split;
      [now apply (sorted_head_le e l) | now apply (sorted_last_ge e l)] | ].
  all: assert (Z : slow_stab pass2 v = []);
    [ apply filter_nil; intros s Hs; destruct (Hall s Hs);
      destruct (qleb_spec (s_low s) v), (qleb_spec v (s_high s)); auto; exfalso; qlra | rewrite Z ].
  all: rewrite t_stab_out; [reflexivity | now apply fold_wf | rewrite N1, N2; auto ].
Qed.
End P.

(** C23.  [count]s, order aside: the yielded list is a permutation of the brute-force filter. *)
Theorem segment_tree_stab_exact {A} (segs : list (seg A)) :
  (Forall (fun s => s_low s <= s_high s) segs ->
   exists t, SegmentTree1D segs = Ok t /\
     forall v, exists l, stab t v = Ok l /\ Permutation l (filter (fun s => qleb (s_low s) v && qleb v (s_high s)) segs))
  /\ (Exists (fun s => s_high s < s_low s) segs -> SegmentTree1D segs = Err AssertionError).
Proof.
  split.
  - intros HV. destruct (init2_valid segs segs HV (incl_refl _)) as (t & Ht & Hs).
    exists t. split; [exact Ht|]. intros v. exists (t_stab t v). split; [|apply Hs].
    unfold stab. rewrite (mapM_total _ (fun s => s)); [now rewrite map_id|].
    intros s Hin. apply (Permutation_in _ (Hs v)) in Hin.
    apply filter_In in Hin. destruct Hin as (_ & Hin). apply andb_true_iff in Hin.
    destruct Hin as (-> & ->). reflexivity.
  - intros HE. unfold SegmentTree1D, init2.
    assert (F : forallb (fun s => qleb (s_low s) (s_high s)) segs = false).
    { apply Bool.not_true_iff_false. rewrite forallb_forall. intros G. apply Exists_exists in HE.
      destruct HE as (s & Hs & L). specialize (G s Hs). apply qleb_le in G. qlra. }
    rewrite F. reflexivity.
Qed.
Print Assumptions segment_tree_stab_exact.

Example segment_tree_ex :
  let segs := [(zq 0, zq 4, 1%nat); (zq 2, zq 2, 2%nat); (zq 2, zq 3, 3%nat); (zq 2, zq 3, 3%nat); (zq 5, zq 7, 4%nat)] in
  match SegmentTree1D segs with
  | Ok t => map (fun v => match stab t v with Ok l => map snd l | _ => [] end) [zq (-1); zq 0; zq 1; zq 2; qq 5 2; zq 4; zq 5; zq 6; zq 8]
  | Err _ => []
  end = [[]; [1]; [1]; [1;3;3;2]; [1;3;3]; [1]; [4]; [4]; []]%nat.
Proof. vm_compute. reflexivity. Qed.

(** The docstring says "segments -- iterator"; but __init__ iterates the argument twice (143, 169), so with a
    one-shot iterator the tree is silently empty. *)
Theorem segment_tree_iterator_refuted :
  exists (segs : list (seg nat)) t v, SegmentTree1D_from_iterator segs = Ok t
    /\ stab t v = Ok [] /\ slow_stab segs v <> [].
Proof.
  exists [(zq 0, zq 1, 0%nat)].
  destruct (SegmentTree1D_from_iterator [(zq 0, zq 1, 0%nat)]) as [t|e] eqn:E; [|vm_compute in E; discriminate].
  exists t, (zq 0). split; [reflexivity|].
  vm_compute in E. injection E as <-. split; [reflexivity|]. vm_compute. discriminate.
Qed.
Print Assumptions segment_tree_iterator_refuted.
