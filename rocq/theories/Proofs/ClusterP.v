(** * Proofs about _find_interaction_clusters *)
From Verif.Spec Require Import PointSet1.
From Verif.Model Require Import Heuristics.
From Verif.Proofs Require Import PyP ExtOrd DictP Geom1dP Geom1dM SheetplexP FingerP SheetbuildP.
From Verif.Props Require Import Geom1dProps SheetplexProps.
From Coq Require Import String DecimalString DecimalNat.
Open Scope Qc_scope.

(** the points of a map of ranges at one intersection *)
Definition cpts (c : cluster) (j : string) (x : Qc) : Prop := pts (opt (dget String.eqb j c)) x.
Definition cl_ok (c : cluster) : Prop := NoDup (keys c) /\ forall j g, dget String.eqb j c = Some g -> normal g.
Lemma cl_ok_normal c j : cl_ok c -> normal (opt (dget String.eqb j c)).
Proof. intros (_ & H). destruct (dget _ j c) as [g|] eqn:E; [eapply H; eauto|exact I]. Qed.
Lemma cl_ok_dset c j g : cl_ok c -> normal g -> cl_ok (dset String.eqb j g c).
Proof.
  intros (N & H) G. split; [now apply (nodup_dset _ string_eqb_ok)|]. intros k v. rewrite (dget_dset _ string_eqb_ok).
  destruct (String.eqb k j); [intros E; apply some_inv in E as <-; auto|apply H].
Qed.
Lemma cpts_dset c j g k x : cpts (dset String.eqb j g c) k x <-> if String.eqb k j then pts g x else cpts c k x.
Proof. unfold cpts. rewrite (dget_dset _ string_eqb_ok). destruct (String.eqb k j); cbn; tauto. Qed.

Lemma cpts_get c j g x : dget String.eqb j c = Some g -> (cpts c j x <-> pts g x).
Proof. intros H. unfold cpts. assert (E : opt (dget String.eqb j c) = g) by now apply opt_get. now rewrite E. Qed.
Lemma cpts_some c j x : cpts c j x -> exists g, dget String.eqb j c = Some g /\ pts g x.
Proof. unfold cpts. destruct (dget String.eqb j c) as [g|]; cbn [opt]; [eauto|]. intros (? & [] & _). Qed.
Lemma normal_point i g : normal (i :: g) -> exists x, pts (i :: g) x.
Proof.
  destruct i as [a b]. intros (L & _). assert (E : exists x, in_iv x (a, b)).
  { unfold in_iv. destruct a as [|u|]; destruct b as [|v|]; cbn [elt ele fst snd] in *; try (exfalso; exact L).
    - exists (v - 1). split; [exact I|]. change (v - 1 < v). qlra.
    - exists 0. auto.
    - exists u. split; [change (u <= u); qlra|exact L].
    - exists u. split; [change (u <= u); qlra|exact L]. }
  destruct E as (x & E). exists x, (a, b). split; [now left|auto].
Qed.
Lemma cmap_and_ok m1 : forall m2, (forall j g, In (j, g) m1 -> normal g) -> cl_ok m2 -> exists r, cmap_and m1 m2 = Ok r /\
  (r = [] <-> forall j g x, In (j, g) m1 -> ~ (pts g x /\ cpts m2 j x)).
Proof.
  induction m1 as [|(k, v) m1 IH]; intros m2 N O; unfold cmap_and in *; cbn [map_and].
  - exists []. split; auto. split; [intros _ j g x []|auto].
  - destruct (IH m2 (fun j g H => N j g (or_intror H)) O) as (r & E & B). pose proof (N k v (or_introl eq_refl)) as Nv.
    destruct (dget String.eqb k m2) as [v2|] eqn:D.
    + pose proof (proj2 O k v2 D) as N2. rewrite g_and_ok by auto. cbn [bind]. rewrite E. cbn [bind]. pose proof (and_normal _ _ Nv N2) as NA.
      assert (C : forall x, cpts m2 k x <-> pts v2 x) by (intros; now apply cpts_get).
      destruct (and_pure v v2) as [|i l] eqn:Q; cbn [is_empty]; eexists; (split; [reflexivity|]).
      * rewrite B. split; [|intros H j g x I; apply H; now right]. intros H j g x [I|I]; [|now apply H]. apply pair_inv in I as (<- & <-). rewrite C.
        intros P. apply (and_pts v v2 _ x Nv N2 (g_and_ok v v2 Nv N2)) in P. rewrite Q in P. destruct P as (? & [] & _).
      * split; [discriminate|]. intros H. exfalso. rewrite <- Q in NA. assert (and_pure v v2 = []); [|congruence].
        apply normal_nil_pts; auto. intros x P. apply (and_pts v v2 _ x Nv N2 (g_and_ok v v2 Nv N2)) in P. apply (H k v x (or_introl eq_refl)). rewrite C. tauto.
    + exists r. split; auto. rewrite B. split; [|intros H j g x I; apply H; now right]. intros H j g x [I|I]; [|now apply H]. apply pair_inv in I as (<- & <-).
      intros (_ & K). apply cpts_some in K as (? & K & _). congruence.
Qed.
Lemma cmap_meet m1 m2 r : cl_ok m1 -> cl_ok m2 -> cmap_and m1 m2 = Ok r -> (r = [] <-> forall j x, ~ (cpts m1 j x /\ cpts m2 j x)).
Proof.
  intros O1 O2 H. destruct (cmap_and_ok m1 m2) as (r' & E & B); auto.
  { intros j g I. apply (dget_nodup _ string_eqb_ok) in I; [|apply O1]. eapply O1; eauto. }
  rewrite E in H. apply Ok_inv in H as <-. rewrite B. split.
  - intros K j x (P & Q). apply cpts_some in P as (g & D & P). apply (K j g x); [now apply (dget_in _ string_eqb_ok)|auto].
  - intros K j g x I (P & Q). apply (dget_nodup _ string_eqb_ok) in I; [|apply O1]. apply (K j x). rewrite (cpts_get _ _ _ _ I). auto.
Qed.
Lemma cmap_or_ok m2 : forall m1, cl_ok m1 -> (forall j g, In (j, g) m2 -> normal g) -> exists r, cmap_or m1 m2 = Ok r /\ cl_ok r /\
  forall j x, cpts r j x <-> cpts m1 j x \/ exists g, In (j, g) m2 /\ pts g x.
Proof.
  induction m2 as [|(k, v) m2 IH]; intros m1 O N; unfold cmap_or, map_or in *; cbn [foldM].
  - exists m1. repeat split; auto; try apply O. intros [H|(g & [] & _)]; auto.
  - pose proof (N k v (or_introl eq_refl)) as Nv. cbn [fst snd]. unfold map_or_geom at 1. change (match dget String.eqb k m1 with Some x => x | None => [] end) with (opt (dget String.eqb k m1)).
    pose proof (cl_ok_normal m1 k O) as Nk. rewrite g_or_ok by auto. cbn [bind].
    destruct (IH (dset String.eqb k (or_pure (opt (dget String.eqb k m1)) v) m1)) as (r & E & O' & P).
    { apply cl_ok_dset; auto. now apply or_normal. }
    { intros j g I. apply (N j g). now right. }
    exists r. split; [exact E|]. split; auto. intros j x. rewrite P, cpts_dset. destruct (eqb_case _ string_eqb_ok j k) as [(-> & ->)|(-> & NE)].
    + rewrite (or_pts _ v _ x Nk Nv (g_or_ok _ v Nk Nv)). fold (cpts m1 k x). split.
      * intros [[H|H]|(g & I & H)]; auto; right; [exists v|exists g]; cbn; auto.
      * intros [H|(g & [I|I] & H)]; auto; [apply pair_inv in I as (_ & <-); auto|right; eauto].
    + split; (intros [H|(g & I & H)]; [auto|right]); [exists g; cbn; auto|]. destruct I as [I|I]; [apply pair_inv in I as (-> & _); congruence|eauto].
Qed.
Lemma cmap_union m1 m2 r : cl_ok m1 -> cl_ok m2 -> cmap_or m1 m2 = Ok r -> cl_ok r /\ forall j x, cpts r j x <-> cpts m1 j x \/ cpts m2 j x.
Proof.
  intros O1 O2 H. destruct (cmap_or_ok m2 m1 O1) as (r' & E & O & B).
  { intros j g I. apply (dget_nodup _ string_eqb_ok) in I; [|apply O2]. eapply O2; eauto. }
  rewrite E in H. apply Ok_inv in H as <-. split; auto. intros j x. rewrite B. split; (intros [K|K]; [auto|right]).
  - destruct K as (g & I & P). apply (dget_nodup _ string_eqb_ok) in I; [|apply O2]. now rewrite (cpts_get _ _ _ _ I).
  - apply cpts_some in K as (g & D & K). exists g. split; auto. now apply (dget_in _ string_eqb_ok).
Qed.

(** ** The members *)
Definition mget (m : dict string cluster) (k : string) : option cluster := dget String.eqb k m.
Lemma in_keys_ddel {V} k j (m : dict string V) : In j (keys (ddel String.eqb k m)) <-> In j (keys m) /\ j <> k.
Proof.
  unfold keys, ddel. rewrite !in_map_iff. split.
  - intros (e & <- & H). apply filter_In in H as (H & N). split; [eauto|]. intros E. rewrite E in N. rewrite String.eqb_refl in N. discriminate.
  - intros ((e & <- & H) & N). exists e. split; auto. apply filter_In. split; auto. destruct (String.eqb_spec k (fst e)); [subst; congruence|auto].
Qed.
Lemma dget_ddel {V} k j (m : dict string V) : dget String.eqb j (ddel String.eqb k m) = if String.eqb j k then None else dget String.eqb j m.
Proof.
  unfold ddel. induction m as [|(i, v) m IH]; cbn [filter dget fst]; [now destruct (String.eqb j k)|]. destruct (String.eqb_spec k i) as [->|N]; cbn [negb dget].
  - rewrite IH. destruct (String.eqb j i) eqn:E; auto.
  - rewrite IH. destruct (String.eqb_spec j i) as [->|]; auto. destruct (String.eqb_spec i k); congruence.
Qed.
Lemma nodup_ddel {V} k (m : dict string V) : NoDup (keys m) -> NoDup (keys (ddel String.eqb k m)).
Proof.
  unfold keys, ddel. induction m as [|(i, v) m IH]; cbn; auto. intros H. inversion H; subst. destruct (String.eqb k i); cbn; auto. constructor; auto.
  intros I. apply H2. apply in_map_iff in I as (e & <- & I). apply filter_In in I as (I & _). now apply in_map.
Qed.
Lemma belongs_ok members cmap l : NoDup (keys members) -> (forall k c, mget members k = Some c -> cl_ok c) -> cl_ok cmap -> belongs_to members cmap = Ok l ->
  NoDup l /\ forall k, In k l <-> exists c, mget members k = Some c /\ exists j x, cpts c j x /\ cpts cmap j x.
Proof.
  intros ND O C. assert (O' : forall k c, In (k, c) members -> cl_ok c) by (intros k c H; apply (O k); now apply (dget_nodup _ string_eqb_ok)).
  assert (G : forall k c, mget members k = Some c <-> In (k, c) members) by (intros; now apply (dget_nodup _ string_eqb_ok)).
  assert (X : forall l, belongs_to members cmap = Ok l -> incl l (keys members) /\ NoDup l /\ forall k, In k l <-> exists c, In (k, c) members /\ exists j x, cpts c j x /\ cpts cmap j x).
  { clear G O l. induction members as [|(k, v) members IH]; intros l H; cbn [belongs_to] in H.
    - apply Ok_inv in H as <-. split; [intros k []|]. split; [constructor|]. intros k. split; [intros []|intros (c & [] & _)].
    - apply bind_ok in H as (x & H1 & H). apply bind_ok in H as (l' & H2 & H). apply Ok_inv in H. cbn in ND. inversion ND as [|? ? Nk NDm]; subst.
      destruct (IH NDm (fun k c H => O' k c (or_intror H)) l' H2) as (I1 & I2 & I3). pose proof (O' k v (or_introl eq_refl)) as Ov. pose proof (cmap_meet _ _ _ Ov C H1) as M.
      destruct x as [|e x].
      + split; [intros j Hj; right; now apply I1|]. split; auto. intros j. rewrite I3. split; intros (c & I & J); [exists c; split; auto; now right|].
        destruct I as [I|I]; [|eauto]. apply pair_inv in I as (<- & <-). destruct J as (u & y & J). destruct (proj1 M eq_refl u y J).
      + split; [intros j [<-|Hj]; [now left|right; now apply I1]|]. split; [constructor; auto; intros K; apply I1 in K; contradiction|].
        intros j. cbn [In]. rewrite I3. split.
        * intros [<-|(c & I & J)]; [|exists c; split; auto; now right]. exists v. split; [now left|].
          assert (NN : ~ forall j x, ~ (cpts v j x /\ cpts cmap j x)) by (intros K; apply M in K; discriminate).
          (* a witness: decidable search over the entries *)
          clear - NN Ov C.
          assert (W : forall l, (forall j g, In (j, g) l -> normal g) -> (exists j g x, In (j, g) l /\ pts g x /\ cpts cmap j x) \/ forall j g x, In (j, g) l -> ~ (pts g x /\ cpts cmap j x)).
          { induction l as [|(u, g) l IH]; intros N; [right; intros ? ? ? []|].
            destruct (IH (fun j g' I => N j g' (or_intror I))) as [(j & g' & x & I & J)|IH']; [left; exists j, g', x; split; auto; now right|]. clear IH. rename IH' into IH.
            pose proof (N u g (or_introl eq_refl)) as Ng. pose proof (cl_ok_normal cmap u C) as Nu.
            pose proof (and_normal _ _ Ng Nu) as NA. destruct (and_pure g (opt (dget String.eqb u cmap))) as [|i r'] eqn:Q.
            - right. intros j g' x [I|I]; [|now apply IH]. apply pair_inv in I as (<- & <-). intros P. apply (and_pts _ _ _ x Ng Nu (g_and_ok _ _ Ng Nu)) in P. rewrite Q in P. destruct P as (? & [] & _).
            - left. destruct (normal_point _ _ NA) as (x & P). exists u, g, x. split; [now left|]. apply (and_pts _ _ _ x Ng Nu (g_and_ok _ _ Ng Nu)). rewrite Q. exact P. }
          destruct (W v) as [(j & g & x & I & P1 & P2)|K].
          { intros j g I. apply (dget_nodup _ string_eqb_ok) in I; [|apply Ov]. eapply Ov; eauto. }
          { exists j, x. split; auto. apply (dget_nodup _ string_eqb_ok) in I; [|apply Ov]. now rewrite (cpts_get _ _ _ _ I). }
          exfalso. apply NN. intros j x (P & Q). apply cpts_some in P as (g & D & P). apply (K j g x); [now apply (dget_in _ string_eqb_ok)|auto].
        * intros (c & [I|I] & J); [apply pair_inv in I as (<- & <-); auto|right; eauto]. }
  intros H. destruct (X l H) as (_ & A & B). split; auto. intros k. rewrite B. split; intros (c & I & J); exists c; (split; [now apply G|auto]).
Qed.

(** ** Merging *)
Definition mok (m : dict string cluster) : Prop := NoDup (keys m) /\ forall k c, mget m k = Some c -> cl_ok c.
Lemma mok_dset m k c : mok m -> cl_ok c -> mok (dset String.eqb k c m).
Proof.
  intros (N & O) C. split; [now apply (nodup_dset _ string_eqb_ok)|]. intros j d. unfold mget. rewrite (dget_dset _ string_eqb_ok).
  destruct (String.eqb j k); [intros E; apply some_inv in E as <-; auto|apply O].
Qed.
Lemma merge_one b0 m k m' : mok m -> k <> b0 -> merge_into b0 m k = Ok m' -> exists c0 ck c, mget m b0 = Some c0 /\ mget m k = Some ck /\ mok m' /\
  mget m' b0 = Some c /\ (forall j x, cpts c j x <-> cpts c0 j x \/ cpts ck j x) /\
  forall j, j <> b0 -> mget m' j = if String.eqb j k then None else mget m j.
Proof.
  intros O NE H. unfold merge_into in H. apply bind_ok in H as (c0 & H1 & H). apply bind_ok in H as (ck & H2 & H). apply bind_ok in H as (c & H3 & H). apply Ok_inv in H as <-.
  apply dgetr_ok in H1, H2. pose proof (proj2 O _ _ H1) as O1. pose proof (proj2 O _ _ H2) as O2. destruct (cmap_union _ _ _ O1 O2 H3) as (O3 & P).
  pose proof (mok_dset m b0 c O O3) as (N1 & N2). exists c0, ck, c. split; auto. split; auto. split; [split|split; [|split]].
  - now apply nodup_ddel.
  - intros j d. unfold mget. rewrite dget_ddel. destruct (String.eqb j k); [discriminate|]. apply N2.
  - unfold mget. rewrite dget_ddel. destruct (String.eqb_spec b0 k); [congruence|]. now apply (dget_same _ string_eqb_ok).
  - exact P.
  - intros j NJ. unfold mget. rewrite dget_ddel. destruct (String.eqb j k); auto. now apply (dget_other _ string_eqb_ok).
Qed.
Lemma merge_all b0 l : forall m m', mok m -> NoDup l -> ~ In b0 l -> foldM (merge_into b0) l m = Ok m' -> (exists c0, mget m b0 = Some c0) -> mok m' /\
  exists c0 c, mget m b0 = Some c0 /\ mget m' b0 = Some c /\
    (forall j x, cpts c j x <-> cpts c0 j x \/ exists k ck, In k l /\ mget m k = Some ck /\ cpts ck j x) /\
    (forall j, j <> b0 -> ~ In j l -> mget m' j = mget m j) /\ (forall j, In j l -> mget m' j = None).
Proof.
  induction l as [|k l IH]; intros m m' O ND NI H (c0 & H0); cbn [foldM] in H.
  - apply Ok_inv in H as <-. split; auto. exists c0, c0. split; auto. split; auto. split; [|split; [auto|intros j []]]. intros j x. split; [auto|]. intros [X|(k & ck & [] & _)]; auto.
  - apply bind_ok in H as (m1 & H1 & H). inversion ND as [|? ? Nk ND']; subst. assert (NE : k <> b0) by (intros ->; apply NI; now left).
    destruct (merge_one b0 m k m1 O NE H1) as (c0' & ck & c1 & G0 & Gk & O1 & G1 & P1 & Q1). rewrite H0 in G0. apply some_inv in G0 as <-.
    destruct (IH m1 m' O1 ND' (fun X => NI (or_intror X)) H (ex_intro _ _ G1)) as (O' & c1' & c & G2 & G3 & P & Q & Z). rewrite G1 in G2. apply some_inv in G2 as <-.
    split; auto. exists c0, c. split; auto. split; auto. split; [|split].
    + intros j x. rewrite P, P1. split.
      * intros [[X|X]|(k' & ck' & I & J & X)]; auto; right; [exists k, ck; repeat split; auto; now left|]. exists k', ck'. split; [now right|]. split; auto.
        rewrite Q1 in J by (intros ->; apply NI; now right). destruct (String.eqb_spec k' k); [discriminate|auto].
      * intros [X|(k' & ck' & [<-|I] & J & X)]; auto; [rewrite Gk in J; apply some_inv in J as <-; auto|]. right. exists k', ck'. split; auto. split; auto.
        rewrite Q1 by (intros ->; apply NI; now right). destruct (String.eqb_spec k' k) as [->|]; [contradiction|auto].
    + intros j NJ NL. rewrite Q by (auto; intros X; apply NL; now right). rewrite Q1 by auto. destruct (String.eqb_spec j k) as [->|]; auto. exfalso. apply NL. now left.
    + intros j [<-|I]; [|now apply Z]. rewrite Q by auto. rewrite Q1 by auto. now rewrite String.eqb_refl.
Qed.

(** ** The invariant *)
Definition named (m : dict string cluster) (n : nat) : Prop := forall k c, mget m k = Some c -> exists i, (i < n)%nat /\ k = cluster_name i.
Definition apart (m : dict string cluster) : Prop := forall k1 k2 c1 c2 j x, mget m k1 = Some c1 -> mget m k2 = Some c2 -> k1 <> k2 -> ~ (cpts c1 j x /\ cpts c2 j x).
(** the maps of the interactions seen so far *)
Definition covers (m : dict string cluster) (seen : list cluster) : Prop :=
  (forall s, In s seen -> exists k c, mget m k = Some c /\ forall j x, cpts s j x -> cpts c j x) /\
  (forall k c j x, mget m k = Some c -> cpts c j x -> exists s, In s seen /\ cpts s j x /\ forall j' x', cpts s j' x' -> cpts c j' x').
Lemma cluster_name_inj a b : cluster_name a = cluster_name b -> a = b.
Proof.
  unfold cluster_name. cbn [String.append]. intros H. injection H as H.
  assert (E : NilEmpty.uint_of_string (NilEmpty.string_of_uint (Nat.to_uint a)) = NilEmpty.uint_of_string (NilEmpty.string_of_uint (Nat.to_uint b))) by now rewrite H.
  rewrite !NilEmpty.usu in E. injection E as E. now apply DecimalNat.Unsigned.to_uint_inj in E.
Qed.
Lemma cmap_of_ok sp i c : is_geom1d (ia_range i) -> is_geom1d (ia_other_range i) -> cmap_of sp i = Ok c -> cl_ok c.
Proof.
  intros G1 G2 H. unfold cmap_of in H. apply bind_ok in H as (s & _ & H). apply bind_ok in H as (o & _ & H). apply Ok_inv in H as <-. apply is_geom1d_normal in G1, G2.
  apply cl_ok_dset; auto. change ([(is_inter s, ia_range i)]) with (dset String.eqb (is_inter s) (ia_range i) []). apply cl_ok_dset; auto. split; [constructor|discriminate].
Qed.
(** ** Clusters are connected *)
Definition overlap (s t : cluster) : Prop := exists j x, cpts s j x /\ cpts t j x.
Lemma overlap_sym s t : overlap s t -> overlap t s.
Proof. intros (j & x & X & Y). exists j, x. auto. Qed.
Inductive link (seen : list cluster) : cluster -> cluster -> Prop :=
| lk_refl s : link seen s s
| lk_step s t u : link seen s t -> In t seen -> In u seen -> overlap t u -> link seen s u.
Lemma link_mono c seen s t : link seen s t -> link (c :: seen) s t.
Proof. induction 1 as [|s t u L IH I1 I2 O]; [constructor|]. apply (lk_step _ s t u IH); auto; now right. Qed.
Lemma link_trans seen s t u : link seen s t -> link seen t u -> link seen s u.
Proof. intros L1 L2. induction L2 as [|t v u L2 IH I1 I2 O]; [exact L1|]. exact (lk_step _ s v u (IH L1) I1 I2 O). Qed.
Lemma link_sym seen s t : link seen s t -> link seen t s.
Proof.
  induction 1 as [|s t u L IH I1 I2 O]; [constructor|]. apply (link_trans _ u t s); auto. exact (lk_step _ u u t (lk_refl _ u) I2 I1 (overlap_sym _ _ O)).
Qed.
Definition linked (m : dict string cluster) (seen : list cluster) : Prop :=
  forall k c s t, mget m k = Some c -> In s seen -> In t seen -> overlap s c -> overlap t c -> link seen s t.
Definition cinv (st : dict string cluster * nat) (seen : list cluster) : Prop := mok (fst st) /\ named (fst st) (snd st) /\ apart (fst st) /\ covers (fst st) seen /\ linked (fst st) seen.
Lemma add_ok sp st i st' seen : cinv st seen -> is_geom1d (ia_range i) -> is_geom1d (ia_other_range i) -> add_interaction sp st i = Ok st' ->
  exists c, cmap_of sp i = Ok c /\ cinv st' (c :: seen).
Proof.
  intros (MO & NM & AP & (CV1 & CV2) & LK) G1 G2 H. destruct st as [m n]. cbn [fst snd] in *. unfold add_interaction in H.
  apply bind_ok in H as (cm & H1 & H). exists cm. split; auto. pose proof (cmap_of_ok sp i cm G1 G2 H1) as OC.
  apply bind_ok in H as (b & H2 & H). destruct (belongs_ok m cm b (proj1 MO) (proj2 MO) OC H2) as (NB & B). destruct b as [|b0 rest].
  - apply Ok_inv in H as <-. unfold cinv. cbn [fst snd].
    assert (FR : mget m (cluster_name n) = None). { destruct (mget m (cluster_name n)) as [c|] eqn:E; auto. destruct (NM _ _ E) as (i' & L & Q). apply cluster_name_inj in Q. lia. }
    assert (G : forall k, mget (dset String.eqb (cluster_name n) cm m) k = if String.eqb k (cluster_name n) then Some cm else mget m k) by (intros; apply (dget_dset _ string_eqb_ok)).
    assert (NB' : forall k c j x, mget m k = Some c -> cpts c j x -> cpts cm j x -> False) by (intros k c j x E X Y; exact (proj2 (B k) (ex_intro _ c (conj E (ex_intro _ j (ex_intro _ x (conj X Y))))))).
    split; [now apply mok_dset|]. split; [|split; [|split; [split|]]].
    + intros k c. rewrite G. destruct (String.eqb_spec k (cluster_name n)) as [->|]; intros E; [exists n; split; [lia|auto]|]. destruct (NM k c E) as (i' & L & Q). exists i'. split; [lia|auto].
    + intros k1 k2 c1 c2 j x. rewrite !G. destruct (String.eqb_spec k1 (cluster_name n)), (String.eqb_spec k2 (cluster_name n)); intros E1 E2 NE (X & Y).
      * congruence.
      * apply some_inv in E1 as <-. eapply NB'; eauto.
      * apply some_inv in E2 as <-. eapply NB'; eauto.
      * exact (AP k1 k2 c1 c2 j x E1 E2 NE (conj X Y)).
    + intros s [<-|I]; [exists (cluster_name n), cm; rewrite G, String.eqb_refl; auto|]. destruct (CV1 s I) as (k & c & E & X). exists k, c. split; auto. rewrite G.
      destruct (String.eqb_spec k (cluster_name n)) as [->|]; [congruence|auto].
    + intros k c j x. rewrite G. destruct (String.eqb_spec k (cluster_name n)); intros E X; [apply some_inv in E as <-; exists cm; split; [now left|auto]|].
      destruct (CV2 k c j x E X) as (s & I & Y). exists s. split; [now right|auto].
    + assert (NO : forall s, In s seen -> ~ overlap s cm). { intros s I (j & x & X & Y). destruct (CV1 s I) as (k & c & E & W). exact (NB' k c j x E (W j x X) Y). }
      intros k c s t. rewrite G. destruct (String.eqb_spec k (cluster_name n)) as [->|N]; intros E.
      * apply some_inv in E as <-. intros [<-|I1] [<-|I2] O1 O2; [constructor|destruct (NO t I2 O2)|destruct (NO s I1 O1)|destruct (NO s I1 O1)].
      * assert (NC : ~ overlap cm c) by (intros (j & x & X & Y); exact (NB' k c j x E Y X)).
        intros [<-|I1] [<-|I2] O1 O2; [constructor|contradiction|contradiction|]. apply link_mono. exact (LK k c s t E I1 I2 O1 O2).
  - apply bind_ok in H as (c0 & H3 & H). apply bind_ok in H as (c1 & H4 & H). apply bind_ok in H as (m' & H5 & H). apply Ok_inv in H as <-. apply dgetr_ok in H3. fold (mget m b0) in H3.
    pose proof (proj2 MO _ _ H3) as O0. destruct (cmap_union _ _ _ O0 OC H4) as (O1 & P1). inversion NB as [|? ? NI NR]; subst.
    assert (G : forall k, mget (dset String.eqb b0 c1 m) k = if String.eqb k b0 then Some c1 else mget m k) by (intros; apply (dget_dset _ string_eqb_ok)).
    destruct (merge_all b0 rest _ _ (mok_dset m b0 c1 MO O1) NR NI H5) as (MO' & c1' & c & E1 & E2 & P & Q & Z); [exists c1; now rewrite G, String.eqb_refl|].
    rewrite G, String.eqb_refl in E1. apply some_inv in E1 as <-.
    (* the other members are untouched and do not meet the interaction *)
    assert (OTH : forall k d, mget m' k = Some d -> k <> b0 -> mget m k = Some d /\ ~ In k rest).
    { intros k d E N. assert (NR' : ~ In k rest) by (intros I; rewrite Z in E by auto; discriminate). split; auto. rewrite Q in E by auto. rewrite G in E. destruct (String.eqb_spec k b0); [contradiction|auto]. }
    assert (PC : forall j x, cpts c j x <-> cpts c0 j x \/ cpts cm j x \/ exists k ck, In k rest /\ mget m k = Some ck /\ cpts ck j x).
    { intros j x. rewrite P, P1. split.
      - intros [[X|X]|(k & ck & I & E & X)]; auto. right; right. exists k, ck. split; auto. split; auto. rewrite G in E. destruct (String.eqb_spec k b0) as [->|]; [contradiction|auto].
      - intros [X|[X|(k & ck & I & E & X)]]; auto. right. exists k, ck. split; auto. split; auto. rewrite G. destruct (String.eqb_spec k b0) as [->|]; [contradiction|auto]. }
    assert (DIS : forall k d j x, mget m' k = Some d -> k <> b0 -> ~ (cpts c j x /\ cpts d j x)).
    { intros k d j x E N (X & Y). destruct (OTH k d E N) as (E' & NR'). apply PC in X as [X|[X|(k' & ck & I & E3 & X)]].
      - exact (AP b0 k c0 d j x H3 E' (fun q => N (eq_sym q)) (conj X Y)).
      - assert (K : In k (b0 :: rest)) by (apply B; exists d; split; eauto). destruct K as [K|K]; [congruence|contradiction].
      - apply (AP k' k ck d j x E3 E'); auto. intros ->. contradiction. }
    unfold cinv. cbn [fst snd]. split; [exact MO'|]. split; [|split; [|split; [split|]]].
    + intros k d E. destruct (string_dec k b0) as [->|N]; [exact (NM _ _ H3)|]. exact (NM _ _ (proj1 (OTH k d E N))).
    + intros k1 k2 d1 d2 j x F1 F2 N (X & Y). destruct (string_dec k1 b0) as [->|N1].
      * rewrite E2 in F1. apply some_inv in F1 as <-. exact (DIS k2 d2 j x F2 (fun q => N (eq_sym q)) (conj X Y)).
      * destruct (string_dec k2 b0) as [->|N2]; [rewrite E2 in F2; apply some_inv in F2 as <-; exact (DIS k1 d1 j x F1 N1 (conj Y X))|].
        exact (AP k1 k2 d1 d2 j x (proj1 (OTH _ _ F1 N1)) (proj1 (OTH _ _ F2 N2)) N (conj X Y)).
    + intros s [<-|I]; [exists b0, c; split; auto; intros j x X; apply PC; auto|]. destruct (CV1 s I) as (k & d & E & X).
      destruct (string_dec k b0) as [->|N]; [rewrite H3 in E; apply some_inv in E as <-; exists b0, c; split; auto; intros j x Y; apply PC; auto|].
      destruct (in_dec string_dec k rest) as [J|J]; [exists b0, c; split; auto; intros j x Y; apply PC; right; right; exists k, d; auto|].
      exists k, d. split; auto. rewrite Q by auto. rewrite G. destruct (String.eqb_spec k b0); [contradiction|auto].
    + intros k d j x E X. destruct (string_dec k b0) as [->|N].
      * rewrite E2 in E. apply some_inv in E as <-. apply PC in X as [X|[X|(k' & ck & I & E3 & X)]].
        -- destruct (CV2 b0 c0 j x H3 X) as (s & I & Y & W). exists s. split; [now right|]. split; auto. intros j' x' V. apply PC. auto.
        -- exists cm. split; [now left|]. split; auto. intros j' x' V. apply PC. auto.
        -- destruct (CV2 k' ck j x E3 X) as (s & J & Y & W). exists s. split; [now right|]. split; auto. intros j' x' V. apply PC. right; right. exists k', ck. auto.
      * destruct (CV2 k d j x (proj1 (OTH _ _ E N)) X) as (s & I & Y). exists s. split; [now right|auto].
    + assert (TO : forall s, In s (cm :: seen) -> overlap s c -> link (cm :: seen) cm s).
      { intros s [<-|I] (j & x & X & Y); [constructor|]. destruct (CV1 s I) as (k & d & E & W).
        assert (K : In k (b0 :: rest)).
        { destruct (string_dec k b0) as [->|N]; [now left|]. destruct (in_dec string_dec k rest) as [J|J]; [now right|]. exfalso. apply (DIS k d j x); auto. rewrite Q by auto. rewrite G. destruct (String.eqb_spec k b0); [contradiction|auto]. }
        apply B in K as (d' & E' & j' & x' & V1 & V2). rewrite E in E'. apply some_inv in E' as <-. destruct (CV2 k d j' x' E V1) as (s' & I' & V3 & V4).
        apply (link_trans _ cm s' s); [apply (lk_step _ cm cm s' (lk_refl _ cm)); [now left|now right|exists j', x'; auto]|]. apply link_mono.
        apply (LK k d s' s E I' I); [exists j', x'; auto|exists j, x; auto]. }
      intros k d s t E I1 I2 V1 V2. destruct (string_dec k b0) as [->|N].
      * rewrite E2 in E. apply some_inv in E as <-. exact (link_trans _ s cm t (link_sym _ _ _ (TO s I1 V1)) (TO t I2 V2)).
      * assert (NC : ~ overlap cm d) by (intros (j & x & X & Y); apply (DIS k d j x E N); split; auto; apply PC; auto).
        destruct I1 as [<-|I1]; [contradiction|]. destruct I2 as [<-|I2]; [contradiction|]. apply link_mono. exact (LK k d s t (proj1 (OTH k d E N)) I1 I2 V1 V2).
Qed.
Definition ia_ok (i : interaction) : Prop := is_geom1d (ia_range i) /\ is_geom1d (ia_other_range i).
Lemma adds_ok sp l : forall st st' seen, cinv st seen -> Forall ia_ok l -> foldM (add_interaction sp) l st = Ok st' ->
  exists cs, Forall2 (fun i c => cmap_of sp i = Ok c) l cs /\ cinv st' (rev cs ++ seen).
Proof.
  induction l as [|i l IH]; intros st st' seen C F H; cbn [foldM] in H.
  - apply Ok_inv in H as <-. exists []. split; [constructor|auto].
  - apply bind_ok in H as (s1 & H1 & H). inversion F as [|? ? (F1 & F2) F3]; subst. destruct (add_ok sp st i s1 seen C F1 F2 H1) as (c & E & C1).
    destruct (IH s1 st' (c :: seen) C1 F3 H) as (cs & A & B). exists (c :: cs). split; [constructor; auto|]. cbn [rev]. now rewrite <- app_assoc.
Qed.
Lemma clusters_ok sp by_inter m : Forall (fun e => Forall ia_ok (snd e)) by_inter -> find_interaction_clusters sp by_inter = Ok m ->
  exists n cs, Forall2 (fun i c => cmap_of sp i = Ok c) (flat_map snd by_inter) cs /\ cinv (m, n) (rev cs).
Proof.
  intros F H. unfold find_interaction_clusters in H. apply bind_ok in H as ((m' & n) & H & H'). apply Ok_inv in H' as <-. exists n.
  assert (I : cinv ([], O) []). { split; [split; [constructor|discriminate]|]. split; [discriminate|]. split; [discriminate|]. split; [split; [intros s []|discriminate]|discriminate]. }
  assert (G : forall l st st' seen, cinv st seen -> Forall (fun e : string * list interaction => Forall ia_ok (snd e)) l ->
    foldM (fun st e => foldM (add_interaction sp) (snd e) st) l st = Ok st' -> exists cs, Forall2 (fun i c => cmap_of sp i = Ok c) (flat_map snd l) cs /\ cinv st' (rev cs ++ seen)).
  { clear. induction l as [|e l IH]; intros st st' seen C F H; cbn [foldM] in H; [apply Ok_inv in H as <-; exists []; split; [constructor|auto]|].
    apply bind_ok in H as (s1 & H1 & H). inversion F; subst. destruct (adds_ok sp _ _ _ _ C H3 H1) as (c1 & A1 & B1). destruct (IH s1 st' _ B1 H4 H) as (c2 & A2 & B2).
    exists (c1 ++ c2). split; [cbn [flat_map]; now apply Forall2_app|]. now rewrite rev_app_distr, <- app_assoc. }
  destruct (G _ _ _ _ I F H) as (cs & A & B). exists cs. split; auto. now rewrite app_nil_r in B.
Qed.
