(** * What deciding one cluster changes, and which interactions there are *)
From Verif.Spec Require Import PointSet1 Steps.
From Verif.Model Require Import Heuristics.
From Verif.Proofs Require Import PyP ExtOrd DictP Geom1dP Geom1dM SheetplexP FingerP SheetbuildP HeuristicsP ClusterP HeuStepsP StepsP.
From Verif.Props Require Import Geom1dProps SheetplexProps SheetbuildProps AssignProps.
From Verif.Proofs Require SweepOrd.
From Coq Require Import String Permutation Sorted.
Open Scope Qc_scope.

Lemma ext_pts i g : elt (fst i) (snd i) -> Geom1D_ext [i] = Ok g -> forall x, pts g x <-> in_iv x i.
Proof.
  intros LT H x. unfold Geom1D_ext in H. cbn [map] in H. assert (C : conv_interval [Heuristics.num (fst i); Heuristics.num (snd i)] = Ok i).
  { destruct i as [[|q|] [|q0|]]; cbn [fst snd] in LT; unfold elt in LT; try tauto; unfold conv_interval, py_leb; cbn [Heuristics.num pval fst snd]; unfold eleb; try reflexivity. destruct (qleb_spec q q0); [reflexivity|exfalso; qlra]. }
  destruct (Geom1D_ok [[Heuristics.num (fst i); Heuristics.num (snd i)]]) as (E & V); [intros j [<-|[]]; eauto|]. rewrite H in E. apply Ok_inv in E as ->. rewrite pts_epts, normalize_epts by auto. cbn [map]. unfold conv_pure. rewrite C. rewrite epts_cons.
  split; [intros [X|X]; [exact X|]|intros X; left; exact X]. exfalso. destruct X as (? & [] & _).
Qed.
Lemma forall2_back {X Y} (R : X -> Y -> Prop) l m y : Forall2 R l m -> In y m -> exists x, In x l /\ R x y.
Proof. induction 1 as [|a b l m H F IH]; [intros []|]. intros [<-|I]; [exists a; split; [now left|auto]|]. destruct (IH I) as (x & Ix & Hx). exists x. split; [now right|auto]. Qed.
(** the intervals of a normal set differ in their starts *)
Lemma normal_starts g : normal g -> forall i j, In i g -> In j g -> fst i = fst j -> i = j.
Proof.
  assert (AB : forall g, normal g -> forall i j h, g = i :: h -> In j h -> elt (fst i) (fst j)).
  { clear g. induction g as [|k g IH]; intros N i j h E I; [discriminate|]. injection E as -> ->. destruct h as [|k h]; [destruct I|]. destruct i as [a b], k as [c d]. destruct N as (N1 & N2 & N3). cbn [fst]. assert (AC : elt a c) by exact (elt_trans _ _ _ N1 N3).
    destruct I as [<-|I]; [exact AC|]. exact (elt_trans _ _ _ AC (IH N2 _ _ _ eq_refl I)). }
  induction g as [|k g IH]; intros N i j Hi Hj E; [destruct Hi|]. assert (N' : normal g) by (destruct k; apply N). destruct Hi as [<-|Hi], Hj as [<-|Hj]; auto.
  - pose proof (AB _ N _ _ _ eq_refl Hj) as X. rewrite E in X. destruct (elt_irrefl _ X).
  - pose proof (AB _ N _ _ _ eq_refl Hi) as X. rewrite E in X. destruct (elt_irrefl _ X).
Qed.
Lemma normal_uniq g : normal g -> NoDup g.
Proof.
  induction g as [|i g IH]; intros N; constructor.
  - intros I. destruct i as [a b]. destruct g as [|(c, d) g]; [destruct I|]. destruct N as (N1 & N2 & N3). clear IH.
    assert (LT : forall g c d, normal ((c, d) :: g) -> forall e, elt b c -> In e ((c, d) :: g) -> elt b (fst e)).
    { clear. induction g as [|(u, v) g IH]; intros c d N e BC [<-|I]; [exact BC|destruct I|exact BC|]. destruct N as (N1 & N2 & N3). apply (IH u v N2 e); [|exact I]. exact (elt_trans _ _ _ BC (elt_trans _ _ _ N1 N3)). }
    pose proof (LT g c d N2 (a, b) N3 I) as X. cbn [fst] in X. exact (elt_irrefl _ (elt_trans _ _ _ N1 X)).
  - apply IH. destruct i; apply N.
Qed.
Definition len (i : iv) : ext := match esub (snd i) (fst i) with Some e => e | None => NInf end.
Definition shorter (i j : iv) : Prop := elt (len i) (len j) \/ (len i = len j /\ elt (fst i) (fst j)).
Lemma shorter_trans a b c : shorter a b -> shorter b c -> shorter a c.
Proof.
  unfold shorter. intros [H1|(H1 & H2)] [H3|(H3 & H4)].
  - left. exact (elt_trans _ _ _ H1 H3).
  - left. now rewrite <- H3.
  - left. now rewrite H1.
  - right. split; [congruence|exact (elt_trans _ _ _ H2 H4)].
Qed.
Lemma key_cases i j : elt (fst i) (snd i) -> elt (fst j) (snd j) -> fst i <> fst j -> (iv_key_ltb i j = true /\ shorter i j) \/ (iv_key_ltb i j = false /\ shorter j i).
Proof.
  intros H1 H2 NE. assert (E1 : esub (snd i) (fst i) = Some (len i)) by (unfold len; destruct i as [[|a|] [|b|]]; cbn [fst snd] in *; unfold elt in H1; solve [reflexivity|tauto]). assert (E2 : esub (snd j) (fst j) = Some (len j)) by (unfold len; destruct j as [[|a|] [|b|]]; cbn [fst snd] in *; unfold elt in H2; solve [reflexivity|tauto]).
  unfold iv_key_ltb. rewrite E1, E2. unfold opt_ltb, opt_eqb. unfold shorter. destruct (eltb_spec (len i) (len j)) as [L|L]; [left; split; [reflexivity|auto]|]. cbn [orb]. destruct (eeqb_spec (len i) (len j)) as [E|N]; cbn [andb].
  - destruct (eltb_spec (fst i) (fst j)) as [K|K]; [left; auto|right]. split; [auto|]. right. split; [auto|]. apply enlt in K. apply ele_cases in K as [K|K]; [exact K|congruence].
  - right. split; [auto|]. left. apply enlt in L. apply ele_cases in L as [L|L]; [exact L|congruence].
Qed.
(** the last interval of the sorted list is a longest one *)
Lemma longest_last g i r : normal g -> rev (sort_by iv_key_ltb g) = i :: r -> In i g /\ forall j, In j g -> ele (len j) (len i).
Proof.
  intros N E. assert (E' : sort_by iv_key_ltb g = rev r ++ [i]) by (pose proof (f_equal (@rev _) E) as F; rewrite rev_involutive in F; exact F).
  assert (I : In i g) by (apply (sort_by_in iv_key_ltb); rewrite E'; apply in_app_iff; right; now left). split; [exact I|]. intros j J.
  assert (SS : StronglySorted shorter (sort_by iv_key_ltb g)).
  { apply SweepOrd.sort_by_ss; [exact shorter_trans| |now apply normal_uniq]. intros x y X Y NE. apply key_cases; [now apply (normal_In g)|now apply (normal_In g)|]. intros Q. exact (NE (normal_starts g N x y X Y Q)). }
  apply (sort_by_in iv_key_ltb) in J. rewrite E' in J, SS. apply in_app_iff in J as [J|[<-|[]]]; [|apply ele_refl]. assert (S : shorter j i).
  { clear -J SS. induction (rev r) as [|k l IH]; [destruct J|]. cbn [app] in SS. inversion SS as [|? ? S1 S2]; subst. destruct J as [<-|J]; [|auto]. rewrite Forall_forall in S2. apply S2. apply in_app_iff. right. now left. }
  destruct S as [S|(S & _)]; [now apply elt_le|rewrite S; apply ele_refl].
Qed.

Section D.
Variable A : arr_impl.
Variable fsqrt : Qc -> Qc.
Variable sp : sheetplex.
Hypothesis M : plex_made sp.
Variable ord : dict string geom1d -> dict string geom1d.
Variable sord : list string -> list string.
Hypothesis ORD : forall c, Permutation c (ord c).

(** where the side [s] may take an extra connection to the cluster [cl]: ok for it, beside its range in the cluster and at most 3.2 away *)
Definition available (sb : sbuild) (cl : cluster) (s : interside) (x : Qc) : Prop :=
  pts (ok_of sb (is_id s)) x /\ ~ cpts cl (is_inter s) x /\ exists y, cpts cl (is_inter s) y /\ x - qq 16 5 <= y /\ y <= x + qq 16 5.
(** a longest available interval, of length 3/2 or more *)
Definition extra_range (sb : sbuild) (cl : cluster) (s : interside) (i : ext * ext) : Prop :=
  (forall x, in_iv x i -> available sb cl s x) /\
  (forall a b, i = (Fin a, Fin b) -> qq 3 2 <= b - a /\ forall c d, c < d -> (forall x, c <= x -> x < d -> available sb cl s x) -> d - c <= b - a).
Lemma extra_exact sb l : forall cl c, legal sp sb -> cl_ok cl -> cgeom cl -> (forall s, In s l -> side_of sp s) -> find_extra sb cl l = Ok (Some c) ->
  exists s i, In s l /\ In (is_inter s) (keys cl) /\ extra_range sb cl s i /\ forall j x, cpts c j x <-> cpts cl j x \/ (j = is_inter s /\ in_iv x i).
Proof.
  induction l as [|s l IH]; intros cl c L O G S H; cbn [find_extra] in H; [discriminate|]. assert (IH' := fun HH => IH cl c L O G (fun t I => S t (or_intror I)) HH). clear IH.
  assert (IH : find_extra sb cl l = Ok (Some c) -> exists t i, In t (s :: l) /\ In (is_inter t) (keys cl) /\ extra_range sb cl t i /\ forall j x, cpts c j x <-> cpts cl j x \/ (j = is_inter t /\ in_iv x i)).
  { intros HH. destruct (IH' HH) as (t & i & I & R). exists t, i. split; [now right|exact R]. } clear IH'.
  apply bind_ok in H as (it & IT & H). apply bind_ok in H as (dr & D & H). apply bind_ok in H as (mr & B & H). apply bind_ok in H as (k & K & H). apply bind_ok in H as (mr2 & B2 & H). apply bind_ok in H as (mr3 & B3 & H).
  destruct (rev _) as [|i r] eqn:ER; [exact (IH H)|]. destruct (opt_ltb _ _) eqn:TS; [exact (IH H)|]. clear IH.
  apply bind_ok in H as (p & P & H). apply bind_ok in H as (g & GG & H). apply bind_ok in H as (x & X & H). apply Ok_inv in H. apply some_inv in H as <-.
  rewrite (iv_plex sp sb L) in IT. apply dgetr_ok in IT. apply (dget_in _ string_eqb_ok) in IT. destruct (made_two sp _ it M IT) as (_ & _ & _ & _ & EI & _). rewrite EI in D.
  assert (p = dr) by (unfold gcl, dgetr in *; congruence). subst p.
  pose proof (cgeom_get _ _ _ G P) as Gp. pose proof (is_geom1d_normal _ Gp) as Np. pose proof (legal_iok sp _ _ _ L K) as Gk. pose proof (is_geom1d_normal _ Gk) as Nk.
  pose proof (is_geom1d_buffer _ _ _ Gp B) as Gb. pose proof (is_geom1d_and _ _ _ Gb Gk B2) as G2. pose proof (is_geom1d_sub _ _ _ G2 Gp B3) as G3. apply is_geom1d_normal in Gb, G2, G3.
  apply dgetr_ok in P. assert (PC : forall y, cpts cl (is_inter s) y <-> pts dr y) by (intros y; now apply cpts_get). apply dgetr_ok in K. assert (EK : ok_of sb (is_id s) = k) by now apply opt_get.
  rewrite buffer_q_ok in B. apply Ok_inv in B. assert (EM : min_finger + eps = qq 16 5) by (apply Qc_is_canon; reflexivity). rewrite EM in B.
  assert (AV : forall y, pts mr3 y <-> available sb cl s y).
  { intros y. unfold available. rewrite (sub_pts _ _ _ y G2 Np B3), (and_pts _ _ _ y Gb Nk B2), EK, PC, <- B. rewrite buffer_minkowski; [|exact Np|vm_compute; discriminate]. split.
    - intros ((E1 & E2) & E3). split; [auto|]. split; [auto|]. destruct E1 as (z & Z & W). exists z. split; [now apply PC|exact W].
    - intros (E1 & E2 & z & Z & W). split; [split; [|auto]|auto]. exists z. split; [now apply PC|exact W]. }
  destruct (longest_last _ _ _ G3 ER) as (II & LO). pose proof (normal_In _ _ G3 II) as LT. pose proof (ext_pts i g LT GG) as PG. pose proof (is_geom1d_normal _ (is_geom1d_new _ _ GG)) as Ng.
  exists s, i. split; [now left|]. split; [apply (dget_in _ string_eqb_ok) in P; unfold keys; apply in_map_iff; exists (is_inter s, dr); auto|]. split; [split|].
  - intros y Y. apply AV. exists i. auto.
  - intros a b ->. cbn [fst snd esub opt_ltb] in TS. split; [destruct (eltb_spec (Fin (b - a)) (Fin (qq 3 2))) as [Q|Q]; [discriminate|]; apply enlt in Q; exact Q|].
    intros u v UV F. destruct (one_piece mr3 G3 u v UV) as (j & J & J1 & J2); [intros y Y1 Y2; apply AV; auto|]. specialize (LO j J). unfold len in LO. cbn [fst snd esub] in LO. destruct j as [[|j1|] [|j2|]]; cbn [fst snd esub] in J1, J2, LO; unfold ele in J1, J2, LO; try tauto. clear -J1 J2 LO. qlra.
  - intros j y. rewrite cpts_dset. destruct (eqb_case _ string_eqb_ok j (is_inter s)) as [(-> & ->)|(-> & NJ)].
    + rewrite (or_pts _ _ _ y Np Ng X), PC, PG. tauto.
    + tauto.
Qed.
(** the sides of [l] take their ranges in [cl] *)
Lemma choose_fold cl C l : cl_ok cl -> cgeom cl -> (forall s, In s l -> side_of sp s /\ is_sheet s = C) -> forall a b, legal sp a -> foldM (choose_side A cl) l a = Ok b ->
  legal sp b /\ forall s x, side_of sp s ->
    (pts (chosen_of b (is_id s)) x <-> pts (chosen_of a (is_id s)) x \/ (In s l /\ cpts cl (is_inter s) x /\ pts (ok_of a (is_id s)) x)) /\
    (pts (ok_of b (is_id s)) x <-> pts (ok_of a (is_id s)) x /\ ~ (exists t, joint sp t s /\ In t l /\ cpts cl (is_inter t) x /\ pts (ok_of a (is_id t)) x)).
Proof.
  intros O G. induction l as [|s0 l IH]; intros S a b L H; cbn [foldM] in H.
  { apply Ok_inv in H as <-. split; [auto|]. intros s x _. cbn [In]. split; [tauto|]. split; [intros X; split; [auto|intros (? & _ & [] & _)]|tauto]. }
  apply bind_ok in H as (a1 & H1 & H). unfold choose_side in H1. apply bind_ok in H1 as (c & E1 & H1). apply bind_ok in H1 as (k & K & H1). apply bind_ok in H1 as (r & R & H1).
  pose proof (cgeom_get _ _ _ G E1) as Gc. pose proof (legal_iok sp _ _ _ L K) as Gk. pose proof (is_geom1d_and _ _ _ Gc Gk R) as Gr.
  pose proof (legal_steps A sp M _ _ L (one_choose A (Kc:=geoms_of A) _ _ _ _ _ Gr H1)) as L1. assert (MP : plex_made (sb_plex a)) by now rewrite (iv_plex sp a L).
  destruct (choose_local A a (is_id s0) r false a1 MP (legal_legal1 sp a L) Gr H1) as (s1 & o & J & E & _ & C1 & C2 & K1 & K2 & _). rewrite (iv_plex sp a L) in J. destruct (S s0 (or_introl eq_refl)) as (S0 & ES0).
  assert (s1 = s0) by (apply (made_unique sp); auto; apply J). subst s1. apply dgetr_ok in E1, K. assert (EK : ok_of a (is_id s0) = k) by now apply opt_get.
  assert (PR : forall x, pts r x <-> cpts cl (is_inter s0) x /\ pts (ok_of a (is_id s0)) x). { intros x. rewrite (and_pts _ _ _ x (is_geom1d_normal _ Gc) (is_geom1d_normal _ Gk) R), EK, (cpts_get _ _ _ x E1). tauto. }
  destruct (IH (fun t I => S t (or_intror I)) a1 b L1 H) as (Lb & Q). split; [exact Lb|]. intros s x Hs. destruct (Q s x Hs) as (Q1 & Q2). pose proof J as (_ & JO). pose proof (joint_sym sp M _ _ J) as J'.
  destruct (made_opp sp s0 M S0) as (o' & O1 & O2 & O3 & O4 & O5 & O6 & _). rewrite JO in O1. apply Ok_inv in O1 as <-.
  assert (OKC : forall t, side_of sp t -> (pts (ok_of a1 (is_id t)) x <-> pts (ok_of a (is_id t)) x /\ ~ (t = o /\ pts r x))).
  { intros t Ht. destruct (eqb_case _ id2_eqb_ok (is_id t) (is_id o)) as [(_ & E')|(_ & E')].
    - assert (t = o) by (apply (made_unique sp); auto). subst t. rewrite K2. tauto.
    - assert (EE : ok_of a1 (is_id t) = ok_of a (is_id t)) by now apply (only_of _ _ _ _ K1). rewrite EE. split; [intros X; split; [auto|intros (-> & _); auto]|tauto]. }
  assert (CHC : pts (chosen_of a1 (is_id s)) x <-> pts (chosen_of a (is_id s)) x \/ (s = s0 /\ pts r x)).
  { destruct (eqb_case _ id2_eqb_ok (is_id s) (is_id s0)) as [(_ & E')|(_ & E')].
    - assert (s = s0) by (apply (made_unique sp); auto). subst s. rewrite C2. tauto.
    - assert (EE : chosen_of a1 (is_id s) = chosen_of a (is_id s)) by now apply (only_of _ _ _ _ C1). rewrite EE. split; [auto|intros [X|(-> & _)]; [auto|congruence]]. }
  (* a side of [l] is not the opposite of [s0]: it is on the same sheet *)
  assert (OKL : forall t, In t l -> (pts (ok_of a1 (is_id t)) x <-> pts (ok_of a (is_id t)) x)).
  { intros t It. destruct (S t (or_intror It)) as (Ht & Et). rewrite (OKC t Ht). split; [tauto|]. intros X. split; [auto|]. intros (-> & _). congruence. }
  split.
  - rewrite Q1, CHC, PR. cbn [In]. split.
    + intros [[X|(-> & X)]|(I & X & Y)]; [auto|right; split; [auto|exact X]|]. right. split; [auto|]. split; [auto|]. now apply OKL.
    + intros [X|([<-|I] & X & Y)]; [auto|auto|]. right. split; [auto|]. split; [auto|]. now apply OKL.
  - rewrite Q2, (OKC s Hs). split.
    + intros ((X & N1) & N2). split; [auto|]. intros (t & Jt & It & Y & Z). destruct It as [<-|It].
      * apply N1. destruct Jt as (_ & Jt). rewrite JO in Jt. apply Ok_inv in Jt as <-. split; [reflexivity|]. apply PR. auto.
      * apply N2. exists t. split; [auto|]. split; [auto|]. split; [auto|]. now apply OKL.
    + intros (X & N). split; [split; [auto|]|].
      * intros (-> & Y). apply N. exists s0. split; [exact J|]. split; [now left|]. now apply PR.
      * intros (t & Jt & It & Y & Z). apply N. exists t. split; [auto|]. split; [now right|]. split; [auto|]. now apply OKL.
Qed.
(** the other sheets give the ranges up *)
Lemma give_side C r l : is_geom1d r -> (forall s, In s l -> side_of sp s) -> forall a b, legal sp a -> foldM (fun b s => if String.eqb (is_sheet s) C then Ok b else unchoose_interside b (is_id s) r) l a = Ok b ->
  legal sp b /\ sb_ichosen b = sb_ichosen a /\ forall s x, side_of sp s -> (pts (ok_of b (is_id s)) x <-> pts (ok_of a (is_id s)) x /\ ~ (In s l /\ is_sheet s <> C /\ pts r x)).
Proof.
  intros G. induction l as [|t l IH]; intros S a b L H; cbn [foldM] in H.
  { apply Ok_inv in H as <-. split; [auto|]. split; [auto|]. intros s x _. cbn [In]. tauto. }
  apply bind_ok in H as (a1 & H1 & H). destruct (String.eqb_spec (is_sheet t) C) as [E|N].
  - apply Ok_inv in H1 as <-. destruct (IH (fun s I => S s (or_intror I)) a b L H) as (L1 & E1 & Q). split; [auto|]. split; [auto|]. intros s x Hs. rewrite (Q s x Hs). cbn [In]. split; intros (X & Y); (split; [auto|]); intros (I & N & Z); apply Y; auto.
    destruct I as [<-|I]; [congruence|auto].
  - pose proof (legal_steps A sp M _ _ L (one_unchoose A (Kc:=geoms_of A) _ _ _ _ G H1)) as L1. assert (MP : plex_made (sb_plex a)) by now rewrite (iv_plex sp a L).
    destruct (unchoose_local a (is_id t) r a1 MP (legal_legal1 sp a L) G H1) as (_ & C1 & _ & _ & _ & K1 & U). destruct (IH (fun s I => S s (or_intror I)) a1 b L1 H) as (L2 & E2 & Q). split; [auto|]. split; [congruence|].
    intros s x Hs. rewrite (Q s x Hs). cbn [In]. destruct (eqb_case _ id2_eqb_ok (is_id s) (is_id t)) as [(_ & E')|(_ & E')].
    + assert (s = t) by (apply (made_unique sp); auto; apply S; now left). subst s. rewrite U. destruct (pts_dec r x); tauto.
    + assert (EE : ok_of a1 (is_id s) = ok_of a (is_id s)) by now apply (only_of _ _ _ _ K1). rewrite EE. split; intros (X & Y); (split; [auto|]); intros (I & N' & Z); apply Y; auto. destruct I as [->|I]; [congruence|auto].
Qed.
Lemma give_fold C l : (forall j r, In (j, r) l -> is_geom1d r) -> forall a b, legal sp a -> foldM (unchoose_others C) l a = Ok b ->
  legal sp b /\ sb_ichosen b = sb_ichosen a /\ forall s x, side_of sp s -> (pts (ok_of b (is_id s)) x <-> pts (ok_of a (is_id s)) x /\ ~ (is_sheet s <> C /\ exists r, In (is_inter s, r) l /\ pts r x)).
Proof.
  induction l as [|(j, r) l IH]; intros G a b L H; cbn [foldM] in H.
  { apply Ok_inv in H as <-. split; [auto|]. split; [auto|]. intros s x _. cbn [In]. split; [|tauto]. intros X. split; [auto|]. intros (_ & ? & [] & _). }
  apply bind_ok in H as (a1 & H1 & H). unfold unchoose_others in H1. cbn [fst snd] in H1. apply bind_ok in H1 as (it & IT & H1). rewrite (iv_plex sp a L) in IT. apply dgetr_ok in IT. apply (dget_in _ string_eqb_ok) in IT.
  destruct (give_side C r (it_sides it) (G j r (or_introl eq_refl)) (fun s I => ex_intro _ j (ex_intro _ it (conj IT I))) a a1 L H1) as (L1 & E1 & Q1).
  destruct (IH (fun k r I => G k r (or_intror I)) a1 b L1 H) as (L2 & E2 & Q2). split; [auto|]. split; [congruence|]. intros s x Hs. rewrite (Q2 s x Hs), (Q1 s x Hs).
  assert (SI : In s (it_sides it) <-> is_inter s = j).
  { split; [intros I; exact (proj1 (made_sides sp j it s M IT I))|]. intros E. destruct Hs as (k & it' & I' & Is). destruct (made_sides sp k it' s M I' Is) as (E' & _). rewrite E in E'. subst k. now rewrite (inters_unique sp M j it it' IT I'). }
  split.
  - intros ((X & N1) & N2). split; [auto|]. intros (NC & r' & I & Y). destruct I as [I|I]; [|apply N2; split; [auto|]; exists r'; auto]. apply pair_inv in I as (E & <-). apply N1. rewrite SI. auto.
  - intros (X & N). split; [split; [auto|]|].
    + intros (I & NC & Y). apply N. split; [auto|]. exists r. apply SI in I as <-. split; [now left|auto].
    + intros (NC & r' & I & Y). apply N. split; [auto|]. exists r'. split; [now right|auto].
Qed.
Lemma decide_exact st cl st' : legal sp (fst st) -> cl_ok cl -> cgeom cl -> decide_cluster A fsqrt ord sord st cl = Ok st' -> legal sp (fst st') /\ exists C cl',
  (cl' = cl \/ exists s i, side_of sp s /\ is_sheet s = C /\ extra_range (fst st) cl s i /\ forall j x, cpts cl' j x <-> cpts cl j x \/ (j = is_inter s /\ in_iv x i)) /\
  forall s x, side_of sp s ->
    (pts (chosen_of (fst st') (is_id s)) x <-> pts (chosen_of (fst st) (is_id s)) x \/ (is_sheet s = C /\ cpts cl' (is_inter s) x /\ pts (ok_of (fst st) (is_id s)) x)) /\
    (pts (ok_of (fst st') (is_id s)) x <-> pts (ok_of (fst st) (is_id s)) x /\ ~ (is_sheet s <> C /\ cpts cl' (is_inter s) x)).
Proof.
  intros L O G H. destruct st as [sb ci]. unfold decide_cluster in H. cbn [fst] in *. rewrite (iv_plex sp sb L) in H. apply bind_ok in H as (its & ITS & H). apply bind_ok in H as (shs & SHS & H). apply bind_ok in H as (off & OFF & H). apply bind_ok in H as (ch & CH & H).
  destruct (nth_error shs ch) as [sh|] eqn:ESH; [|discriminate]. destruct (nth_error off ch) as [(a & ne)|] eqn:EOF; [|discriminate]. clear OFF CH EOF SHS ESH off shs. apply bind_ok in H as (cl' & H1 & H).
  set (l := match dget String.eqb (sh_id sh) (fold_left by_sheet (flat_map it_sides its) []) with Some l => l | None => [] end) in *.
  assert (IL : forall s, In s l <-> side_of sp s /\ is_sheet s = sh_id sh /\ In (is_inter s) (keys cl)).
  { apply PyP.mapM_ok in ITS. intros s. unfold l. rewrite by_sheet_get. cbn [dget In]. split.
    - intros [[]|(I & E)]. apply in_flat_map in I as (it & I & Is). destruct (forall2_back _ _ _ _ ITS I) as (k & Ik & D). apply dgetr_ok in D. apply (dget_in _ string_eqb_ok) in D. split; [exists k, it; auto|]. split; [auto|].
      destruct (made_sides sp k it s M D Is) as (-> & _). unfold keys in *. apply in_map_iff in Ik as (e & <- & Ie). apply in_map. exact (Permutation_in _ (Permutation_sym (ORD cl)) Ie).
    - intros ((k & it & I & Is) & E & IK). right. split; [|auto]. apply in_flat_map. exists it. split; [|exact Is]. destruct (made_sides sp k it s M I Is) as (E1 & _). rewrite E1 in IK.
      assert (IK' : In k (keys (ord cl))) by (unfold keys in *; apply in_map_iff in IK as (e & <- & Ie); apply in_map; exact (Permutation_in _ (ORD cl) Ie)).
      destruct (Forall2_in _ _ _ _ ITS IK') as (it' & I2 & E2). apply dgetr_ok in E2. apply (dget_in _ string_eqb_ok) in E2. now rewrite <- (inters_unique sp M k it' it E2 I). }
  clearbody l. clear ITS its.
  assert (LG : cl_ok cl' /\ cgeom cl' /\ (forall j x, cpts cl' j x -> In j (keys cl)) /\ (cl' = cl \/ exists s i, side_of sp s /\ is_sheet s = sh_id sh /\ extra_range sb cl s i /\ forall j x, cpts cl' j x <-> cpts cl j x \/ (j = is_inter s /\ in_iv x i))).
  { assert (KY : forall j x, cpts cl j x -> In j (keys cl)). { intros j x X. apply cpts_some in X as (g & D & _). apply (dget_in _ string_eqb_ok) in D. unfold keys. apply in_map_iff. exists (j, g). auto. }
    destruct ne; [|apply Ok_inv in H1 as <-; auto]. apply bind_ok in H1 as ([c|] & H1 & H2); [|discriminate]. apply Ok_inv in H2 as <-. destruct (extra_larger sp sb _ _ _ L O G H1) as (X & _).
    destruct (extra_exact sb l cl c L O G (fun s I => proj1 (proj1 (IL s) I)) H1) as (s & i & Is & KS & EX & PC). split; [auto|]. split; [exact (extra_geom sp sb _ _ _ L G H1)|]. split.
    - intros j x Y. apply PC in Y as [Y|(-> & _)]; [exact (KY j x Y)|exact KS].
    - right. exists s, i. apply IL in Is as (S1 & S2 & _). auto. }
  destruct LG as (O' & G' & KY & LG). clear H1. apply bind_ok in H as ((sb0 & ci0) & H1 & H). apply hcheck_ok in H1. cbn [fst] in H1. subst sb0. apply bind_ok in H as (sb1 & H1 & H). apply bind_ok in H as (sb2 & H2 & H). apply hcheck_ok in H. rewrite H. cbn [fst]. clear H.
  destruct (choose_fold cl' (sh_id sh) l O' G') with (a := sb) (b := sb1) as (L1 & Q1); [intros s I; apply IL in I; tauto|exact L|exact H1|].
  destruct (give_fold (sh_id sh) (ord cl')) with (a := sb1) (b := sb2) as (L2 & EC & Q2); [intros j r I; apply (Permutation_in _ (Permutation_sym (ORD cl'))) in I; exact (G' _ _ I)|exact L1|exact H2|].
  split; [exact L2|]. exists (sh_id sh), cl'. split; [exact LG|]. intros s x Hs. destruct (Q1 s x Hs) as (Q11 & Q12). specialize (Q2 s x Hs). split.
  - unfold chosen_of at 1. rewrite EC. fold (chosen_of sb1 (is_id s)). rewrite Q11, IL. split; intros [X|(X & Y & Z)]; [auto|right; tauto|auto|]. right. split; [|auto]. split; [auto|]. split; [auto|]. exact (KY _ _ Y).
  - rewrite Q2, Q12. assert (CI : (exists r, In (is_inter s, r) (ord cl') /\ pts r x) <-> cpts cl' (is_inter s) x).
    { split.
      - intros (r & I & X). apply (Permutation_in _ (Permutation_sym (ORD cl'))) in I. apply (dget_nodup _ string_eqb_ok) in I; [|apply O']. now apply (cpts_get _ _ _ x I).
      - intros X. apply cpts_some in X as (r & D & X). exists r. split; [|auto]. apply (Permutation_in _ (ORD cl')). now apply (dget_in _ string_eqb_ok). }
    rewrite CI. split; [intros ((X & N1) & N2); auto|]. intros (X & N). split; [split; [auto|]|auto]. intros (t & Jt & It & Y & Z). apply N. apply IL in It as (Ht & Et & _). destruct Jt as (_ & Jt).
    destruct (made_opp sp t M Ht) as (o & O1 & _ & _ & _ & O5 & O6 & _). rewrite Jt in O1. apply Ok_inv in O1 as <-. split; [congruence|]. now rewrite O6.
Qed.
End D.
