(** simplify_degeneracies *)
From Verif.Proofs Require Export Geom2dP.
From Verif.Props Require Import Primitive2dProps.
From Coq Require Import Permutation.

(** sub-list in order *)
Inductive sublist {X} : list X -> list X -> Prop :=
| sub_nil : sublist [] []
| sub_skip x l m : sublist l m -> sublist l (x :: m)
| sub_keep x l m : sublist l m -> sublist (x :: l) (x :: m).
Lemma sublist_refl {X} (l : list X) : sublist l l.
Proof. induction l; [apply sub_nil|apply sub_keep; auto]. Qed.
Lemma sublist_trans {X} (a b c : list X) : sublist a b -> sublist b c -> sublist a c.
Proof.
  intros H1 H2. revert a H1. induction H2; intros a H1; [auto| |].
  - apply sub_skip. auto.
  - inversion H1; subst; [apply sub_skip|apply sub_keep]; auto.
Qed.
Lemma sublist_delete {X} (l1 : list X) v l2 : sublist (l1 ++ l2) (l1 ++ v :: l2).
Proof. induction l1; cbn; [apply sub_skip, sublist_refl|apply sub_keep; auto]. Qed.

Lemma nthp_mod l k : nthp l (k mod Z.of_nat (length l)) = nthp l k.
Proof. unfold nthp. rewrite Zmod_mod. reflexivity. Qed.
Lemma nthp_rot1 a l k : nthp (a :: l) (k + 1) = nthp (l ++ [a]) k.
Proof.
  unfold nthp. rewrite app_length. cbn [length]. replace (length l + 1)%nat with (S (length l)) by lia.
  set (n := Z.of_nat (S (length l))). assert (0 < n)%Z by (unfold n; lia).
  pose proof (Z.mod_pos_bound k n H). destruct (Z.eq_dec (k mod n) (n - 1)) as [E|E].
  - rewrite <- Zplus_mod_idemp_l, E. replace (n - 1 + 1)%Z with n by lia. rewrite Z_mod_same_full.
    rewrite app_nth2 by (unfold n; lia). replace (Z.to_nat (n - 1) - length l)%nat with 0%nat by (unfold n; lia). reflexivity.
  - rewrite <- Zplus_mod_idemp_l, Zmod_small by lia. rewrite app_nth1 by (unfold n in *; lia).
    rewrite Z2Nat.inj_add by lia. replace (Z.to_nat 1) with 1%nat by reflexivity. rewrite Nat.add_1_r. reflexivity.
Qed.
Lemma nthp_rot l1 l2 k : nthp (l1 ++ l2) (Z.of_nat (length l1) + k) = nthp (l2 ++ l1) k.
Proof.
  revert l2. induction l1 as [|a l1 IH]; intros l2; cbn [length app].
  - now rewrite app_nil_r.
  - replace (Z.of_nat (S (length l1)) + k)%Z with (Z.of_nat (length l1) + k + 1)%Z by lia.
    rewrite nthp_rot1, <- app_assoc, IH, <- app_assoc. reflexivity.
Qed.
Lemma nthp_0 v w : nthp (v :: w) 0 = v.
Proof. unfold nthp. rewrite Zmod_0_l. reflexivity. Qed.
Lemma nthp_m1 v w : nthp (v :: w) (-1) = last w v.
Proof.
  assert (w = [] \/ w <> []) as [->|N] by (destruct w; [left|right]; congruence); [reflexivity|].
  destruct (exists_last N) as (w' & x & ->).
  replace (-1)%Z with (-1 + 0)%Z by lia. rewrite last_last.
  change (v :: w' ++ [x]) with ((v :: w') ++ [x]). rewrite <- (nthp_rot [x] (v :: w')). apply nthp_0.
Qed.
Lemma nthp_1 v w : nthp (v :: w) 1 = hd v w.
Proof.
  change 1%Z with (0 + 1)%Z. rewrite nthp_rot1. destruct w; cbn [app hd]; apply nthp_0.
Qed.

Lemma tri_area_orient a b c : tri_area a b c = - (qq 1 2 * orient a b c).
Proof.
  unfold tri_area, area_loop, orient, cross, vsub, q2. destruct a, b, c. cbn [fst snd]. rewrite !qdiv_half. ring.
Qed.
Lemma area_rot l1 l2 : area_of (l1 ++ l2) = area_of (l2 ++ l1).
Proof.
  rewrite !(area_of_fan (0, 0)). unfold fan2. change cyclic_pairs with edges_iter.
  rewrite (qsum_perm _ _ _ (edges_iter_rot l1 l2)). reflexivity.
Qed.
Lemma area_tl v w : area_of w = area_of (v :: w) - tri_area (last w v) v (hd v w).
Proof.
  rewrite !(area_of_fan v), tri_area_orient. unfold fan2. change cyclic_pairs with edges_iter.
  destruct w as [|b w].
  - unfold orient, cross, vsub. cbn. destruct v; cbn [fst snd]. ring.
  - rewrite (edges_iter_snoc v), (edges_iter_snoc b), !qsum_app. cbn [edges_from qsum hd fst snd].
    replace (last (b :: w) v) with (last w b) by (rewrite <- (last_cons w b); apply last_dep).
    rewrite (last_cons w b). generalize (last (v :: b :: w) v); intros y. generalize (last w b); intros x.
    set (S := qsum _ _). clearbody S. unfold orient, cross, vsub. destruct x, v, b, y; cbn [fst snd]. ring.
Qed.
Definition tri_at (l : list point) (i : Z) : Qc := tri_area (nthp l (i - 1)) (nthp l i) (nthp l (i + 1)).
Lemma area_delete l1 v l2 : area_of (l1 ++ l2) = area_of (l1 ++ v :: l2) - tri_at (l1 ++ v :: l2) (Z.of_nat (length l1)).
Proof.
  unfold tri_at. replace (Z.of_nat (length l1) - 1)%Z with (Z.of_nat (length l1) + -1)%Z by lia.
  replace (nthp (l1 ++ v :: l2) (Z.of_nat (length l1))) with (nthp (l1 ++ v :: l2) (Z.of_nat (length l1) + 0)) by (f_equal; lia).
  rewrite !nthp_rot, (area_rot l1 (v :: l2)), (area_rot l1 l2). cbn [app].
  rewrite nthp_0, nthp_m1, nthp_1. apply area_tl.
Qed.
Lemma split_at (l : list point) i : (i < length l)%nat ->
  exists v, l = firstn i l ++ v :: skipn (S i) l /\ length (firstn i l) = i.
Proof.
  intros H. exists (nth i l (0, 0)). split; [|rewrite firstn_length; lia].
  revert l H. induction i as [|i IH]; intros [|x l] H; cbn [length] in H; try lia; [reflexivity|].
  change (firstn (S i) (x :: l)) with (x :: firstn i l). change (skipn (S (S i)) (x :: l)) with (skipn (S i) l).
  cbn [nth app]. f_equal. apply IH. lia.
Qed.
Lemma delete_facts l i : (i < length l)%nat -> tri_at l (Z.of_nat i) = 0 ->
  let l' := firstn i l ++ skipn (S i) l in area_of l' = area_of l /\ sublist l' l /\ S (length l') = length l.
Proof.
  intros H T. destruct (split_at l i H) as (v & E & L). cbn zeta.
  assert (D := area_delete (firstn i l) v (skipn (S i) l)). rewrite <- E, L, T in D.
  split; [rewrite D; ring|]. split.
  - rewrite E at 3. apply sublist_delete.
  - apply (f_equal (@length point)) in E. rewrite app_length in *. cbn [length] in E. lia.
Qed.

Lemma tri_prev l i : tri_area (nthp l (i - 2)) (nthp l (i - 1)) (nthp l i) = tri_at l (i - 1).
Proof. unfold tri_at. do 2 f_equal; lia. Qed.

Lemma simp_inner_ok fuel : forall i l nz ch, (length l <= fuel + i)%nat -> (i <= length l)%nat ->
  (nz = false -> forall j, (0 <= j < Z.of_nat i)%Z -> tri_at l j = 0) ->
  exists l' nz' ch', simp_inner fuel i l nz ch = Ok (l', nz', ch') /\
    area_of l' = area_of l /\ sublist l' l /\ (length l' <= length l)%nat /\
    (nz' = false -> forall j, (0 <= j < Z.of_nat (length l'))%Z -> tri_at l' j = 0) /\
    (ch' = false -> ch = false /\ l' = l /\
       (forall j, (Z.of_nat i <= j < Z.of_nat (length l))%Z -> tri_at l (j - 1) <> 0 -> tri_at l j <> 0) /\
       (nz' = true -> nz = true \/ exists j, tri_at l j <> 0)) /\
    (ch' = true -> ch = true \/ (length l' < length l)%nat).
Proof.
  induction fuel as [|f IH]; intros i l nz ch F I Z; cbn [simp_inner].
  - replace (i <? length l)%nat with false by (symmetry; apply Nat.ltb_ge; lia).
    exists l, nz, ch. split; [reflexivity|]. repeat split; auto using sublist_refl.
    + intros N j Hj. apply Z; auto. lia.
    + lia.
  - destruct (Nat.ltb_spec i (length l)) as [L|L].
    2:{ exists l, nz, ch. split; [reflexivity|]. repeat split; auto using sublist_refl; [|lia].
        intros N j Hj. apply Z; auto. lia. }
    rewrite tri_prev. fold (tri_at l (Z.of_nat i)).
    destruct (qeqb_spec (tri_at l (Z.of_nat i)) 0) as [E|E]; cbn [negb].
    + destruct (qeqb_spec (tri_at l (Z.of_nat i - 1)) 0) as [E'|E']; cbn [negb andb].
      * destruct (IH (S i) l nz ch) as (l' & nz' & ch' & R & A & B & C & D & G & K); [lia|lia| |].
        { intros N j Hj. destruct (Z.eq_dec j (Z.of_nat i)) as [->|]; auto. apply Z; auto. lia. }
        exists l', nz', ch'. split; [exact R|]. repeat split; auto.
        -- apply G; auto.
        -- apply G; auto.
        -- intros j Hj. destruct (Z.eq_dec j (Z.of_nat i)) as [->|]; [congruence|]. apply G; auto. lia.
        -- apply G; auto.
      * destruct (delete_facts l i L E) as (A0 & B0 & C0). set (m := firstn i l ++ skipn (S i) l) in *.
        destruct (IH i m nz true) as (l' & nz' & ch' & R & A & B & C & D & G & K); [lia|lia| |].
        { intros N j Hj. exfalso. apply E'. apply Z; auto. lia. }
        exists l', nz', ch'. split; [exact R|]. split; [congruence|].
        split; [eapply sublist_trans; eauto|]. split; [lia|]. split; [auto|]. split.
        -- intros N. destruct (G N) as (? & _). discriminate.
        -- intros _. right. lia.
    + rewrite andb_false_r.
      destruct (IH (S i) l true ch) as (l' & nz' & ch' & R & A & B & C & D & G & K); [lia|lia|discriminate|].
      exists l', nz', ch'. split; [exact R|]. repeat split; auto.
      -- apply G; auto.
      -- apply G; auto.
      -- intros j Hj. destruct (Z.eq_dec j (Z.of_nat i)) as [->|]; [congruence|]. apply G; auto. lia.
      -- intros _. right. eauto.
Qed.
Lemma tri_at_mod l j : tri_at l (j mod Z.of_nat (length l)) = tri_at l j.
Proof.
  unfold tri_at. destruct l as [|a l]; [rewrite !Zmod_0_r; unfold nthp; cbn; rewrite !Zmod_0_r; destruct (Z.to_nat _), (Z.to_nat _), (Z.to_nat _); try destruct (Z.to_nat _); reflexivity|].
  set (m := a :: l) in *. f_equal.
  - rewrite <- (nthp_mod m (j - 1)), <- nthp_mod, Zminus_mod_idemp_l. reflexivity.
  - apply nthp_mod.
  - rewrite <- (nthp_mod m (j + 1)), <- nthp_mod, Zplus_mod_idemp_l. reflexivity.
Qed.
Lemma cyclic_all l : (forall j, (0 <= j < Z.of_nat (length l))%Z -> tri_at l (j - 1) <> 0 -> tri_at l j <> 0) ->
  (exists j, tri_at l j <> 0) -> forall j, tri_at l j <> 0.
Proof.
  intros H (j0 & J).
  destruct l as [|a l]; [exfalso; apply J; unfold tri_at, nthp; cbn; destruct (Z.to_nat _), (Z.to_nat _), (Z.to_nat _); reflexivity|].
  set (m := a :: l) in *. assert (n0 : (0 < Z.of_nat (length m))%Z) by (cbn; lia).
  assert (S : forall j, tri_at m (j - 1) <> 0 -> tri_at m j <> 0).
  { intros j Hj. rewrite <- tri_at_mod. apply H; [apply Z.mod_pos_bound; auto|].
    rewrite <- tri_at_mod, Zminus_mod_idemp_l, tri_at_mod. exact Hj. }
  assert (P : forall k, tri_at m (j0 + Z.of_nat k) <> 0).
  { induction k; [now rewrite Z.add_0_r|]. apply S. replace (j0 + Z.of_nat (Datatypes.S k) - 1)%Z with (j0 + Z.of_nat k)%Z by lia. exact IHk. }
  intros j. rewrite <- tri_at_mod.
  specialize (P (Z.to_nat ((j - j0) mod Z.of_nat (length m)))).
  rewrite Z2Nat.id in P by (apply Z.mod_pos_bound; auto). rewrite <- tri_at_mod, Zplus_mod_idemp_r in P.
  now replace (j0 + (j - j0))%Z with j in P by lia.
Qed.
Lemma simp_outer_ok fuel : forall l, (length l < fuel)%nat -> exists r, simp_outer fuel l = Ok r /\
  area_of r = area_of l /\ sublist r l /\ (r = [] \/ forall j, tri_at r j <> 0).
Proof.
  induction fuel as [|f IH]; intros l F; [lia|]. cbn [simp_outer].
  destruct (simp_inner_ok (length l) 0 l false false) as (l' & nz & ch & -> & A & B & C & D & G & K); [lia|lia|lia|].
  cbn [bind]. destruct nz; cbn [negb andb].
  - destruct ch.
    + destruct K as [?|K]; [auto|discriminate|]. destruct (IH l') as (r & -> & A1 & B1 & C1); [lia|].
      exists r. split; [reflexivity|]. split; [congruence|]. split; [eapply sublist_trans; eauto|auto].
    + destruct (G eq_refl) as (_ & -> & H & X). exists l. split; [reflexivity|]. split; [auto|]. split; [auto|]. right.
      apply cyclic_all; [exact H|]. destruct (X eq_refl); [discriminate|auto].
  - destruct l' as [|v w]; cbn [length Nat.eqb negb tl].
    + destruct ch.
      * destruct (IH []) as (r & -> & A1 & B1 & C1).
        { destruct K as [?|K]; [auto|discriminate|]. cbn in K. cbn. lia. }
        exists r. split; [reflexivity|]. split; [congruence|]. split; [eapply sublist_trans; eauto|auto].
      * exists []. auto.
    + destruct (IH w) as (r & -> & A1 & B1 & C1); [cbn in C; lia|].
      exists r. split; [reflexivity|]. split; [|split; [|auto]].
      * rewrite A1, <- A. pose proof (area_delete [] v w) as X. cbn [app length Z.of_nat] in X. rewrite X.
        rewrite D by (cbn; auto; lia). ring.
      * eapply sublist_trans; [exact B1|]. eapply sublist_trans; [|exact B]. apply sub_skip, sublist_refl.
Qed.
