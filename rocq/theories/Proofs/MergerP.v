(** Lemmas about the cell merger model: cancelling, re-threading, bookkeeping. *)
From Verif.Model Require Export CellMerger.
From Verif.Proofs Require Export PyP.
From Coq Require Import PeanoNat.

Section M.
Context {V : Type} (veqb : V -> V -> bool).
Hypothesis vspec : forall a b, reflect (a = b) (veqb a b).
Variable o : nat -> nat.
Notation edge := (V * V)%type.
Notation Cellv := (@Cell V veqb).
Notation cel := (@cell V).

Definition swap (e : edge) : edge := (snd e, fst e).
Lemma swap_swap e : swap (swap e) = e.
Proof. now destruct e. Qed.

Lemma veqb_refl a : veqb a a = true.
Proof. destruct (vspec a a); congruence. Qed.
Lemma edge_eqb_spec e f : reflect (e = f) (edge_eqb veqb e f).
Proof.
  unfold edge_eqb. destruct e as [a b], f as [c d]; cbn.
  destruct (vspec a c), (vspec b d); constructor; congruence.
Qed.
Lemma mem_edge_in e l : mem_edge veqb e l = true <-> In e l.
Proof.
  unfold mem_edge. rewrite existsb_exists. split.
  - intros (x & H & E). destruct (edge_eqb_spec e x); congruence.
  - intros H. exists e. split; auto. destruct (edge_eqb_spec e e); congruence.
Qed.
Lemma mem_edge_out e l : mem_edge veqb e l = false <-> ~ In e l.
Proof. rewrite <- mem_edge_in. destruct (mem_edge veqb e l); intuition congruence. Qed.
Lemma mem_v_in x l : mem_v veqb x l = true <-> In x l.
Proof.
  unfold mem_v. rewrite existsb_exists. split.
  - intros (y & H & E). destruct (vspec x y); congruence.
  - intros H. exists x. split; auto using veqb_refl.
Qed.
Lemma list_eqb_spec a b : reflect (a = b) (list_eqb veqb a b).
Proof.
  revert b. induction a as [|x a IH]; intros [|y b]; cbn; try (constructor; congruence).
  destruct (vspec x y); cbn; [|constructor; congruence].
  destruct (IH b); constructor; congruence.
Qed.
Lemma mem_l_in x l : mem_l veqb x l = true <-> In x l.
Proof.
  unfold mem_l. rewrite existsb_exists. split.
  - intros (y & H & E). destruct (list_eqb_spec x y); congruence.
  - intros H. exists x. split; auto. destruct (list_eqb_spec x x); congruence.
Qed.

(** ** degrees *)
Fixpoint outd (x : V) (l : list edge) : nat :=
  match l with [] => 0 | e :: t => (if veqb x (fst e) then 1 else 0) + outd x t end.
Fixpoint ind (x : V) (l : list edge) : nat :=
  match l with [] => 0 | e :: t => (if veqb x (snd e) then 1 else 0) + ind x t end.
Definition balanced (l : list edge) := forall x, outd x l = ind x l.

Lemma outd_app x a b : outd x (a ++ b) = (outd x a + outd x b)%nat.
Proof. induction a; cbn; auto. rewrite IHa. lia. Qed.
Lemma ind_app x a b : ind x (a ++ b) = (ind x a + ind x b)%nat.
Proof. induction a; cbn; auto. rewrite IHa. lia. Qed.
Lemma outd_perm x a b : Permutation a b -> outd x a = outd x b.
Proof. induction 1; cbn; lia. Qed.
Lemma ind_perm x a b : Permutation a b -> ind x a = ind x b.
Proof. induction 1; cbn; lia. Qed.
Lemma outd_swap x l : outd x (map swap l) = ind x l.
Proof. induction l; cbn; auto. Qed.
Lemma ind_swap x l : ind x (map swap l) = outd x l.
Proof. induction l; cbn; auto. Qed.
Lemma balanced_perm a b : Permutation a b -> balanced a -> balanced b.
Proof. intros P H x. rewrite <- (outd_perm x a b P), <- (ind_perm x a b P). apply H. Qed.
Lemma outd_pos x l : (0 < outd x l)%nat -> exists y, In (x, y) l.
Proof.
  induction l as [|[a b] l IH]; cbn; [lia|]. destruct (vspec x a).
  - subst. intros _. exists b. auto.
  - intros H. destruct (IH H) as (y & Hy). eauto.
Qed.

(** consecutive pairs of [l ++ [z]] *)
Fixpoint steps (l : list V) (z : V) : list edge :=
  match l with
  | [] => []
  | a :: t => (a, match t with [] => z | b :: _ => b end) :: steps t z
  end.
Lemma steps_combine l z : steps l z = combine l (tl l ++ [z]).
Proof. induction l as [|a [|b t] IH]; cbn in *; auto. now rewrite IH. Qed.
Lemma cyc_steps a t : cyc_edges (a :: t) = steps (a :: t) a.
Proof. rewrite steps_combine. reflexivity. Qed.
Lemma steps_snoc l v z : steps (l ++ [v]) z = steps l v ++ [(v, z)].
Proof. induction l as [|a [|b t] IH]; cbn in *; auto. now rewrite IH. Qed.
Lemma steps_deg a t z x :
  (outd x (steps (a :: t) z) + (if veqb x z then 1 else 0) = ind x (steps (a :: t) z) + (if veqb x a then 1 else 0))%nat.
Proof.
  revert a. induction t as [|b t IH]; intros a.
  - cbn. lia.
  - change (steps (a :: b :: t) z) with ((a, b) :: steps (b :: t) z).
    cbn [outd ind fst snd]. specialize (IH b). lia.
Qed.
Lemma cyc_balanced l : balanced (cyc_edges l).
Proof.
  destruct l as [|a t]; [intros x; reflexivity|]. rewrite cyc_steps. intros x.
  pose proof (steps_deg a t a x). lia.
Qed.

(** ** the dict of successor sets *)
Definition nedges (d : dict) : list edge := flat_map (fun kv => map (pair (fst kv)) (snd kv)) d.
Definition wfd (d : dict) : Prop :=
  NoDup (map fst d) /\ Forall (fun kv : V * list V => snd kv <> [] /\ NoDup (snd kv)) d.

Lemma wfd_cons k vs d : wfd ((k, vs) :: d) <-> ~ In k (map fst d) /\ vs <> [] /\ NoDup vs /\ wfd d.
Proof.
  unfold wfd. cbn. split.
  - intros (H & F). inversion H; inversion F; subst. cbn in *. tauto.
  - intros (H & N & D & W1 & W2). split; constructor; auto.
Qed.
Lemma wfd_nil : wfd [].
Proof. split; constructor. Qed.

Lemma d_get_none d v : d_get veqb d v = None <-> ~ In v (map fst d).
Proof.
  induction d as [|[k vs] d IH]; cbn; [tauto|].
  destruct (vspec k v); [split; [congruence|intuition]|]. rewrite IH. intuition.
Qed.
Lemma d_get_in d v vs : d_get veqb d v = Some vs -> In (v, vs) d.
Proof.
  induction d as [|[k ws] d IH]; cbn; [congruence|].
  destruct (vspec k v); [intros [= ->]; subst; auto|auto].
Qed.
Lemma d_del_id d v : ~ In v (map fst d) -> d_del veqb d v = d.
Proof.
  induction d as [|[k ws] d IH]; cbn; auto. intros H.
  destruct (vspec k v); [subst; tauto|]. cbn. f_equal. apply IH. tauto.
Qed.
Lemma d_del_fst d v x : In x (map fst (d_del veqb d v)) <-> In x (map fst d) /\ x <> v.
Proof.
  induction d as [|[k ws] d IH]; cbn; [tauto|].
  destruct (vspec k v); cbn; fold (d_del veqb d v); rewrite IH; intuition congruence.
Qed.
Lemma d_del_wfd d v : wfd d -> wfd (d_del veqb d v).
Proof.
  induction d as [|[k ws] d IH]; cbn; auto. rewrite wfd_cons. intros (H & N & D & W).
  destruct (vspec k v); cbn; fold (d_del veqb d v); auto. rewrite wfd_cons. rewrite d_del_fst. intuition.
Qed.
Lemma d_del_perm d v vs : wfd d -> d_get veqb d v = Some vs ->
  Permutation (nedges d) (map (pair v) vs ++ nedges (d_del veqb d v)).
Proof.
  induction d as [|[k ws] d IH]; cbn; [congruence|]. rewrite wfd_cons. intros (H & N & D & W).
  destruct (vspec k v).
  - intros [= ->]. subst. cbn. fold (d_del veqb d v). rewrite d_del_id by auto. reflexivity.
  - intros G. cbn. fold (d_del veqb d v). fold (nedges d). rewrite (IH W G). rewrite !app_assoc. apply Permutation_app_tail, Permutation_app_comm.
Qed.

Lemma del_v_in v l x : In x (del_v veqb v l) <-> In x l /\ x <> v.
Proof. unfold del_v. rewrite filter_In. destruct (vspec v x); cbn; intuition congruence. Qed.
Lemma del_v_id v l : ~ In v l -> del_v veqb v l = l.
Proof.
  induction l as [|w l IH]; cbn; auto. intros H. destruct (vspec v w); [subst; tauto|].
  cbn. f_equal. apply IH. tauto.
Qed.
Lemma del_v_perm v l : NoDup l -> In v l -> Permutation l (v :: del_v veqb v l).
Proof.
  induction l as [|w l IH]; cbn; [tauto|]. intros D [->|H]; inversion D; subst.
  - rewrite veqb_refl. cbn. fold (del_v veqb v l). rewrite (del_v_id v l) by auto. reflexivity.
  - destruct (vspec v w); [subst; tauto|]. cbn. fold (del_v veqb v l). rewrite perm_swap. constructor. auto.
Qed.
Lemma del_v_nodup v l : NoDup l -> NoDup (del_v veqb v l).
Proof. apply NoDup_filter. Qed.

Lemma put_rest_spec d k vs v : wfd d -> ~ In k (map fst d) -> NoDup vs -> In v vs ->
  wfd (put_rest veqb d k vs v) /\
  Permutation (map (pair k) vs ++ nedges d) ((k, v) :: nedges (put_rest veqb d k vs v)).
Proof.
  intros W K D I. unfold put_rest. pose proof (del_v_perm v vs D I) as P.
  destruct (Nat.ltb_spec 1 (length vs)) as [L|L].
  - unfold d_put. rewrite (proj2 (d_get_none d k) K). split.
    + rewrite wfd_cons. repeat split; auto using del_v_nodup; try apply W.
      intros E. rewrite E in P. apply Permutation_length in P. cbn in P. lia.
    + cbn. change ((k, v) :: map (pair k) (del_v veqb v vs) ++ nedges d)
        with (map (pair k) (v :: del_v veqb v vs) ++ nedges d). rewrite P at 1. reflexivity.
  - split; auto. apply Permutation_length in P as PL. cbn in PL.
    assert (E : del_v veqb v vs = []) by (destruct (del_v veqb v vs); auto; cbn in PL; lia).
    rewrite E in P. apply Permutation_sym, Permutation_length_1_inv in P. subst vs. reflexivity.
Qed.

Lemma wfd_nodup_at d v vs : wfd d -> d_get veqb d v = Some vs -> vs <> [] /\ NoDup vs.
Proof. intros (_ & F) G. apply d_get_in in G. rewrite Forall_forall in F. apply (F _ G). Qed.

Lemma pick_in {A} k (l : list A) : l <> [] -> exists x, pick o k l = Some x /\ In x l.
Proof.
  intros N. unfold pick. destruct (nth_error l (o k mod length l)) as [x|] eqn:E.
  - exists x. split; auto. eapply nth_error_In; eauto.
  - apply nth_error_None in E. assert (length l <> 0)%nat by (destruct l; cbn; congruence).
    pose proof (Nat.mod_upper_bound (o k) (length l) H). lia.
Qed.

Lemma outd_key d v : outd v (nedges d) <> 0%nat -> In v (map fst d).
Proof.
  intros H. destruct (outd_pos v (nedges d)) as (y & Hy); [lia|].
  unfold nedges in Hy. apply in_flat_map in Hy. destruct Hy as ((k & vs) & Hk & Hy).
  apply in_map_iff in Hy. destruct Hy as (z & E & _). cbn in E. injection E as -> ->.
  apply in_map_iff. exists (v, vs); auto.
Qed.

(** ** the inner loop: an Eulerian walk back to its start *)
Lemma walk_ok fuel k nxt k0 v lst :
  wfd nxt -> (length (nedges nxt) <= fuel)%nat ->
  (forall x, outd x (nedges nxt) + (if veqb x k0 then 1 else 0) = ind x (nedges nxt) + (if veqb x v then 1 else 0))%nat ->
  exists lst' nxt' k', walk veqb o fuel k nxt k0 v lst = Ok (lst ++ lst', nxt', k') /\
    wfd nxt' /\ balanced (nedges nxt') /\ Permutation (nedges nxt) (steps lst' k0 ++ nedges nxt')
    /\ hd k0 lst' = v.
Proof.
  revert k nxt v lst. induction fuel as [|fuel IH]; intros k nxt v lst W F B; cbn [walk].
  - destruct (vspec v k0) as [->|N].
    + exists [], nxt, k. rewrite app_nil_r. cbn. repeat split; auto; try apply W.
      intros x. specialize (B x). lia.
    + exfalso. specialize (B v). destruct (nedges nxt); cbn in *; [|lia].
      rewrite veqb_refl in B. destruct (vspec v k0); congruence.
  - destruct (vspec v k0) as [->|N].
    + exists [], nxt, k. rewrite app_nil_r. cbn. repeat split; auto; try apply W.
      intros x. specialize (B x). lia.
    + assert (Hk : In v (map fst nxt)).
      { apply outd_key. specialize (B v). rewrite veqb_refl in B. destruct (vspec v k0); [congruence|]. lia. }
      destruct (d_get veqb nxt v) as [vs|] eqn:G; [|apply d_get_none in G; tauto].
      destruct (wfd_nodup_at _ _ _ W G) as (NE & ND).
      destruct (pick_in k vs NE) as (w & Pw & Iw). rewrite Pw.
      pose proof (d_del_perm _ _ _ W G) as P1.
      destruct (put_rest_spec (d_del veqb nxt v) v vs w) as (W2 & P2); auto using d_del_wfd.
      { rewrite d_del_fst. tauto. }
      set (nxt2 := put_rest veqb (d_del veqb nxt v) v vs w) in *.
      assert (P3 : Permutation (nedges nxt) ((v, w) :: nedges nxt2)) by (rewrite P1; exact P2).
      destruct (IH (S k) nxt2 w (lst ++ [v])) as (lst' & nxt' & k' & E & W3 & B3 & P4 & H4); auto.
      * apply Permutation_length in P3. cbn in P3. lia.
      * intros x. specialize (B x). rewrite (outd_perm x _ _ P3), (ind_perm x _ _ P3) in B. cbn in B. lia.
      * exists (v :: lst'), nxt', k'. rewrite E, <- app_assoc. cbn [app]. repeat split; auto; try apply W3.
        rewrite P3, P4. destruct lst' as [|w' lst']; cbn in H4; subst; reflexivity.
Qed.

Lemma thread_ok fuel k nxt os res :
  wfd nxt -> balanced (nedges nxt) -> (length (nedges nxt) <= fuel)%nat ->
  exists cs k', thread veqb o fuel k nxt os res = Ok (res ++ cs, k') /\
    Permutation (flat_map (fun c => cyc_edges (vertices c)) cs) (nedges nxt) /\
    Forall (fun c => exists vs, vs <> [] /\ c = Cellv vs os) cs.
Proof.
  revert k nxt res. induction fuel as [|fuel IH]; intros k nxt res W B F; destruct nxt as [|[k0 vs] nxt]; cbn [thread].
  - exists [], k. rewrite app_nil_r. repeat split; auto.
  - exfalso. apply wfd_cons in W. destruct vs; [tauto|]. cbn in F. lia.
  - exists [], k. rewrite app_nil_r. repeat split; auto.
  - apply wfd_cons in W. destruct W as (K & NE & ND & W).
    destruct (pick_in k vs NE) as (v & Pv & Iv). rewrite Pv.
    destruct (put_rest_spec nxt k0 vs v W K ND Iv) as (W2 & P2).
    change (map (pair k0) vs ++ nedges nxt) with (nedges ((k0, vs) :: nxt)) in P2.
    set (nxt2 := put_rest veqb nxt k0 vs v) in *.
    destruct (walk_ok (S fuel) (S k) nxt2 k0 v [k0]) as (lst' & nxt' & k' & E & W3 & B3 & P3 & H3); auto.
    { apply Permutation_length in P2. cbn [length] in P2. lia. }
    { intros x. specialize (B x). rewrite (outd_perm x _ _ P2), (ind_perm x _ _ P2) in B. cbn in B. lia. }
    rewrite E. cbn [bind].
    destruct (IH k' nxt' (res ++ [Cellv ([k0] ++ lst') os])) as (cs & k'' & E2 & P4 & F4); auto.
    { apply Permutation_length in P2, P3. rewrite app_length in P3. cbn [length] in P2. lia. }
    exists (Cellv ([k0] ++ lst') os :: cs), k''. rewrite E2, <- app_assoc. cbn [app]. split; [reflexivity|]. split.
    + cbn [flat_map]. rewrite P2, P3, P4. cbn [vertices Cell]. rewrite cyc_steps.
      destruct lst' as [|w lst']; cbn in H3; subst; reflexivity.
    + constructor; auto. exists (k0 :: lst'). split; [congruence|reflexivity].
Qed.

Lemma d_set_existing_keys d v vs : map fst (d_set_existing veqb d v vs) = map fst d.
Proof. induction d as [|[k w] d IH]; cbn; auto. destruct (veqb k v); cbn; congruence. Qed.
Lemma d_add_spec d e : wfd d -> ~ In e (nedges d) ->
  wfd (d_add veqb d e) /\ Permutation (nedges (d_add veqb d e)) (e :: nedges d).
Proof.
  intros W N. destruct e as [a b]. unfold d_add. cbn [fst snd].
  destruct (d_get veqb d a) as [vs|] eqn:G.
  - assert (Nb : ~ In b vs).
    { intros H. apply N. apply d_get_in in G. unfold nedges. apply in_flat_map. exists (a, vs). split; auto.
      cbn. apply in_map. auto. }
    destruct (mem_v veqb b vs) eqn:E; [apply mem_v_in in E; tauto|]. clear E N.
    induction d as [|[k w] d IH]; cbn in *; [congruence|]. apply wfd_cons in W. destruct W as (K & NE & ND & W).
    destruct (vspec k a).
    + injection G as ->. subst. split.
      * apply wfd_cons. repeat split; auto; try apply W.
        -- destruct vs; cbn; congruence.
        -- eapply Permutation_NoDup; [apply Permutation_cons_append|]. constructor; auto.
      * cbn. rewrite map_app, <- app_assoc. cbn. symmetry. apply Permutation_middle.
    + destruct (IH W G) as (W2 & P2). split.
      * apply wfd_cons. rewrite d_set_existing_keys. auto.
      * cbn. rewrite P2. symmetry. apply Permutation_middle.
  - split; [|reflexivity]. apply wfd_cons. apply d_get_none in G. repeat split; auto; try apply W; try congruence.
    repeat constructor. auto.
Qed.
Lemma build_nxt_ok es : NoDup es -> wfd (build_nxt veqb es) /\ Permutation (nedges (build_nxt veqb es)) es.
Proof.
  unfold build_nxt. intros ND.
  enough (G : forall es d, wfd d -> NoDup (es ++ nedges d) ->
    wfd (fold_left (d_add veqb) es d) /\ Permutation (nedges (fold_left (d_add veqb) es d)) (es ++ nedges d)).
  { destruct (G es [] wfd_nil) as (G1 & G2); cbn; rewrite app_nil_r in *; auto. }
  clear es ND. induction es as [|e es IH]; intros d W ND; cbn [fold_left].
  - split; auto.
  - cbn in ND. inversion ND as [|? ? N1 N2]; subst.
    destruct (d_add_spec d e W) as (W2 & P2); [intros H; apply N1, in_or_app; auto|].
    destruct (IH _ W2) as (W3 & P3).
    + eapply Permutation_NoDup; [|apply ND]. rewrite P2. apply Permutation_middle.
    + split; auto. rewrite P3, P2. symmetry. apply Permutation_middle.
Qed.

(** ** cancelling *)
Lemma dict_keys_nodup acc l : NoDup (acc ++ l) -> dict_keys veqb acc l = acc ++ l.
Proof.
  revert acc. induction l as [|e l IH]; intros acc ND; cbn.
  - now rewrite app_nil_r.
  - destruct (mem_edge veqb e acc) eqn:E.
    + apply mem_edge_in in E. exfalso. apply NoDup_remove_2 in ND. apply ND, in_or_app; auto.
    + rewrite IH; rewrite <- app_assoc; auto.
Qed.
Lemma del_edge_in e l x : In x (del_edge veqb e l) <-> In x l /\ x <> e.
Proof. unfold del_edge. rewrite filter_In. destruct (edge_eqb_spec e x); cbn; intuition congruence. Qed.
Lemma del_edge_perm e l : NoDup l -> In e l -> Permutation l (e :: del_edge veqb e l).
Proof.
  intros ND I. apply NoDup_Permutation; auto.
  - constructor; [rewrite del_edge_in; tauto|]. now apply NoDup_filter.
  - intros x. cbn. rewrite del_edge_in. destruct (edge_eqb_spec x e) as [->|N]; [tauto|].
    split; [auto|]. intros [H|H]; [congruence|tauto].
Qed.

Lemma cancel_ok todo se oe ch :
  NoDup todo -> incl todo se -> NoDup se -> NoDup oe -> (forall e, In e todo -> ~ In e oe) ->
  exists X se' oe', cancel veqb todo se oe ch = Ok (se', oe', ch || negb (length X =? 0)%nat) /\
    Permutation se (X ++ se') /\ Permutation oe (map swap X ++ oe') /\ NoDup se' /\ NoDup oe' /\
    (forall e, In e X <-> In e todo /\ In (swap e) oe).
Proof.
  revert se oe ch. induction todo as [|[v0 v1] todo IH]; intros se oe ch Dt It Ds Do Dj; cbn [cancel].
  - exists [], se, oe. cbn. rewrite orb_false_r. repeat split; auto; tauto.
  - inversion Dt as [|? ? Nt Dt']; subst.
    assert (E : mem_edge veqb (v0, v1) oe = false) by (apply mem_edge_out, Dj; cbn; auto).
    rewrite E. cbn [negb passert bind].
    destruct (mem_edge veqb (v1, v0) oe) eqn:E2.
    + apply mem_edge_in in E2.
      pose proof (del_edge_perm _ _ Ds (It _ (or_introl eq_refl))) as Ps.
      pose proof (del_edge_perm _ _ Do E2) as Po.
      destruct (IH (del_edge veqb (v0, v1) se) (del_edge veqb (v1, v0) oe) true) as (X & se' & oe' & R & P1 & P2 & N1 & N2 & HX); auto.
      * intros x Hx. rewrite del_edge_in. split; [apply It; cbn; auto|]. intros ->. tauto.
      * now apply NoDup_filter.
      * now apply NoDup_filter.
      * intros e He. rewrite del_edge_in. intros (H & _). revert H. apply Dj. cbn; auto.
      * exists ((v0, v1) :: X), se', oe'. rewrite R. cbn. rewrite orb_true_r. split; [reflexivity|].
        split; [rewrite Ps, P1; reflexivity|]. split; [rewrite Po, P2; reflexivity|]. split; [auto|]. split; [auto|].
        intros e. cbn. rewrite HX. rewrite del_edge_in.
        split.
        -- intros [<-|(H1 & H2 & H3)]; cbn; auto.
        -- intros ([<-|H1] & H2); auto. right. repeat split; auto. intros H3.
           assert (e = (v0, v1)) by (rewrite <- (swap_swap e), H3; reflexivity). subst. tauto.
    + apply mem_edge_out in E2.
      destruct (IH se oe ch) as (X & se' & oe' & R & P1 & P2 & N1 & N2 & HX); auto.
      * intros x Hx. apply It. cbn; auto.
      * intros e He. apply Dj. cbn; auto.
      * exists X, se', oe'. rewrite R. split; [reflexivity|]. do 4 (split; [auto|]).
        intros e. rewrite HX. cbn. split; [tauto|].
        intros ([<-|H1] & H2); [exfalso; apply E2; exact H2|]. auto.
Qed.

(** ** Cell.merged *)
(** a proper cell object: non-empty, its half-edges are those of its vertex cycle, none repeated *)
Definition wfc (c : cel) : Prop :=
  vertices c <> [] /\ half_edges c = cyc_edges (vertices c) /\ NoDup (half_edges c).
Lemma Cell_wfc vs os : vs <> [] -> NoDup (cyc_edges vs) -> wfc (Cellv vs os).
Proof. intros H D. unfold wfc, Cell. cbn. rewrite dict_keys_nodup by auto. auto. Qed.

Lemma NoDup_app_l {A} (a b : list A) : NoDup (a ++ b) -> NoDup a.
Proof. induction a; cbn; intros H; constructor; inversion H; subst; auto. rewrite in_app_iff in H2. tauto. Qed.
Lemma NoDup_app_r {A} (a b : list A) : NoDup (a ++ b) -> NoDup b.
Proof. induction a; cbn; intros H; auto. inversion H; auto. Qed.
Lemma NoDup_app_disj {A} (a b : list A) x : NoDup (a ++ b) -> In x a -> ~ In x b.
Proof.
  induction a; cbn; intros H; [tauto|]. inversion H; subst. rewrite in_app_iff in H2.
  intros [->|I]; [tauto|auto].
Qed.
Lemma NoDup_flat_sub {A B} (f : A -> list B) l x : NoDup (flat_map f l) -> In x l -> NoDup (f x).
Proof.
  induction l as [|y l IH]; cbn; [tauto|]. intros D [->|I].
  - eapply NoDup_app_l; eauto. - apply IH; auto. eapply NoDup_app_r; eauto.
Qed.

Lemma merged_ok k c d :
  wfc c -> wfc d -> NoDup (half_edges c ++ half_edges d) ->
  (merged veqb o k c d = Ok (None, k) /\ forall e, In e (half_edges c) -> ~ In (swap e) (half_edges d))
  \/ (exists X m k', merged veqb o k c d = Ok (Some m, k') /\ X <> [] /\
        Permutation (half_edges c ++ half_edges d) (X ++ map swap X ++ flat_map half_edges m) /\
        (forall e, In e X <-> In e (half_edges c) /\ In (swap e) (half_edges d)) /\
        Forall (fun c' => wfc c' /\ origs c' = origs c ++ origs d) m).
Proof.
  intros (Nc & Hc & Dc) (Nd & Hd & Dd) D. unfold merged.
  destruct (cancel_ok (half_edges c) (half_edges c) (half_edges d) false) as (X & se & oe & R & P1 & P2 & N1 & N2 & HX);
    auto using incl_refl.
  { intros e He. eapply NoDup_app_disj; eauto. }
  rewrite R. cbn [bind orb]. destruct X as [|e0 X].
  - left. cbn. split; auto. intros e He Hs. destruct (proj2 (HX e) (conj He Hs)).
  - right. cbn [length Nat.eqb negb]. set (Y := e0 :: X) in *.
    assert (Pall : Permutation (half_edges c ++ half_edges d) (Y ++ map swap Y ++ (se ++ oe))).
    { rewrite P1, P2. rewrite <- !app_assoc. apply Permutation_app_head.
      rewrite !app_assoc. apply Permutation_app_tail, Permutation_app_comm. }
    assert (Dse : NoDup (se ++ oe)).
    { eapply NoDup_app_r. eapply NoDup_app_r. eapply Permutation_NoDup; [apply Pall|exact D]. }
    destruct (build_nxt_ok (se ++ oe) Dse) as (W & PB).
    assert (B : balanced (nedges (build_nxt veqb (se ++ oe)))).
    { eapply balanced_perm; [symmetry; apply PB|]. intros x.
      assert (Hb : outd x (half_edges c ++ half_edges d) = ind x (half_edges c ++ half_edges d)).
      { rewrite Hc, Hd, outd_app, ind_app, (cyc_balanced (vertices c) x), (cyc_balanced (vertices d) x). reflexivity. }
      rewrite (outd_perm x _ _ Pall), (ind_perm x _ _ Pall) in Hb.
      rewrite !(outd_app x Y), !(ind_app x Y), !(outd_app x (map swap Y)), !(ind_app x (map swap Y)), outd_swap, ind_swap in Hb. lia. }
    destruct (thread_ok (length se + length oe) k (build_nxt veqb (se ++ oe)) (origs c ++ origs d) []) as (cs & k' & E & PC & FC); auto.
    { apply Permutation_length in PB. rewrite PB, app_length. auto. }
    exists Y, cs, k'. rewrite E. cbn [bind app]. split; [reflexivity|]. split; [unfold Y; congruence|].
    assert (FM : Forall (fun c' => wfc c' /\ origs c' = origs c ++ origs d) cs).
    { assert (NF : NoDup (flat_map (fun c => cyc_edges (vertices c)) cs)).
      { eapply Permutation_NoDup; [|apply Dse]. rewrite PC, PB. reflexivity. }
      rewrite Forall_forall in *. intros c' Hc'. destruct (FC c' Hc') as (vs & Hv & ->). split; [|reflexivity].
      apply Cell_wfc; auto. exact (NoDup_flat_sub _ _ _ NF Hc'). }
    split; [|split; auto].
    rewrite Pall. do 2 apply Permutation_app_head. rewrite <- PB, <- PC.
    assert (Eq : flat_map (fun c => cyc_edges (vertices c)) cs = flat_map half_edges cs).
    { clear - FM. induction cs as [|c1 cs IH]; cbn; auto. inversion FM as [|? ? ((_ & E & _) & _) FM']; subst.
      rewrite IH by auto. now rewrite E. }
    rewrite Eq. reflexivity.
Qed.
End M.
