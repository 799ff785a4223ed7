(** Tracing the cells of the arrangement. *)
From Verif.Model Require Import CellMerger Arrangement2d.
From Verif.Spec Require Import Plane.
From Verif.Proofs Require Import PyP PolyP DictP SweepOrd SweepL PlanarP MergerQ ArrVertexP ArrGraphP.
From Verif.Props Require Import Scan2dProps.

Lemma nodup_split {A} (l r : list A) : NoDup (l ++ r) -> NoDup l /\ NoDup r.
Proof.
  induction l as [|a l IH]; cbn; intros N; [split; [constructor|auto]|]. inversion N as [|? ? N1 N2]; subst. apply IH in N2 as (A1 & A2).
  split; auto. constructor; auto. intros X. apply N1, in_or_app. auto.
Qed.
Lemma take_at_nil {A} i : take_at i (@nil A) = None.
Proof. destruct i; reflexivity. Qed.
Section Trace.
Variables (hes : list segment) (vs : list (point * vertex)).
Hypothesis RV : forall e, In e hes -> In (rev_seg e) hes.
Hypothesis NE : forall e, In e hes -> fst e <> snd e.
Hypothesis VG : forall e, In e hes -> exists v, dget pt_eqb (fst e) vs = Some v /\ vgood hes (fst e) v.

(** the next half-edge of the cell *)
Definition nxr (e n : segment) : Prop :=
  exists v, dget pt_eqb (snd e) vs = Some v /\ vgood hes (snd e) v /\ get_next_ccw (snd e) v (rev_seg e) = Ok n.
Lemma nxr_total e : In e hes -> exists n, nxr e n /\ In n hes /\ fst n = snd e /\ turns_to hes (rev_seg e) n.
Proof.
  intros I. destruct (VG _ (RV e I)) as (v & D & V). cbn [rev_seg fst] in D, V.
  destruct (ccw_turns hes v (rev_seg e) V (RV e I) NE) as (n & N1 & _ & N2). exists n.
  split; [exists v; auto|]. split; [apply N2|]. split; [apply N2|auto].
Qed.
Lemma nxr_fun e n m : nxr e n -> nxr e m -> n = m.
Proof. intros (v & D & _ & A) (w & E & _ & B). rewrite D in E. apply some_inv in E. subst w. congruence. Qed.
Lemma nxr_in e n : In e hes -> nxr e n -> In n hes /\ fst n = snd e /\ turns_to hes (rev_seg e) n.
Proof. intros I N. destruct (nxr_total e I) as (m & M & H). now rewrite (nxr_fun _ _ _ N M). Qed.
Lemma ccw_cw c v e n : get_next_ccw c v e = Ok n -> get_next_cw c v n = Ok e.
Proof.
  intros W. unfold get_next_ccw in W. apply bind_ok in W as (? & _ & W). apply bind_ok in W as (? & _ & W).
  apply bind_ok in W as (m & _ & W). apply bind_ok in W as (p & W1 & W). apply bind_ok in W as (u & W2 & W).
  assert (m = n) as -> by congruence. apply passert_ok in W2. destruct (seg_eqb_ok p e) as [->|]; [auto|discriminate].
Qed.
Lemma nxr_inj e f n : In e hes -> In f hes -> nxr e n -> nxr f n -> e = f.
Proof.
  intros E F A B. destruct (nxr_in _ _ E A) as (I & F1 & _). destruct (nxr_in _ _ F B) as (_ & F2 & _).
  destruct A as (v & D & _ & A), B as (w & D' & _ & B). apply ccw_cw in A, B. assert (X : snd e = snd f) by congruence.
  rewrite <- X in D', B. rewrite D in D'. apply some_inv in D'. subst w. rewrite A in B. unfold rev_seg in B. destruct e, f. cbn in *. congruence.
Qed.

Definition chain (path : list segment) : Prop := forall a b, adj a b path -> nxr a b.
Definition closed (l : list segment) : Prop := forall e n, In e l -> nxr e n -> In n l.
Definition dangling (e : segment) : Prop := In e hes /\ nxr e (rev_seg e).
Definition is_cell (path : list segment) : Prop :=
  match path with
  | [] => False
  | first :: _ => chain path /\ nxr (last path first) first /\ (forall a b, adj a b path -> b <> rev_seg a)
  end.

Lemma chain_snoc l a n : chain (l ++ [a]) -> nxr a n -> chain ((l ++ [a]) ++ [n]).
Proof.
  intros C N x y A. apply adj_app in A as [A|[(u & v & E)|(l' & r' & E1 & E2)]]; auto.
  - exfalso. destruct u as [|? [|]]; discriminate.
  - apply app_inj_tail in E1 as (_ & <-). injection E2 as -> _. auto.
Qed.
Lemma chain_pred first l n : chain (first :: l) -> In n l -> exists a, nxr a n /\ In a (first :: l) /\ exists u v, first :: l = u ++ a :: n :: v.
Proof.
  intros C I. apply in_split in I as (u & v & ->). destruct (exists_last' u) as [->|(u' & a & ->)].
  - exists first. split; [apply C; exists [], v; auto|]. split; [now left|]. exists [], v. auto.
  - exists a. split; [apply C; exists (first :: u'), v; cbn; now rewrite <- app_assoc|].
    split; [right; apply in_or_app; left; apply in_or_app; right; now left|]. exists (first :: u'), v. cbn. now rewrite <- app_assoc.
Qed.

Lemma trace_ok : forall fuel first l prev cur unproc,
  let path := first :: l in
  last path first = (prev, cur) -> chain path -> NoDup (path ++ unproc) -> incl (path ++ unproc) hes -> closed (path ++ unproc) ->
  (forall a b, adj a b path -> b <> rev_seg a) -> (length unproc < fuel)%nat ->
  (trace fuel vs first (rev (map fst path)) prev cur unproc = Err AssertionError /\ exists e, dangling e) \/
  exists ext unproc', trace fuel vs first (rev (map fst path)) prev cur unproc = Ok (map fst (path ++ ext), unproc') /\
    Permutation unproc (ext ++ unproc') /\ is_cell (path ++ ext) /\ closed unproc'.
Proof.
  induction fuel as [|fuel IH]; intros first l prev cur unproc path LA CH ND IN CL BT F; [lia|].
  assert (IP : In (prev, cur) path).
  { rewrite <- LA. unfold path. destruct (exists_last' l) as [->|(l' & a & ->)]; [now left|].
    change (first :: l' ++ [a]) with ((first :: l') ++ [a]). rewrite last_last. right. apply in_or_app. right. now left. }
  assert (IH' : In (prev, cur) hes) by (apply IN, in_or_app; auto).
  destruct (nxr_total _ IH') as (n & N & NI & NF & NT). cbn [trace].
  pose proof N as (v & D & V & G). cbn [snd rev_seg fst] in D, V, G. unfold dgetr. rewrite D. cbn [bind].
  change (cur, prev) with (rev_seg (prev, cur)). rewrite G. cbn [bind].
  destruct (seg_eqb_ok n first) as [->|NN].
  - right. exists [], unproc. cbn [snd] in NF. rewrite NF, pt_eqb_refl'. cbn [passert bind]. rewrite rev_involutive, app_nil_r.
    split; auto. split; [reflexivity|]. split; [unfold path, is_cell; fold path; rewrite LA; auto|].
    intros e m E M. assert (X : In m (path ++ unproc)) by (eapply CL; eauto; apply in_or_app; auto).
    apply in_app_or in X as [X|X]; auto. exfalso. assert (EH : In e hes) by (apply IN, in_or_app; auto).
    assert (EP : In e path -> False).
    { intros Y. apply in_split in Y as (p1 & p2 & Y). rewrite Y, <- app_assoc in ND. cbn in ND. apply NoDup_remove_2 in ND.
      apply ND. apply in_or_app. right. apply in_or_app. auto. }
    destruct X as [<-|X].
    + apply EP. rewrite (nxr_inj _ _ _ EH IH' M N). auto.
    + destruct (chain_pred first l m CH X) as (a & A & AP & _). assert (AH : In a hes) by (apply IN, in_or_app; auto).
      apply EP. rewrite (nxr_inj _ _ _ EH AH M A). auto.
  - assert (X : In n (path ++ unproc)) by (eapply CL; eauto; apply in_or_app; auto).
    assert (NP : ~ In n path).
    { intros [Y|Y]; [congruence|]. destruct (chain_pred first l n CH Y) as (a & A & AP & u & w & E).
      assert (AH : In a hes) by (apply IN, in_or_app; auto). rewrite (nxr_inj _ _ _ AH IH' A N) in E. fold path in E, LA.
      assert (NDP : NoDup path) by (apply nodup_split in ND as (? & ?); auto).
      assert (LST : exists p0, path = p0 ++ [(prev, cur)]).
      { destruct (exists_last' path) as [Z|(p0 & z & Z)]; [discriminate|]. exists p0. rewrite Z, last_last in LA. now rewrite LA in Z. }
      destruct LST as (p0 & P0). rewrite P0 in NDP, E. assert (EE : In (prev, cur) p0).
      { destruct (exists_last' w) as [->|(w' & z & ->)].
        - change ((prev, cur) :: n :: []) with ([(prev, cur)] ++ [n]) in E. rewrite app_assoc in E. apply app_inj_tail in E as (-> & _).
          apply in_or_app. right. now left.
        - change (u ++ (prev, cur) :: n :: w' ++ [z]) with (u ++ ((prev, cur) :: n :: w') ++ [z]) in E. rewrite app_assoc in E. apply app_inj_tail in E as (-> & _).
          apply in_or_app. right. now left. }
      apply in_split in EE as (q1 & q2 & ->). rewrite <- app_assoc in NDP. cbn in NDP. apply NoDup_remove_2 in NDP. apply NDP.
      apply in_or_app. right. apply in_or_app. right. now left. }
    assert (NU : In n unproc) by (apply in_app_or in X as [|]; [contradiction|auto]).
    rewrite (proj2 (existsb_eqb_in _ seg_eqb_dec n unproc) NU). cbn [passert bind]. cbn [snd] in NF. rewrite NF, pt_eqb_refl'. cbn [passert bind].
    destruct (pt_eqb_ok (snd n) cur) as [Z|_]; [exfalso; apply (NE n NI); congruence|]. cbn [negb passert bind].
    destruct (pt_eqb_ok (snd n) prev) as [Z|NB].
    { left. split; auto. exists (prev, cur). split; auto. assert (n = rev_seg (prev, cur)) as <-; auto. unfold rev_seg. cbn. destruct n. cbn in *. congruence. }
    cbn [negb passert bind].
    assert (PE : Permutation unproc (n :: filter (fun e => negb (seg_eqb n e)) unproc)).
    { assert (NDU : NoDup unproc) by (apply nodup_split in ND as (? & ?); auto). clear -NU NDU.
      induction unproc as [|a u IHu]; [destruct NU|]. cbn. inversion NDU; subst. destruct (seg_eqb_ok n a) as [->|Z]; cbn [negb].
      - constructor. rewrite filter_all; auto. intros x X. destruct (seg_eqb_ok a x) as [->|]; auto.
      - destruct NU as [->|NU]; [congruence|]. rewrite perm_swap. constructor. auto. }
    set (un := filter _ unproc) in *.
    assert (PP : Permutation (path ++ unproc) ((first :: l ++ [n]) ++ un)).
    { change (first :: l ++ [n]) with (path ++ [n]). rewrite <- app_assoc. apply Permutation_app_head. exact PE. }
    assert (LEN : length unproc = S (length un)) by (apply Permutation_length in PE; exact PE).
    specialize (IH first (l ++ [n]) cur (snd n) un).
    assert (LAST : exists p0, path = p0 ++ [(prev, cur)]).
    { destruct (exists_last' path) as [Z|(p0 & z & Z)]; [discriminate|]. exists p0. fold path in LA. rewrite Z, last_last in LA. now rewrite LA in Z. }
    destruct LAST as (p0 & P0).
    cbv zeta in IH. destruct IH as [(E & DA)|(ext & un' & E & P & C & CL')].
    + change (first :: l ++ [n]) with ((first :: l) ++ [n]). rewrite last_last. destruct n. cbn in *. congruence.
    + change (first :: l ++ [n]) with (path ++ [n]). rewrite P0. apply chain_snoc; [now rewrite <- P0|auto].
    + now rewrite <- PP.
    + intros x Y. apply IN. now rewrite PP.
    + intros e m Y M. rewrite <- PP in *. eauto.
    + intros a b A. change (first :: l ++ [n]) with (path ++ [n]) in A. apply adj_app in A as [A|[(u & w & Y)|(l' & r' & E1 & E2)]]; auto.
      * exfalso. destruct u as [|? [|]]; discriminate.
      * rewrite P0 in E1. apply app_inj_tail in E1 as (_ & <-). injection E2 as -> _. intros ->. apply NB. reflexivity.
    + lia.
    + left. change (first :: l ++ [n]) with (path ++ [n]) in E. rewrite map_app, rev_app_distr in E. cbn in E. rewrite NF in E. cbn. auto.
    + right. exists (n :: ext), un'. change (first :: l ++ [n]) with (path ++ [n]) in *. rewrite map_app, rev_app_distr in E. cbn [map rev app] in E. rewrite NF in E.
      rewrite <- app_assoc in E, C. cbn [app] in E, C. split; auto. split; [rewrite PE, P; reflexivity|]. auto.
Qed.

Lemma last_any (l : list segment) a b c : last (a :: l) b = last (a :: l) c.
Proof. revert a. induction l as [|d l IH]; intros a; [auto|]. exact (IH d). Qed.
Lemma chain_edges l z : forall e, (forall a b, adj a b (e :: l) -> fst b = snd a) -> snd (last l e) = z ->
  edges_from (fst e) (map fst l ++ [z]) = e :: l.
Proof.
  induction l as [|f l IH]; intros e H E; cbn in *.
  - subst z. now destruct e.
  - assert (X : fst f = snd e) by (apply H; exists [], l; auto). rewrite X. f_equal; [now destruct e|]. rewrite <- X. apply IH.
    + intros a b (u & v & Y). apply H. exists (e :: u), v. cbn. now rewrite Y.
    + rewrite <- E. destruct l; auto. f_equal. apply last_any.
Qed.
Lemma cell_edges path : incl path hes -> is_cell path -> edges_iter (map fst path) = path.
Proof.
  destruct path as [|e l]; intros IN C; [destruct C|]. destruct C as (CH & N & _). cbn [map]. rewrite edges_iter_from.
  assert (IL : In (last (e :: l) e) hes).
  { apply IN. destruct (exists_last' (e :: l)) as [Z|(p & z & Z)]; [discriminate|]. rewrite Z, last_last. apply in_or_app. right. now left. }
  apply chain_edges.
  - intros a b A. destruct (adj_in _ _ _ A) as (IA & _). destruct (nxr_in a b (IN _ IA) (CH a b A)) as (_ & F & _). auto.
  - destruct (nxr_in _ _ IL N) as (_ & F & _). rewrite F. destruct l; [reflexivity|f_equal].
Qed.
Lemma trace_cells_ok : forall fuel k o unproc, NoDup unproc -> incl unproc hes -> closed unproc -> (length unproc <= fuel)%nat ->
  (trace_cells fuel k o vs unproc = Err AssertionError /\ exists e, dangling e) \/
  exists paths, trace_cells fuel k o vs unproc = Ok (map (map fst) paths) /\ Permutation unproc (concat paths) /\ Forall is_cell paths.
Proof.
  induction fuel as [|fuel IH]; intros k o unproc ND IN CL F.
  - destruct unproc; [|cbn in F; lia]. right. exists []. cbn [trace_cells]. rewrite take_at_nil. cbn. auto.
  - cbn [trace_cells]. destruct (take_at (o k mod length unproc) unproc) as [[e rest]|] eqn:T.
    + pose proof (take_at_perm _ _ _ _ T) as P.
      assert (LEN : length unproc = S (length rest)) by (apply Permutation_length in P; exact P).
      destruct (trace_ok (length unproc) e [] (fst e) (snd e) rest) as [(E & D)|(ext & un & E & P' & C & CL')].
      * cbn. now destruct e.
      * intros a b (u & v & X). destruct u as [|? [|]]; discriminate.
      * cbn. now rewrite <- P.
      * cbn. intros x X. apply IN. now rewrite P.
      * cbn. intros a n A N. rewrite <- P in *. eauto.
      * intros a b (u & v & X). destruct u as [|? [|]]; discriminate.
      * lia.
      * left. cbn in E. rewrite E. cbn. auto.
      * cbn [map rev app] in E. rewrite E. cbn [bind].
        assert (PU : Permutation unproc ((e :: ext) ++ un)) by (rewrite P, P'; reflexivity).
        destruct (IH (S k) o un) as [(E2 & D)|(paths & E2 & P2 & C2)].
        -- rewrite PU in ND. now apply nodup_split in ND as (_ & ?).
        -- intros x X. apply IN. rewrite PU. apply in_or_app. auto.
        -- auto.
        -- apply Permutation_length in P'. rewrite app_length in P'. lia.
        -- left. rewrite E2. cbn. auto.
        -- right. exists ((e :: ext) :: paths). rewrite E2. cbn [bind map concat]. split; auto. split; [rewrite PU, P2; reflexivity|]. constructor; auto.
    + right. exists []. cbn. split; auto. split; [|constructor]. destruct unproc as [|x u]; [auto|].
      exfalso. clear -T. assert (X : (o k mod length (x :: u) < length (x :: u))%nat) by (apply Nat.mod_upper_bound; cbn; lia).
      revert X T. generalize (o k mod length (x :: u))%nat. intros i. generalize (x :: u). clear. induction i as [|i IH]; intros [|a l] L T; cbn in *; try lia; try discriminate.
      destruct (take_at i l) as [[]|] eqn:Q; [discriminate|]. apply (IH l); auto. lia.
Qed.
Lemma closed_hes : closed hes.
Proof. intros e n E N. now apply (nxr_in e n E N). Qed.
Theorem trace_all o : NoDup hes ->
  (trace_cells (length hes) 0 o vs hes = Err AssertionError /\ exists e, dangling e) \/
  exists paths, trace_cells (length hes) 0 o vs hes = Ok (map (map fst) paths) /\ Permutation hes (concat paths) /\ Forall is_cell paths /\
    forall p, In p paths -> edges_iter (map fst p) = p.
Proof.
  intros ND. destruct (trace_cells_ok (length hes) 0 o hes ND (fun x X => X) closed_hes (le_n _)) as [H|(paths & E & P & C)]; auto.
  right. exists paths. split; auto. split; auto. split; auto. intros p I. apply cell_edges; [|rewrite Forall_forall in C; auto].
  intros x X. rewrite P. apply in_concat. eauto.
Qed.
(** a dangling half-edge ends where no other half-edge starts *)
Lemma dangling_alone e : dangling e -> forall f, In f hes -> fst f = snd e -> f = rev_seg e.
Proof.
  intros (I & v & D & V & G) f F FE. pose proof V as (S & VV).
  destruct (he_key_ok (rev_seg e)) as (k & K). { cbn. intros X. now apply (NE e I). }
  assert (J : In (k, rev_seg e) v) by (apply VV; cbn; auto). apply in_split in J as (l & r & ->).
  pose proof (ccw_split l r k (rev_seg e) S K) as W. cbn [fst rev_seg] in W. fold (rev_seg e) in W.
  rewrite G in W. specialize (W ltac:(intros k' e' H; apply VV in H; cbn; tauto)). injection W as W.
  assert (RL : r ++ l = []).
  { destruct (exists_last' (r ++ l)) as [|(q & [k' x] & Q)]; auto. rewrite Q, last_last in W. cbn in W. subst x.
    assert (X : In (k', rev_seg e) (r ++ l)) by (rewrite Q; apply in_or_app; right; now left).
    assert (KK : k' = k). { assert (Y : In (k', rev_seg e) (l ++ (k, rev_seg e) :: r)) by (apply in_app_or in X as [X|X]; apply in_or_app; [right; now right|now left]).
      apply VV in Y as (_ & _ & Y). congruence. }
    subst k'. destruct (ss_split _ _ _ _ S) as (A & B & _). apply in_app_or in X as [X|X]; [apply B in X|apply A in X]; cbn in X; exfalso; qlra. }
  apply app_eq_nil in RL as (-> & ->). destruct (he_key_ok f (NE f F)) as (kf & KF).
  assert (X : In (kf, f) [(k, rev_seg e)]) by (apply VV; auto). destruct X as [X|[]]. apply pair_inv in X as (_ & <-). reflexivity.
Qed.
End Trace.
