(** * Properties C25-C28: the cell merger. *)
From Verif.Model Require Import CellMerger.
From Verif.Proofs Require Import MergerP MergerQ.
From Verif.Spec Require Import Plane.
From Verif.Proofs Require Import PolyP WindingP WindingQ WindingR.
From Verif.Model Require Import Primitive2d.
From Verif.Props Require Import Primitive2dProps LocateProps.
From Coq Require Import PeanoNat Permutation Arith.

(** Spec: the directed edges of the closed ring v0 -> v1 -> ... -> v0 *)
Definition ring_edges {V} (l : list V) : list (V * V) :=
  flat_map (fun i => match nth_error l i, nth_error l (S i mod length l) with
                     | Some a, Some b => [(a, b)] | _, _ => [] end) (seq 0 (length l)).
Definition opposite {V} (e : V * V) : V * V := (snd e, fst e).
(** no edge of the ring is also traversed backwards by the ring *)
Definition no_spikes {V} (l : list V) : Prop := forall e, In e (ring_edges l) -> ~ In (opposite e) (ring_edges l).
Definition all_edges {V} (ls : list (list V)) : list (V * V) := flat_map ring_edges ls.

Lemma combine_nth_map {V} (l r : list V) : length r = length l ->
  combine l r = flat_map (fun i => match nth_error l i, nth_error r i with Some a, Some b => [(a, b)] | _, _ => [] end) (seq 0 (length l)).
Proof.
  revert r; induction l as [|a l IH]; intros [|b r] E; cbn in E; try lia; [reflexivity|].
  cbn [combine length seq flat_map nth_error app]. f_equal. rewrite IH by lia.
  rewrite <- seq_shift, !flat_map_concat_map, map_map. reflexivity.
Qed.
Lemma ring_edges_cyc {V} (l : list V) : ring_edges l = cyc_edges l.
Proof.
  destruct l as [|a t]; [reflexivity|].
  unfold cyc_edges. rewrite combine_nth_map by (rewrite app_length; cbn; lia).
  unfold ring_edges. rewrite !flat_map_concat_map. f_equal. apply map_ext_in.
  intros i Hi. apply in_seq in Hi. cbn [length] in *.
  destruct (Nat.eq_dec i (length t)) as [->|N].
  - rewrite Nat.mod_same by lia. rewrite nth_error_app2 by lia. rewrite Nat.sub_diag. reflexivity.
  - rewrite Nat.mod_small by lia. cbn [nth_error]. rewrite nth_error_app1 by lia. reflexivity.
Qed.
Lemma all_edges_ins {V} (l : list (list V)) : all_edges l = inserted_edges l.
Proof. induction l as [|c l IH]; cbn; [reflexivity|]. unfold all_edges in IH. rewrite ring_edges_cyc, IH. reflexivity. Qed.
Lemma wfc_edges {V} (cs : list (@cell V)) : Forall wfc cs -> edges_of cs = all_edges (map vertices cs).
Proof. induction 1 as [|c cs (_ & E & _) _ IH]; cbn; [reflexivity|]. unfold edges_of in IH. rewrite E, IH, ring_edges_cyc. reflexivity. Qed.

Section Bools.
Context {V : Type} (veqb : V -> V -> bool) (D : forall a b, reflect (a = b) (veqb a b)).
Fixpoint nodupb (l : list (V * V)) : bool := match l with [] => true | e :: t => negb (mem_edge veqb e t) && nodupb t end.
Lemma NoDup_nodupb l : nodupb l = true -> NoDup l.
Proof.
  induction l as [|e t IH]; cbn; intros H; constructor; apply andb_prop in H; destruct H as (A & B); auto.
  intros I. apply (mem_edge_in veqb D) in I. rewrite I in A. discriminate.
Qed.
Lemma no_spikesb (l : list V) : forallb (fun e => negb (mem_edge veqb (opposite e) (ring_edges l))) (ring_edges l) = true -> no_spikes l.
Proof.
  intros H e He Ho. rewrite forallb_forall in H. specialize (H e He).
  apply (mem_edge_in veqb D) in Ho. rewrite Ho in H. discriminate.
Qed.
End Bools.

Section V.
Context {V : Type} (veqb : V -> V -> bool).
Definition decides := forall a b, reflect (a = b) (veqb a b).

(** ** C26: merging two cells always terminates normally *)
Theorem cell_merged_total : decides -> forall o k vs ws (os ps : list (list V)),
  vs <> [] -> ws <> [] -> NoDup (ring_edges vs ++ ring_edges ws) ->
  exists m k', merged veqb o k (Cell veqb vs os) (Cell veqb ws ps) = Ok (m, k') /\
  match m with
  | None => forall e, In e (ring_edges vs) -> ~ In (opposite e) (ring_edges ws)
  | Some l => exists X, X <> [] /\
      (forall e, In e X <-> In e (ring_edges vs) /\ In (opposite e) (ring_edges ws)) /\
      Permutation (ring_edges vs ++ ring_edges ws) (X ++ map opposite X ++ all_edges (map vertices l)) /\
      (forall c, In c l -> vertices c <> [] /\ origs c = os ++ ps)
  end.
Proof.
  intros D o k vs ws os ps Nv Nw ND. rewrite !ring_edges_cyc in ND.
  assert (Wv : wfc (Cell veqb vs os)) by (apply Cell_wfc; eauto using NoDup_app_l).
  assert (Ww : wfc (Cell veqb ws ps)) by (apply Cell_wfc; eauto using NoDup_app_r).
  pose proof Wv as (_ & Ev & _). pose proof Ww as (_ & Ew & _).
  cbn [vertices Cell] in Ev, Ew.
  destruct (merged_ok veqb D o k (Cell veqb vs os) (Cell veqb ws ps)) as [(E & H)|(X & m & k' & E & NX & P & HX & F)]; auto.
  - rewrite Ev, Ew. exact ND.
  - exists None, k. split; auto. rewrite !ring_edges_cyc. rewrite Ev, Ew in H. exact H.
  - exists (Some m), k'. split; auto. exists X. rewrite !ring_edges_cyc. rewrite Ev, Ew in *. split; auto. split; [exact HX|].
    fold (edges_of m) in P. rewrite wfc_edges in P by (eapply Forall_impl; [|apply F]; cbn; intros ? (? & ?); auto). split; [exact P|].
    rewrite Forall_forall in F. intros c Hc. destruct (F c Hc) as ((N & _) & O). split; auto.
Qed.

(** ** C25 *)
(** Enough steps for the [while len(to_add)] loop (the code has no bound). *)
Definition enough (cs : list (list V)) : nat := length (all_edges cs) * S (length (all_edges cs)) + 1.

Definition admissible (cs : list (list V)) : Prop :=
  NoDup (all_edges cs) /\ forall c, In c cs -> c <> [] /\ no_spikes c.

Theorem cell_merger_conserves : decides -> forall o fuel k cs,
  admissible cs -> (enough cs <= fuel)%nat ->
  add_cells veqb o fuel k CellMergerSlow cs = Err AssertionError \/
  exists m k', add_cells veqb o fuel k CellMergerSlow cs = Ok (m, k') /\
    (** exactly the half-edges whose opposite was not inserted remain *)
    Permutation (all_edges (map vertices (cells m)))
                (filter (fun e => negb (mem_edge veqb (opposite e) (all_edges cs))) (all_edges cs)) /\
    (forall v, In v (map vertices (cells m)) -> v <> []) /\
    original_cells m = cs /\
    (forall c, In c cs <-> In c (flat_map origs (cells m)) \/ In c (annihilated m)).
Proof.
  intros D o fuel k cs (ND & F) L. unfold enough in L. rewrite all_edges_ins in *.
  destruct (add_cells_ok veqb D o fuel k CellMergerSlow [] cs) as [E|(m & k' & E & X & P & W & C & O & H)]; auto.
  - exists []. cbn. split; [constructor|]. split; [constructor|]. split; [intros e []|]. split; [reflexivity|]. intros; tauto.
  - rewrite Forall_forall. intros c Hc. destruct (F c Hc) as (N & S). split; auto.
    unfold no_spikes in S. rewrite ring_edges_cyc in S. exact S.
  - right. exists m, k'. split; auto. cbn [app] in *.
    rewrite <- wfc_edges by auto.
    split; [|split; [|split; auto]].
    + apply NoDup_Permutation.
      * eapply NoDup_app_r, NoDup_app_r, Permutation_NoDup; [apply P|auto].
      * now apply NoDup_filter.
      * intros e. rewrite filter_In, Bool.negb_true_iff.
        assert (M : mem_edge veqb (opposite e) (inserted_edges cs) = false <-> ~ In (opposite e) (inserted_edges cs)).
        { rewrite <- (mem_edge_in veqb D). destruct mem_edge; split; congruence. }
        rewrite M. clear M.
        pose proof (Permutation_NoDup P ND) as NP.
        assert (HI : forall x, In x (inserted_edges cs) <-> In x X \/ In x (map swap X) \/ In x (edges_of (cells m))).
        { intros x. rewrite <- !in_app_iff. split; apply Permutation_in; [|symmetry]; exact P. }
        rewrite !HI. split.
        { intros He. split; [auto|]. intros [G|[G|G]].
          - assert (In e (map swap X)) by (apply in_map_iff; exists (opposite e); split; auto; apply swap_swap).
            eapply (NoDup_app_disj (map swap X)); [eapply NoDup_app_r; apply NP|eassumption|assumption].
          - apply in_map_iff in G. destruct G as (y & Ey & Hy).
            assert (y = e) by (rewrite <- (swap_swap y), Ey; apply swap_swap). subst y.
            eapply (NoDup_app_disj X); [apply NP|eassumption|apply in_or_app; auto].
          - exact (C e He G). }
        { intros ([G|[G|G]] & N); auto; exfalso; apply N.
          - right; left. apply (in_map swap) in G. exact G.
          - apply in_map_iff in G. destruct G as (y & <- & Hy). left. exact (eq_ind_r (fun z => In z X) Hy (swap_swap y)). }
    + intros v Hv. apply in_map_iff in Hv. destruct Hv as (c & <- & Hc).
      rewrite Forall_forall in W. now destruct (W c Hc).
    + intros c. symmetry. apply H.
Qed.
End V.
Print Assumptions cell_merged_total.
Print Assumptions cell_merger_conserves.

(** In the plane: the total signed area and the total winding number around any point off the
    inserted boundaries are conserved. *)
Lemma filter_split_q {A} (f : A -> Qc) g l : qsum f l = qsum f (filter g l) + qsum f (filter (fun e => negb (g e)) l).
Proof. induction l as [|e E IH]; cbn; [qlra|]. destruct (g e); cbn; rewrite IH; qlra. Qed.
Lemma filter_split_z {A} (f : A -> Z) g l : zsum f l = (zsum f (filter g l) + zsum f (filter (fun e => negb (g e)) l))%Z.
Proof. induction l as [|e E IH]; cbn; [lia|]. destruct (g e); cbn; rewrite IH; lia. Qed.
Lemma filter_opp_split (E : list segment) : NoDup E -> (forall e, In e E -> e <> opposite e) ->
  forall R, Permutation R (filter (fun e => negb (mem_edge pt_eqb (opposite e) E)) E) ->
  (forall f : segment -> Qc, (forall e, f (opposite e) = - f e) -> qsum f R = qsum f E) /\
  (forall f : segment -> Z, (forall e, f (opposite e) = - f e)%Z -> zsum f R = zsum f E).
Proof.
  intros ND _ R PR.
  assert (K : Permutation (map opposite (filter (fun e => mem_edge pt_eqb (opposite e) E) E))
                          (filter (fun e => mem_edge pt_eqb (opposite e) E) E)).
  { apply NoDup_Permutation.
    - apply FinFun.Injective_map_NoDup; [|now apply NoDup_filter].
      intros [a b] [c d] H. injection H. intros; subst; auto.
    - now apply NoDup_filter.
    - intros e. rewrite in_map_iff. split.
      + intros (x & <- & H). apply filter_In in H. destruct H as (H1 & H2). apply filter_In.
        apply (mem_edge_in pt_eqb pt_eqb_spec) in H2. split; auto.
        apply (mem_edge_in pt_eqb pt_eqb_spec). destruct x; exact H1.
      + intros H. apply filter_In in H. destruct H as (H1 & H2). apply (mem_edge_in pt_eqb pt_eqb_spec) in H2.
        exists (opposite e). split; [now destruct e|]. apply filter_In. split; auto.
        apply (mem_edge_in pt_eqb pt_eqb_spec). destruct e; exact H1. }
  split; intros f Hf.
  - rewrite (qsum_perm f _ _ PR).
    assert (Z0 : qsum f (filter (fun e => mem_edge pt_eqb (opposite e) E) E) = 0).
    { pose proof (qsum_perm f _ _ K) as H. rewrite qsum_map in H.
      rewrite (qsum_ext (fun x => f (opposite x)) (fun x => (- (1)) * f x)) in H by (intros; rewrite Hf; qlra).
      rewrite qsum_scale in H. set (q := qsum f _) in *. clearbody q. clear -H. qlra. }
    assert (S : qsum f E = qsum f (filter (fun e => mem_edge pt_eqb (opposite e) E) E)
                         + qsum f (filter (fun e => negb (mem_edge pt_eqb (opposite e) E)) E)).
    { apply (filter_split_q f (fun e => mem_edge pt_eqb (opposite e) E)). }
    rewrite S, Z0. qlra.
  - rewrite (zsum_perm f _ _ PR).
    assert (Z0 : zsum f (filter (fun e => mem_edge pt_eqb (opposite e) E) E) = 0%Z).
    { pose proof (zsum_perm f _ _ K) as H. rewrite zsum_map in H.
      rewrite (zsum_ext (fun x => f (opposite x)) (fun x => (-1) * f x)%Z) in H by (intros; rewrite Hf; lia).
      rewrite zsum_scale in H. lia. }
    assert (S : zsum f E = (zsum f (filter (fun e => mem_edge pt_eqb (opposite e) E) E)
                         + zsum f (filter (fun e => negb (mem_edge pt_eqb (opposite e) E)) E))%Z).
    { apply (filter_split_z f (fun e => mem_edge pt_eqb (opposite e) E)). }
    lia.
Qed.

Lemma cyc_pairs l : cyclic_pairs l = ring_edges l.
Proof. rewrite ring_edges_cyc. now destruct l. Qed.

Theorem cell_merger_conserves_plane : forall o fuel k (cs : list (list point)) m k',
  admissible cs -> (enough cs <= fuel)%nat ->
  add_cells pt_eqb o fuel k CellMergerSlow cs = Ok (m, k') ->
  qsum area_of (map vertices (cells m)) = qsum area_of cs /\
  forall p, (forall c, In c cs -> ~ on_boundary c p) ->
    (forall v, In v (map vertices (cells m)) -> ~ on_boundary v p) /\
    forall w w', Forall2 (fun c n => winding_number c p n) cs w ->
      Forall2 (fun c n => winding_number c p n) (map vertices (cells m)) w' ->
      zsum (fun n => n) w' = zsum (fun n => n) w.
Proof.
  intros o fuel k cs m k' A L E.
  destruct (cell_merger_conserves pt_eqb pt_eqb_spec o fuel k cs A L) as [E'|(m1 & k1 & E' & P & NE & _)];
    [congruence|]. rewrite E in E'. injection E' as <- <-.
  destruct A as (ND & F).
  destruct (filter_opp_split (all_edges cs) ND) with (R := all_edges (map vertices (cells m))) as (HQ & HZ); auto.
  { intros e He Q. apply in_flat_map in He. destruct He as (c & Hc & He). destruct (F c Hc) as (_ & S).
    apply (S e He). rewrite <- Q. exact He. }
  split.
  - assert (G : forall l, qsum area_of l = - (qq 1 2 * qsum (fun s => orient (0,0) (fst s) (snd s)) (all_edges l))).
    { induction l as [|c l IH]; [cbn; qlra|]. cbn [qsum all_edges flat_map]. fold (all_edges l).
      rewrite qsum_app, IH, (area_of_fan (0, 0)). unfold fan2. rewrite cyc_pairs. qlra. }
    rewrite !G, HQ; auto. intros [a b]. cbn. unfold orient, cross, vsub; cbn. ring.
  - intros p Hp.
    assert (B : forall l, (forall c, In c l -> ~ on_boundary c p) <-> forall s, In s (all_edges l) -> ~ on_seg s p).
    { intros l. split.
      - intros H s Hs O. apply in_flat_map in Hs. destruct Hs as (c & Hc & Hs). apply (H c Hc). apply on_boundary_iff.
        exists s. split; auto. change (edges_iter c) with (cyclic_pairs c). rewrite cyc_pairs. auto.
      - intros H c Hc O. apply on_boundary_iff in O. destruct O as (s & Hs & O). apply (H s); auto.
        apply in_flat_map. exists c. split; auto. rewrite <- cyc_pairs. auto. }
    assert (Hm : forall v, In v (map vertices (cells m)) -> ~ on_boundary v p).
    { apply B. intros s Hs. pose proof (Permutation_in _ P Hs) as H. apply filter_In in H. destruct H as (H & _).
      eapply B; eauto. }
    split; [exact Hm|]. intros w w' W W'.
    destruct (generic_apex_exists (concat cs ++ concat (map vertices (cells m))) p) as (a & Ga).
    { intros H. apply in_app_or in H. destruct H as [H|H]; apply in_concat in H; destruct H as (c & Hc & H).
      - apply (Hp c Hc). now apply vertex_on_boundary.
      - apply (Hm c Hc). now apply vertex_on_boundary. }
    assert (G : forall l u, (forall c, In c l -> c <> []) -> (forall c, In c l -> ~ on_boundary c p) ->
                (forall c v, In c l -> In v c -> ~ on_seg (a, v) p) ->
                Forall2 (fun c n => winding_number c p n) l u ->
                zsum (fun n => n) u = zsum (fun s => tri_ind a (fst s) (snd s) p) (all_edges l)).
    { intros l u N0 NB GA F2. induction F2 as [|c n l u Hc F2 IH]; [reflexivity|].
      cbn [zsum all_edges flat_map]. fold (all_edges l). rewrite zsum_app, IH; [|intros; eauto with datatypes..].
      f_equal. destruct (locate_winding c p) as (w0 & _ & U & _); [apply N0; left; auto|apply NB; left; auto|].
      rewrite (U n Hc). symmetry. rewrite <- cyc_pairs. apply U. exists a. split; [|reflexivity].
      intros v Hv. apply (GA c); auto; left; auto. }
    rewrite (G (map vertices (cells m)) w'), (G cs w); auto.
    + apply HZ. intros e. cbn. apply tri_ind_rev.
    + intros c Hc. now apply (F c Hc).
    + intros c v Hc Hv. apply Ga. apply in_or_app. left. apply in_concat; eauto.
    + intros c v Hc Hv. apply Ga. apply in_or_app. right. apply in_concat; eauto.
Qed.
Print Assumptions cell_merger_conserves_plane.

(** Three triangles with a common side each: both inner sides cancel. *)
Example cell_merger_ex :
  let c1 := [(zq 0, zq 0); (zq 0, zq 2); (zq 2, zq 0)] in
  let c2 := [(zq 2, zq 0); (zq 0, zq 2); (zq 2, zq 2)] in
  exists m k, add_cells pt_eqb (fun k => k) (enough [c1; c2]) 0 CellMergerSlow [c1; c2] = Ok (m, k) /\
    get_cells pt_eqb m = Ok [[(zq 2, zq 0); (zq 0, zq 0); (zq 0, zq 2); (zq 2, zq 2)]] /\ admissible [c1; c2].
Proof.
  cbv zeta. eexists _, _. split; [vm_compute; reflexivity|]. split; [vm_compute; reflexivity|].
  split.
  - apply (NoDup_nodupb pt_eqb pt_eqb_spec). vm_compute. reflexivity.
  - intros c [<-|[<-|[]]]; (split; [discriminate|]); apply (no_spikesb pt_eqb pt_eqb_spec); vm_compute; reflexivity.
Qed.

(** ** C27 *)
(** Never lost: everything inserted is an original of a surviving cell or annihilated, and
    get_cells succeeds exactly when nothing is both.  Missing: nothing is both (see the refutation). *)
Theorem cell_merger_never_lost {V} (veqb : V -> V -> bool) : decides veqb -> forall o fuel k cs m k',
  admissible cs -> (enough cs <= fuel)%nat -> add_cells veqb o fuel k CellMergerSlow cs = Ok (m, k') ->
  (forall c, In c cs <-> In c (flat_map origs (cells m)) \/ In c (annihilated m)) /\
  ((forall c, In c (flat_map origs (cells m)) -> ~ In c (annihilated m)) ->
     get_cells veqb m = Ok (map vertices (cells m)) /\
     get_cells_originals veqb m = Ok (map (fun c => (vertices c, origs c)) (cells m))) /\
  ((exists c, In c (flat_map origs (cells m)) /\ In c (annihilated m)) ->
     get_cells veqb m = Err AssertionError /\ get_cells_originals veqb m = Err AssertionError).
Proof.
  intros D o fuel k cs m k' A L E.
  destruct (cell_merger_conserves veqb D o fuel k cs A L) as [E'|(m1 & k1 & E' & _ & _ & O & H)]; [congruence|].
  rewrite E in E'. injection E' as <- <-. split; [exact H|].
  assert (I : forall x a b, In x (inter_l veqb a b) <-> In x a /\ In x b).
  { intros x a b. unfold inter_l. rewrite filter_In. rewrite (mem_l_in veqb D). tauto. }
  split.
  - intros N. assert (C : check veqb m = Ok tt).
    { unfold check.
      replace (length (inter_l veqb (flat_map origs (cells m)) (annihilated m)) =? 0)%nat with true.
      - cbn [passert bind].
        replace (_ && _) with true; [reflexivity|]. symmetry. apply andb_true_intro.
        split; apply forallb_forall; intros x Hx; apply (mem_l_in veqb D).
        + rewrite O. apply H. apply in_app_or in Hx. tauto.
        + rewrite O in Hx. apply H in Hx. now apply in_or_app.
      - symmetry. apply Nat.eqb_eq. destruct (inter_l _ _ _) as [|x r] eqn:Q; [reflexivity|].
        assert (Hi : In x (inter_l veqb (flat_map origs (cells m)) (annihilated m))) by (rewrite Q; left; auto).
        apply I in Hi. destruct Hi as (H1 & H2). destruct (N x H1 H2). }
    unfold get_cells, get_cells_originals. rewrite C. auto.
  - intros (c & Hc). assert (C : check veqb m = Err AssertionError).
    { unfold check. apply I in Hc. destruct (inter_l _ _ _); [destruct Hc|]. reflexivity. }
    unfold get_cells, get_cells_originals. rewrite C. auto.
Qed.
Print Assumptions cell_merger_never_lost.

(** A cell A that goes twice through the vertex (0,0), a cell C filling its hole and a third cell B
    next to it, three disjoint faces of a planar drawing.  After B, C, A get_cells fails for some
    iteration order: the part of A around the hole annihilates with C, and the other part of A, then
    waiting in [to_add], is not looked at by the loop at line 137. *)
Local Definition P (x y : Z) : point := (zq x, zq y).
Definition cellA := [P 0 0; P 2 2; P 0 8; P 8 0; P 0 0; P 4 1; P 4 2].
Definition cellB := [P 0 0; P 0 8; P 2 2].
Definition cellC := [P 0 0; P 4 2; P 4 1].
Theorem cell_merger_check_refuted : exists o m k,
  admissible [cellB; cellC; cellA] /\
  add_cells pt_eqb o (enough [cellB; cellC; cellA]) 0 CellMergerSlow [cellB; cellC; cellA] = Ok (m, k) /\
  get_cells pt_eqb m = Err AssertionError.
Proof.
  exists (fun k => if (k =? 1)%nat then 1%nat else 0%nat). eexists _, _. split.
  - split.
    + apply (NoDup_nodupb pt_eqb pt_eqb_spec). vm_compute. reflexivity.
    + intros c [<-|[<-|[<-|[]]]]; (split; [discriminate|]); apply (no_spikesb pt_eqb pt_eqb_spec); vm_compute; reflexivity.
  - split; vm_compute; reflexivity.
Qed.
(** The assertion of line 134 ("annihilating cells have no common original") can fail: the third
    cell closes a pinched annulus made of the first two. *)
Theorem cell_merger_line134_refuted : exists o (cs : list (list nat)),
  admissible cs /\ add_cells Nat.eqb o (enough cs) 0 CellMergerSlow cs = Err AssertionError.
Proof.
  exists (fun _ => 0%nat), [[0;1;2;4];[0;3;4;2];[0;2;1;0;4;3]]%nat. split.
  - split.
    + apply (NoDup_nodupb Nat.eqb Nat.eqb_spec). vm_compute. reflexivity.
    + intros c [<-|[<-|[<-|[]]]]; (split; [discriminate|]); apply (no_spikesb Nat.eqb Nat.eqb_spec); vm_compute; reflexivity.
  - vm_compute. reflexivity.
Qed.
(** Without the no-spike hypothesis two pieces of the same cell can cancel each other. *)
Theorem cell_merger_spikes_refuted : exists o (cs : list (list nat)),
  NoDup (all_edges cs) /\ (forall c, In c cs -> c <> []) /\
  add_cells Nat.eqb o (enough cs) 0 CellMergerSlow cs = Err AssertionError.
Proof.
  exists (fun _ => 0%nat), [[0;1;2;0;2;1;0;3;4];[0;4;3]]%nat. split; [|split].
  - apply (NoDup_nodupb Nat.eqb Nat.eqb_spec). vm_compute. reflexivity.
  - intros c [<-|[<-|[]]]; discriminate.
  - vm_compute. reflexivity.
Qed.

(** ** C28 *)
Lemma mini_loop_spec {V} (ltb : V -> V -> bool) cell :
  (forall x, ltb x x = false) -> (forall x y z, ltb x y = true -> ltb y z = true -> ltb x z = true) ->
  forall rest i mini y, (forall j, nth_error rest j = nth_error cell (i + j)) -> nth_error cell mini = Some y ->
  (forall j x, (j < i)%nat -> nth_error cell j = Some x -> ltb x y = false) ->
  exists y', nth_error cell (mini_loop ltb cell rest i mini) = Some y' /\
    forall x, In x cell -> ltb x y' = false.
Proof.
  intros Ir Tr. induction rest as [|x rest IH]; intros i mini y R M H; cbn [mini_loop].
  - exists y. split; auto. intros x Hx. apply In_nth_error in Hx. destruct Hx as (n & Hn).
    destruct (Nat.lt_ge_cases n i) as [L|G]; [eapply H; eauto|].
    specialize (R (n - i)%nat). replace (i + (n - i))%nat with n in R by lia. rewrite Hn in R. destruct (n - i)%nat; discriminate.
  - assert (X : nth_error cell i = Some x) by (specialize (R 0%nat); rewrite Nat.add_0_r in R; now rewrite <- R).
    assert (R' : forall j, nth_error rest j = nth_error cell (S i + j)) by (intros j; specialize (R (S j)); cbn in R; rewrite R; f_equal; lia).
    rewrite M. destruct (ltb x y) eqn:B.
    + apply (IH (S i) i x); auto. intros j z Lj Hj. destruct (Nat.eq_dec j i) as [->|Nj]; [rewrite X in Hj; injection Hj as <-; apply Ir|].
      destruct (ltb z x) eqn:Q; [|reflexivity]. rewrite <- (H j z) by (auto; lia). symmetry. eapply Tr; eauto.
    + apply (IH (S i) mini y); auto. intros j z Lj Hj. destruct (Nat.eq_dec j i) as [->|Nj]; [rewrite X in Hj; injection Hj as <-; auto|].
      eapply (H j); auto. lia.
Qed.
Lemma mini_loop_stay {V} (ltb : V -> V -> bool) cell y rest i :
  nth_error cell 0 = Some y -> (forall x, In x rest -> ltb x y = false) -> mini_loop ltb cell rest i 0 = 0%nat.
Proof.
  revert i. induction rest as [|x rest IH]; intros i M H; cbn [mini_loop]; auto.
  rewrite M, (H x) by (left; auto). apply IH; auto. intros; apply H; right; auto.
Qed.

Theorem canonicalize_cell_canonical {V} (ltb : V -> V -> bool) :
  (forall x, ltb x x = false) -> (forall x y z, ltb x y = true -> ltb y z = true -> ltb x z = true) ->
  forall cell,
  (** a rotation *)
  (exists a b, cell = a ++ b /\ canonicalize_cell ltb cell = b ++ a) /\
  (** starting at a minimal vertex *)
  (forall y r, canonicalize_cell ltb cell = y :: r -> forall x, In x cell -> ltb x y = false) /\
  (** idempotent *)
  canonicalize_cell ltb (canonicalize_cell ltb cell) = canonicalize_cell ltb cell /\
  (** the same for all rotations when the minimum is unique *)
  (forall a y b, cell = a ++ y :: b -> (forall x, In x (a ++ b) -> ltb y x = true) ->
     canonicalize_cell ltb cell = y :: b ++ a /\
     forall c d, cell = c ++ d -> canonicalize_cell ltb (d ++ c) = canonicalize_cell ltb cell).
Proof.
  intros Ir Tr.
  assert (Rot : forall cell, exists a b, cell = a ++ b /\ canonicalize_cell ltb cell = b ++ a).
  { intros cell. eexists _, _. split; [|reflexivity]. symmetry. apply firstn_skipn. }
  assert (Min : forall cell, cell <> [] -> exists y, nth_error cell (mini_loop ltb cell cell 0 0) = Some y /\ forall x, In x cell -> ltb x y = false).
  { intros [|y0 cell] N; [congruence|]. apply (mini_loop_spec ltb (y0 :: cell) Ir Tr _ 0 0 y0); auto. intros; lia. }
  assert (Hd : forall (cell : list V) n y, nth_error cell n = Some y -> exists t, skipn n cell = y :: t /\ cell = firstn n cell ++ y :: t).
  { intros cell n y E. destruct (nth_error_split _ _ E) as (l1 & l2 & -> & <-). exists l2.
    rewrite skipn_app, skipn_all, Nat.sub_diag, firstn_app, firstn_all, Nat.sub_diag. cbn. rewrite app_nil_r. auto. }
  assert (Start : forall cell y r, canonicalize_cell ltb cell = y :: r -> forall x, In x cell -> ltb x y = false).
  { intros cell y r E x Hx. destruct (Min cell) as (y' & Hy & H); [intros ->; destruct Hx|].
    destruct (Hd _ _ _ Hy) as (t & Ht & _). unfold canonicalize_cell in E. rewrite Ht in E. injection E as <- _. auto. }
  assert (Uniq : forall a y b, (forall x, In x (a ++ b) -> ltb y x = true) -> canonicalize_cell ltb (a ++ y :: b) = y :: b ++ a).
  { intros a y b H. destruct (Min (a ++ y :: b)) as (y' & Hy & HM); [destruct a; discriminate|].
    assert (Ey : mini_loop ltb (a ++ y :: b) (a ++ y :: b) 0 0 = length a).
    { set (n := mini_loop _ _ _ _ _) in *.
      destruct (Nat.lt_trichotomy n (length a)) as [L|[E|G]]; auto; exfalso.
      - rewrite nth_error_app1 in Hy by auto. apply nth_error_In in Hy.
        specialize (HM y). rewrite (H y') in HM by (apply in_or_app; auto).
        discriminate HM. apply in_or_app; right; left; auto.
      - rewrite nth_error_app2 in Hy by lia. destruct (n - length a)%nat as [|q] eqn:Q; [lia|]. cbn in Hy. apply nth_error_In in Hy.
        specialize (HM y). rewrite (H y') in HM by (apply in_or_app; auto).
        discriminate HM. apply in_or_app; right; left; auto. }
    unfold canonicalize_cell. rewrite Ey, skipn_app, skipn_all, Nat.sub_diag, firstn_app, firstn_all, Nat.sub_diag. cbn.
    now rewrite app_nil_r. }
  intros cell. split; [apply Rot|]. split; [apply Start|]. split.
  - destruct (canonicalize_cell ltb cell) as [|y r] eqn:E; [reflexivity|].
    unfold canonicalize_cell. rewrite (mini_loop_stay ltb (y :: r) y); cbn; [now rewrite app_nil_r|reflexivity|].
    intros x Hx. eapply Start; [apply E|]. destruct (Rot cell) as (a & b & -> & E2). rewrite E in E2.
    assert (Hx' : In x (b ++ a)) by (rewrite <- E2; exact Hx).
    apply in_app_or in Hx'. apply in_or_app. tauto.
  - intros a y b -> H. rewrite (Uniq a y b H). split; auto. intros c d E.
    assert (G : (exists e, c = a ++ y :: e /\ b = e ++ d) \/ exists e, a = c ++ e /\ d = e ++ y :: b).
    { clear -E. revert a E. induction c as [|x c IH]; intros a E; cbn in E.
      - right. exists a. auto.
      - destruct a as [|x' a]; cbn in E; injection E as <- E.
        + left. exists c. auto.
        + destruct (IH a E) as [(e & -> & ->)|(e & -> & ->)]; [left|right]; exists e; auto. }
    destruct G as [(e & -> & ->)|(e & -> & ->)].
    + replace (d ++ a ++ y :: e) with ((d ++ a) ++ y :: e) by (rewrite <- !app_assoc; reflexivity).
      rewrite Uniq; [rewrite <- !app_assoc; reflexivity|]. intros x Hx. apply H. rewrite !in_app_iff in *. tauto.
    + rewrite <- app_assoc. cbn [app]. rewrite Uniq; [rewrite <- !app_assoc; reflexivity|].
      intros x Hx. apply H. rewrite !in_app_iff in *. tauto.
Qed.
Print Assumptions canonicalize_cell_canonical.
Example canonicalize_ex : canonicalize_cell Nat.ltb [5;3;9;2;8]%nat = [2;8;5;3;9]%nat /\
  canonicalize_cell Nat.ltb [8;5;3;9;2]%nat = [2;8;5;3;9]%nat.
Proof. split; reflexivity. Qed.
