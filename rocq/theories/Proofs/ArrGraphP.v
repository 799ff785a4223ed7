(** The graph that the arrangement builds: it never fails, and its half-edges are exactly the pairs of
    vertices that follow each other on a segment. *)
From Verif.Model Require Import CellMerger Arrangement2d.
From Verif.Spec Require Import Plane Subdivision.
From Verif.Proofs Require Import PyP PolyP WindingP DictP SweepOrd SweepL PlanarP SubdivP MergerQ ArrVertexP.
From Verif.Props Require Import Primitive2dProps Frangle2dProps Scan2dProps.

Lemma pt_eqb_dec : eq_dec_b pt_eqb.
Proof. intros x y. destruct (pt_eqb_ok x y); split; congruence. Qed.
Lemma in_dedup_by {A} (eqb : A -> A -> bool) (D : eq_dec_b eqb) l x : In x (dedup_by eqb l) <-> In x l.
Proof.
  induction l as [|a l IH]; cbn; [tauto|]. rewrite filter_In, IH. destruct (eqb_case _ D a x) as [(-> & ->)|(-> & N)]; cbn; intuition congruence.
Qed.
Lemma nodup_dedup_by {A} (eqb : A -> A -> bool) (D : eq_dec_b eqb) l : NoDup (dedup_by eqb l).
Proof.
  induction l as [|a l IH]; cbn; constructor.
  - rewrite filter_In. intros (_ & H). rewrite (DictP.eqb_refl _ D) in H. discriminate.
  - now apply NoDup_filter.
Qed.
Lemma permuted_perm {A} o (l : list A) : Permutation (permuted o l) l.
Proof. apply shuffle_perm. Qed.
Lemma in_permuted {A} o (l : list A) x : In x (permuted o l) <-> In x l.
Proof. split; apply Permutation_in; [|symmetry]; apply permuted_perm. Qed.

Lemma mapM_every {A B} (f : A -> result B) l : (forall x, In x l -> exists y, f x = Ok y) -> exists ys, mapM f l = Ok ys.
Proof.
  induction l as [|a l IH]; cbn; intros H; eauto. destruct (H a) as (y & ->); auto. destruct IH as (ys & E); auto.
  cbn. rewrite E. cbn. eauto.
Qed.
(** ** sorted lists *)
Lemma adj_gap {A} (R : A -> A -> Prop) a b z l : StronglySorted R l -> adj a b l -> In z l -> z = a \/ z = b \/ R z a \/ R b z.
Proof.
  intros S (u & v & ->) Z. apply ss_app in S as (_ & S & L). inversion S as [|? ? S' F]; subst. inversion S' as [|? ? _ F']; subst.
  rewrite Forall_forall in F'. apply in_app_or in Z as [Z|[->|[->|Z]]]; auto. right. right. left. apply L; auto. now left.
Qed.
Lemma gap_adj {A} (R : A -> A -> Prop) a b l : (forall x, ~ R x x) -> (forall x y z, R x y -> R y z -> R x z) ->
  StronglySorted R l -> In a l -> In b l -> R a b -> (forall z, In z l -> R a z -> R z b -> False) -> adj a b l.
Proof.
  intros IR TR S IA IB AB G. apply in_split in IA as (u & v & ->). pose proof S as S0.
  apply ss_app in S as (_ & S & L). inversion S as [|? ? S' F]; subst. rewrite Forall_forall in F.
  assert (BV : In b v).
  { apply in_app_or in IB as [B|[B|B]]; auto.
    - exfalso. apply (IR a). apply (TR _ b); auto. apply L; auto. now left.
    - subst b. exfalso. now apply (IR a). }
  destruct v as [|c v]; [destruct BV|]. destruct BV as [->|BV]; [exists u, v; auto|].
  exfalso. apply (G c); [apply in_or_app; right; right; now left|apply F; now left|].
  inversion S' as [|? ? _ F']; subst. rewrite Forall_forall in F'. auto.
Qed.

(** ** the vertices on a segment *)
Lemma endpoint_on s p : endpoint s p -> on_seg s p.
Proof. intros [-> | ->]; [exists 0|exists 1]; (split; [qlra|]; split; [qlra|]; apply pteq; vec; ring). Qed.
Lemma on_sorted_seg s p : on_seg (sorted_seg s) p <-> on_seg s p.
Proof. unfold sorted_seg. destruct (pt_ltb _ _); [apply on_seg_swap|tauto]. Qed.
Lemma endpoint_sorted_seg s p : endpoint (sorted_seg s) p <-> endpoint s p.
Proof. unfold sorted_seg, endpoint. destruct (pt_ltb _ _); cbn; tauto. Qed.

Definition good_calls (segs : list segment) (calls : list (point * list segment)) : Prop :=
  (forall p, vert segs p <-> In p (map fst calls)) /\
  (forall s p, In s segs -> on_seg s p -> vert segs p -> exists ss, In (p, ss) calls /\ In s ss) /\
  (forall p ss s, In (p, ss) calls -> In s ss -> In s segs /\ on_seg s p).
Lemma vertex_calls_ok segs : NoDup segs -> Forall nondeg segs -> exists calls, vertex_calls segs = Ok calls /\ good_calls segs calls.
Proof.
  intros N F. destruct (sweep_finds_all segs N F) as (out & E & C & _). destruct (sweep_reports_real segs out E) as (_ & _ & R).
  unfold vertex_calls. assert (forallb (fun s => negb (pt_eqb (fst s) (snd s))) segs = true) as ->.
  { apply forallb_forall. intros s I. rewrite Forall_forall in F. specialize (F s I). destruct (pt_eqb_ok (fst s) (snd s)); cbn; auto. }
  rewrite E. cbn [bind passert]. eexists. split; [reflexivity|].
  assert (FM : forall p ss, In (p, ss) (flat_map (fun s : segment => [(fst s, [s]); (snd s, [s])]) segs) <->
    exists s, In s segs /\ endpoint s p /\ ss = [s]).
  { intros p ss. rewrite in_flat_map. split.
    - intros (s & I & [X|[X|[]]]); apply pair_inv in X as (<- & <-); exists s; unfold endpoint; auto.
    - intros (s & I & [-> | ->] & ->); exists s; cbn; auto. }
  assert (V : forall p, vert segs p <-> exists ss, In (p, ss) (flat_map (fun s : segment => [(fst s, [s]); (snd s, [s])]) segs ++ out)).
  { intros p. unfold vert. split.
    - intros [(s & I & X)|X].
      + exists [s]. apply in_or_app. left. apply FM. eauto.
      + apply C in X as (ss & X). exists ss. apply in_or_app. auto.
    - intros (ss & X). apply in_app_or in X as [X|X].
      + apply FM in X as (s & I & X & _). left. eauto.
      + right. apply C. eauto. }
  split; [|split].
  - intros p. rewrite V, in_map_iff. split; [intros (ss & X); exists (p, ss); auto|intros ([q ss] & <- & X); eauto].
  - intros s p I O X.
    assert (D : endpoint s p \/ crossing segs p).
    { destruct X as [(t & T & X)|X]; auto. destruct (seg_eqb_ok s t) as [->|NE]; auto. right. exists s, t.
      repeat (split; [assumption|]). split; [now apply endpoint_on|]. auto. }
    destruct D as [D|D].
    + exists [s]. split; [apply in_or_app; left; apply FM; eauto|now left].
    + apply C in D as (ss & D). exists ss. split; [apply in_or_app; auto|]. apply (R p ss D). auto.
  - intros p ss s X J. apply in_app_or in X as [X|X].
    + apply FM in X as (t & I & X & ->). destruct J as [<-|[]]. split; auto. now apply endpoint_on.
    + now apply (R p ss X).
Qed.

Section Calls.
Variables (segs : list segment) (calls : list (point * list segment)).
Hypothesis ND : NoDup segs.
Hypothesis NG : Forall nondeg segs.
Hypothesis GC : good_calls segs calls.

Lemma sv_spec s p : In s segs -> (In p (segment_vertices calls s) <-> on_seg s p /\ vert segs p).
Proof.
  intros I. unfold segment_vertices. rewrite (in_dedup_by _ pt_eqb_dec), in_map_iff. destruct GC as (G1 & G2 & G3). split.
  - intros ([q ss] & <- & X). apply filter_In in X as (X & Y). cbn in *. apply (existsb_eqb_in _ seg_eqb_dec) in Y.
    split; [now apply (G3 q ss)|]. apply G1, in_map_iff. exists (q, ss). auto.
  - intros (O & V). destruct (G2 s p I O V) as (ss & X & Y). exists (p, ss). split; auto. apply filter_In. split; auto.
    now apply (existsb_eqb_in _ seg_eqb_dec).
Qed.
Lemma all_vertices_spec p : In p (all_vertices calls) <-> vert segs p.
Proof. unfold all_vertices. rewrite (in_dedup_by _ pt_eqb_dec). symmetry. apply GC. Qed.
Lemma check_vertices_ok : exists l, mapM (fun c => mapM (check_vertex (fst c)) (snd c)) calls = Ok l.
Proof.
  apply mapM_every. intros [p ss] C. cbn. apply mapM_every. intros s S. destruct GC as (_ & _ & G3).
  destruct (G3 p ss s C S) as (I & (t & T0 & T1 & T)). exists tt. unfold check_vertex.
  rewrite Forall_forall in NG. specialize (NG s I).
  rewrite (proj2 (proj1 (line_fraction_exact s p) t) (conj T (fun d => False_ind _ (NG d)))). cbn [bind].
  destruct (qleb_spec 0 t); [|contradiction]. destruct (qleb_spec t 1); [reflexivity|contradiction].
Qed.

(** *** along one segment *)
Lemma dist2_at s t : dist2 (at_t s t) (fst s) = t * t * dot (dir s) (dir s).
Proof. unfold dist2. vec. ring. Qed.
Lemma pos_mul a b : 0 < a -> 0 < b -> 0 < a * b.
Proof. intros. qnra. Qed.
Lemma nonneg_mul a b : 0 <= a -> 0 <= b -> 0 <= a * b.
Proof. intros. qnra. Qed.
Lemma sq_lt a b : 0 <= a -> 0 <= b -> (a * a < b * b <-> a < b).
Proof. 
  intros A B. assert (E : (b - a) * (b + a) = b * b - a * a) by ring. split; intros H.
  - destruct (qltb_spec a b); auto. pose proof (nonneg_mul (a - b) (b + a) ltac:(qlra) ltac:(qlra)). qlra.
  - pose proof (pos_mul (b - a) (b + a) ltac:(qlra) ltac:(qlra)). qlra.
Qed.
Definition nearer (s : segment) (a b : point) : Prop := dist2 a (fst s) < dist2 b (fst s).
Lemma nearer_param s a b : fst s <> snd s -> 0 <= a -> 0 <= b -> (nearer s (at_t s a) (at_t s b) <-> a < b).
Proof.
  intros N A B. unfold nearer. rewrite !dist2_at. pose proof (dot_self_pos _ (dir_ne _ N)) as P. rewrite <- (sq_lt a b A B).
  set (n := dot (dir s) (dir s)) in *. clearbody n. set (x := a * a). set (y := b * b). clearbody x y. split; intros; qnra.
Qed.
Lemma nearer_irr s x : ~ nearer s x x.
Proof. unfold nearer. qlra. Qed.
Lemma nearer_trans s x y z : nearer s x y -> nearer s y z -> nearer s x z.
Proof. unfold nearer. intros. qlra. Qed.
Definition along (s : segment) : list point :=
  sort_by (fun a b => qltb (dist2 a (fst s)) (dist2 b (fst s))) (segment_vertices calls (sorted_seg s)).
Lemma in_along s p : In (sorted_seg s) segs -> (In p (along s) <-> on_seg s p /\ vert segs p).
Proof. intros I. unfold along. rewrite sort_by_in, (sv_spec _ _ I), on_sorted_seg. tauto. Qed.
Lemma sorted_seg_nondeg s : In (sorted_seg s) segs -> fst s <> snd s.
Proof.
  intros I. rewrite Forall_forall in NG. specialize (NG _ I). unfold nondeg, sorted_seg in NG.
  destruct (pt_ltb _ _); cbn in NG; auto.
Qed.
Lemma along_sorted s : In (sorted_seg s) segs -> StronglySorted (nearer s) (along s).
Proof.
  intros I. pose proof (sorted_seg_nondeg _ I) as N. unfold along. apply sort_by_ss.
  - apply nearer_trans.
  - intros x y X Y NE. apply (sv_spec _ _ I) in X as (X & _), Y as (Y & _). rewrite on_sorted_seg in X, Y.
    destruct X as (a & A0 & A1 & A), Y as (b & B0 & B1 & B). unfold nearer. fold (nearer s x y). fold (nearer s y x).
    destruct (qltb_spec (dist2 x (fst s)) (dist2 y (fst s))) as [L|L]; [left; auto|right; split; auto].
    fold (nearer s x y) in L. rewrite A, B in L |- *. rewrite nearer_param in * by auto.
    destruct (qltb_spec b a); auto. exfalso. apply NE. rewrite A, B. f_equal. qlra.
  - apply nodup_dedup_by, pt_eqb_dec.
Qed.
Lemma along_adj s a b : In (sorted_seg s) segs -> adj a b (along s) -> sub_edge segs (a, b).
Proof.
  intros I H. pose proof (sorted_seg_nondeg _ I) as N. pose proof (along_sorted s I) as S.
  destruct (adj_in _ _ _ H) as (IA & IB). pose proof (ss_adj _ _ _ _ S H) as AB.
  apply (in_along _ _ I) in IA as (OA & VA), IB as (OB & VB).
  split; [|split; [|split; [|split]]]; cbn [fst snd]; auto.
  - intros ->. now apply (nearer_irr s b).
  - exists (sorted_seg s). rewrite !on_sorted_seg. auto.
  - intros x X V. assert (OX : on_seg s x) by (eapply (on_seg_sub s (a, b)); auto; now apply inner_on_seg).
    assert (IX : In x (along s)) by (apply in_along; auto).
    destruct OA as (ta & A0 & A1 & A), OB as (tb & B0 & B1 & B). rewrite A, B in AB. rewrite nearer_param in AB by auto.
    destruct X as (r & R0 & R1 & X).
    assert (XT : x = at_t s (ta + r * (tb - ta))) by (rewrite X, A, B; apply pteq; vec; ring).
    assert (ta < ta + r * (tb - ta)) by qnra. assert (ta + r * (tb - ta) < tb) by qnra.
    destruct (adj_gap _ _ _ x _ S H IX) as [E|[E|[E|E]]].
    + apply (nearer_irr s a). rewrite <- E at 2. rewrite A, XT. apply nearer_param; auto. qlra.
    + apply (nearer_irr s b). rewrite <- E at 1. rewrite B, XT. apply nearer_param; auto. qlra.
    + rewrite A, XT in E. rewrite nearer_param in E by (auto; qlra). qlra.
    + rewrite B, XT in E. rewrite nearer_param in E by (auto; qlra). qlra.
Qed.
Lemma sub_edge_along s e : In (sorted_seg s) segs -> sub_edge segs e -> on_seg s (fst e) -> on_seg s (snd e) ->
  adj (fst e) (snd e) (along s) \/ adj (snd e) (fst e) (along s).
Proof.
  intros I (DE & V1 & V2 & _ & G) O1 O2. pose proof (sorted_seg_nondeg _ I) as N. pose proof (along_sorted s I) as S.
  assert (K : forall a b, vert segs a -> vert segs b -> on_seg s a -> on_seg s b -> nearer s a b ->
    (forall x, inner (a, b) x -> ~ vert segs x) -> adj a b (along s)).
  { clear DE V1 V2 G O1 O2 e. intros a b V1 V2 O1 O2 AB G.
    apply (gap_adj (nearer s)); auto using nearer_irr; [apply nearer_trans|apply in_along; auto|apply in_along; auto|].
    intros z Z AZ ZB. apply (in_along _ _ I) in Z as (OZ & VZ). apply (G z); auto.
    destruct O1 as (ta & A0 & A1 & A), O2 as (tb & B0 & B1 & B), OZ as (tz & Z0 & Z1 & Z).
    rewrite A, B, Z in *. rewrite nearer_param in * by auto. assert (D : tb - ta <> 0) by (intros W; qlra).
    pose proof (qdiv_mul (tz - ta) _ D) as Q. set (r := (tz - ta) / (tb - ta)) in *. clearbody r.
    exists r. split; [qnra|]. split; [qnra|]. replace tz with (ta + r * (tb - ta)) by qlra. apply pteq; vec; ring. }
  pose proof O1 as (ta & A0 & A1 & A). pose proof O2 as (tb & B0 & B1 & B).
  destruct (qltb_spec ta tb); [left|right]; apply K; auto.
  - rewrite A, B. now apply nearer_param.
  - rewrite A, B. apply nearer_param; auto. destruct (qeqb_spec ta tb) as [W|W]; [|destruct (qc_not_eq _ _ W); [contradiction|auto]].
    exfalso. apply DE. rewrite A, B. now f_equal.
  - intros x X. apply G. apply inner_rev'. exact X.
Qed.
Lemma bracket {A} (P Q : A -> Prop) l : (forall x, In x l -> P x \/ Q x) -> (exists a, In a l /\ P a /\ forall l', hd_error (a :: l') = hd_error l) ->
  (exists b, In b l /\ Q b /\ ~ P b) -> exists a b, adj a b l /\ P a /\ Q b.
Proof.
  induction l as [|c l IH]; intros H (a & _ & PA & HA) (b & IB & QB & NB); [specialize (HA []); discriminate|].
  specialize (HA []). cbn in HA. apply some_inv in HA. subst c.
  destruct IB as [->|IB]; [contradiction|]. destruct l as [|d l]; [destruct IB|].
  destruct (H d) as [PD|QD]; [cbn; auto| |].
  - destruct IH as (x & y & A1 & A2 & A3).
    + intros z Z. apply H. now right.
    + exists d. split; [now left|]. auto.
    + exists b. auto.
    + exists x, y. split; auto. destruct A1 as (u & v & E). exists (a :: u), v. cbn. now rewrite E.
  - exists a, d. split; [exists [], l; auto|auto].
Qed.
Lemma along_cover s x : In (sorted_seg s) segs -> on_seg s x -> exists a b, adj a b (along s) /\ on_seg (a, b) x.
Proof.
  intros I (t & T0 & T1 & T). pose proof (sorted_seg_nondeg _ I) as N. pose proof (along_sorted s I) as S.
  assert (VE : forall p, endpoint s p -> vert segs p).
  { intros p P. left. exists (sorted_seg s). split; auto. now apply endpoint_sorted_seg. }
  assert (IE : forall p, endpoint s p -> In p (along s)).
  { intros p P. apply in_along; auto. split; auto. now apply endpoint_on. }
  assert (SUB : forall a b, 0 <= a -> a <= t -> 0 <= b -> t <= b -> on_seg (at_t s a, at_t s b) x).
  { intros a b A0 AT B0 TB. destruct (qeqb_spec a b) as [->|NE].
    - exists 0. split; [qlra|]. split; [qlra|]. assert (t = b) as <- by qlra. rewrite T. apply pteq; vec; ring.
    - assert (D : b - a <> 0) by (intros W; apply NE; qlra). pose proof (qdiv_mul (t - a) _ D) as Q.
      set (r := (t - a) / (b - a)) in *. clearbody r. assert (0 < b - a) by (destruct (qc_not_eq _ _ NE); qlra).
      assert (0 <= r) by qnra. assert (r <= 1) by qnra.
      exists r. split; auto. split; auto. rewrite T. replace t with (a + r * (b - a)) by qlra. apply pteq; vec; ring. }
  destruct (qeqb_spec t 1) as [->|NT].
  - (* the far end: the last pair *)
    assert (I1 := IE (snd s) (or_intror eq_refl)). assert (I0 := IE (fst s) (or_introl eq_refl)).
    apply in_split in I1 as (u & v & E). destruct (exists_last' u) as [->|(u' & a & ->)].
    + exfalso. rewrite E in S, I0. cbn in S, I0. destruct I0 as [W|W]; [now apply N|].
      inversion S as [|? ? _ F]; subst. rewrite Forall_forall in F. specialize (F _ W).
      assert (A : snd s = at_t s 1) by (apply pteq; vec; ring). assert (B : fst s = at_t s 0) by (apply pteq; vec; ring).
      rewrite A in F. rewrite B in F. rewrite nearer_param in F by (auto; qlra). qlra.
    + exists a, (snd s). split; [exists u', v; rewrite E, <- app_assoc; auto|].
      apply endpoint_on. right. cbn. rewrite T. apply pteq; vec; ring.
  - destruct (bracket (fun p => forall a, 0 <= a -> p = at_t s a -> a <= t) (fun p => forall a, 0 <= a -> p = at_t s a -> t < a) (along s))
      as (a & b & AD & PA & PB).
    + intros p P. apply (in_along _ _ I) in P as ((a & A0 & A1 & A) & _).
      assert (INJ : forall b, 0 <= b -> p = at_t s b -> b = a).
      { intros b B0 B. destruct (qltb_spec a b) as [L|L]; [|destruct (qltb_spec b a) as [L'|L']; [|qlra]]; exfalso; apply (nearer_irr s p).
        - rewrite A at 1. rewrite B. now apply nearer_param.
        - rewrite A at 2. rewrite B. now apply nearer_param. }
      destruct (qltb_spec t a); [right|left]; intros b B0 B; rewrite (INJ b B0 B); auto. qlra.
    + assert (I0 := IE (fst s) (or_introl eq_refl)). destruct (along s) as [|c l] eqn:E; [destruct I0|].
      exists c. split; [now left|]. split; [|auto]. assert (C : c = fst s).
      { destruct I0 as [C|C]; auto. exfalso. inversion S as [|? ? _ F]; subst. rewrite Forall_forall in F. specialize (F _ C).
        unfold nearer in F. assert (0 <= dist2 c (fst s)).
        { unfold dist2. pose proof (sq_nonneg (fst c - fst (fst s))). pose proof (sq_nonneg (snd c - snd (fst s))). qlra. }
        assert (dist2 (fst s) (fst s) = 0) by (unfold dist2; ring). qlra. }
      intros a A0 A. rewrite C in A. assert (B : fst s = at_t s 0) by (apply pteq; vec; ring).
      destruct (qleb_spec a t); auto. exfalso. apply (nearer_irr s (fst s)). rewrite B at 1. rewrite A. apply nearer_param; auto; qlra.
    + exists (snd s). split; [apply IE; right; auto|]. assert (B : snd s = at_t s 1) by (apply pteq; vec; ring).
      assert (INJ : forall b, 0 <= b -> snd s = at_t s b -> b = 1).
      { intros b B0 B'. destruct (qltb_spec 1 b) as [L|L]; [|destruct (qltb_spec b 1) as [L'|L']; [|qlra]]; exfalso; apply (nearer_irr s (snd s)).
        - rewrite B at 1. rewrite B'. apply nearer_param; auto; qlra.
        - rewrite B at 2. rewrite B'. apply nearer_param; auto; qlra. }
      assert (t < 1) by (destruct (qc_not_eq _ _ NT); qlra). split.
      * intros b B0 B'. rewrite (INJ b B0 B'). auto.
      * intros HH. specialize (HH 1 ltac:(qlra) B). qlra.
    + exists a, b. split; auto. destruct (adj_in _ _ _ AD) as (IA & IB).
      apply (in_along _ _ I) in IA as ((ta & A0 & A1 & A) & _), IB as ((tb & B0 & B1 & B) & _).
      specialize (PA _ A0 A). specialize (PB _ B0 B). rewrite A, B. apply SUB; auto. qlra.
Qed.

(** ** the graph *)
Record GI (hes : list segment) (vs : list (point * vertex)) : Prop := {
  gi_nd : NoDup hes;
  gi_rev : forall e, In e hes -> In (rev_seg e) hes;
  gi_sub : forall e, In e hes -> sub_edge segs e;
  gi_keys : NoDup (keys vs);
  gi_all : forall p, In p (keys vs) <-> vert segs p;
  gi_v : forall c v, dget pt_eqb c vs = Some v -> vgood hes c v }.

Lemma he_key_ok e : fst e <> snd e -> exists k, he_key e = Ok k.
Proof.
  intros N. destruct (frangle_ok (psub (snd e) (fst e)) (dir_ne e N)) as (f & k & H & _). exists f. exact H.
Qed.
Lemma he_key_same e f k : sub_edge segs e -> sub_edge segs f -> fst e = fst f -> he_key e = Ok k -> he_key f = Ok k -> e = f.
Proof.
  intros E F S KE KF. unfold he_key in *. apply (sub_edge_directions segs); auto.
  - destruct (fr_cross _ _ _ _ KE KF) as (A & _). destruct (fr_cross _ _ _ _ KF KE) as (B & _).
    change (psub (snd e) (fst e)) with (dir e) in *. change (psub (snd f) (fst f)) with (dir f) in *.
    assert (AN : cross (dir f) (dir e) = - cross (dir e) (dir f)) by (unfold cross; ring). rewrite AN in B.
    destruct (qltb_spec (cross (dir e) (dir f)) 0) as [L|L]; [apply A in L; destruct L as [(L1 & L2)|L]; exfalso; qlra|].
    destruct (qltb_spec 0 (cross (dir e) (dir f))) as [M|M]; [|qlra].
    assert (X : - cross (dir e) (dir f) < 0) by qlra. apply B in X. destruct X as [(L1 & L2)|X]; exfalso; qlra.
  - destruct (fr_cross _ _ _ _ KE KF) as (A & _). destruct (fr_cross _ _ _ _ KF KE) as (B & _).
    change (psub (snd e) (fst e)) with (dir e) in *. change (psub (snd f) (fst f)) with (dir f) in *.
    assert (AN : cross (dir f) (dir e) = - cross (dir e) (dir f)) by (unfold cross; ring). rewrite AN in B.
    assert (Z : cross (dir e) (dir f) = 0).
    { destruct (qltb_spec (cross (dir e) (dir f)) 0) as [L|L]; [apply A in L; destruct L as [(L1 & L2)|L]; exfalso; qlra|].
      destruct (qltb_spec 0 (cross (dir e) (dir f))) as [M|M]; [|qlra].
      assert (X : - cross (dir e) (dir f) < 0) by qlra. apply B in X. destruct X as [(L1 & L2)|X]; exfalso; qlra. }
    destruct (fr_parallel _ _ _ _ KE KF Z) as [(_ & D)|([D|D] & _)]; auto; exfalso; qlra.
Qed.
Lemma vgood_ext hes hes' c v : (forall e, fst e = c -> (In e hes <-> In e hes')) -> vgood hes c v -> vgood hes' c v.
Proof.
  intros H (S & G). split; auto. intros k e. rewrite G. split; intros (A & B & C); (split; [|auto]); apply H; auto.
Qed.
Lemma add_half_edge_ok hes hes' c v e : vgood hes c v -> (forall f, In f hes -> sub_edge segs f) -> sub_edge segs e -> fst e = c ->
  ~ In e hes -> (forall f, fst f = c -> (In f hes' <-> f = e \/ In f hes)) ->
  exists w, add_half_edge c v e = Ok w /\ vgood hes' c w.
Proof.
  intros (S & G) SUB SE C NI H. destruct (he_key_ok e) as (k & K); [apply SE|].
  unfold add_half_edge. rewrite C, pt_eqb_refl'. cbn [bind passert]. rewrite K. cbn [bind].
  assert (D : forall x, In x v -> fst x <> k).
  { intros [k' f] X. cbn. intros ->. apply G in X as (F1 & F2 & F3).
    assert (f = e) as -> by (apply (he_key_same f e k); auto; congruence). contradiction. }
  assert (existsb (fun x => qeqb (fst x) k) v = false) as ->.
  { destruct (existsb _ v) eqn:Q; auto. apply existsb_exists in Q as (x & X & Q). destruct (qeqb_spec (fst x) k) as [W|]; [|discriminate].
    exfalso. now apply (D x X). }
  cbn [bind passert negb]. eexists. split; [reflexivity|]. split.
  - apply insert_by_ss; auto; [intros; qlra|]. intros y Y. cbn. specialize (D y Y). destruct (qltb_spec k (fst y)); [left; auto|right; split; auto].
    destruct (qc_not_eq _ _ D); [auto|contradiction].
  - intros k' f. split.
    + intros X. apply (Permutation_in _ (insert_by_perm _ _ _)) in X. destruct X as [X|X].
      * apply pair_inv in X as (<- & <-). split; [apply H; auto|]. auto.
      * apply G in X as (F1 & F2 & F3). split; [apply H; auto|]. auto.
    + intros (F1 & F2 & F3). apply (Permutation_in _ (Permutation_sym (insert_by_perm _ _ _))). apply H in F1; auto.
      destruct F1 as [->|F1]; [left; f_equal; congruence|right; apply G; auto].
Qed.
Lemma add_to_edge_ok hes vs a b : GI hes vs -> sub_edge segs (a, b) ->
  exists hes' vs', add_to_edge (hes, vs) a b = Ok (hes', vs') /\ GI hes' vs' /\ keys vs' = keys vs /\
    forall e, In e hes' <-> In e hes \/ e = (a, b) \/ e = (b, a).
Proof.
  intros G SE. pose proof (sub_edge_rev _ _ SE) as SR. unfold rev_e in SR. cbn [fst snd] in SR.
  assert (NE : a <> b) by apply SE. unfold add_to_edge.
  destruct (existsb (seg_eqb (a, b)) hes) eqn:Q.
  - apply (existsb_eqb_in _ seg_eqb_dec) in Q. exists hes, vs. split; auto. split; auto. split; auto.
    intros e. split; [auto|]. intros [X|[-> | ->]]; auto. apply (gi_rev _ _ G _ Q).
  - assert (NI : ~ In (a, b) hes) by (intros X; apply (existsb_eqb_in _ seg_eqb_dec) in X; congruence).
    assert (NI' : ~ In (b, a) hes) by (intros X; apply NI; apply (gi_rev _ _ G _ X)).
    assert (HES' : forall e, In e (hes ++ [(a, b); (b, a)]) <-> In e hes \/ e = (a, b) \/ e = (b, a)).
    { intros e. rewrite in_app_iff. cbn. intuition congruence. }
    destruct (dget pt_eqb a vs) as [x0|] eqn:D0.
    2:{ apply (dget_none _ pt_eqb_dec) in D0. exfalso. apply D0. apply (gi_all _ _ G). apply SE. }
    destruct (dget pt_eqb b vs) as [x1|] eqn:D1.
    2:{ apply (dget_none _ pt_eqb_dec) in D1. exfalso. apply D1. apply (gi_all _ _ G). apply SE. }
    destruct (add_half_edge_ok hes (hes ++ [(a, b); (b, a)]) a x0 (a, b) (gi_v _ _ G _ _ D0)) as (y0 & E0 & V0); auto.
    { apply (gi_sub _ _ G). }
    { intros f F. rewrite HES'. split; [intros [X|[X|X]]; auto; subst f; cbn in F; congruence|tauto]. }
    destruct (add_half_edge_ok hes (hes ++ [(a, b); (b, a)]) b x1 (b, a) (gi_v _ _ G _ _ D1)) as (y1 & E1 & V1); auto.
    { apply (gi_sub _ _ G). }
    { intros f F. rewrite HES'. split; [intros [X|[X|X]]; auto; subst f; cbn in F; congruence|tauto]. }
    unfold dgetr at 1. rewrite D0. cbn [bind]. rewrite E0. cbn [bind]. unfold dgetr. rewrite (dget_other _ pt_eqb_dec) by congruence.
    rewrite D1. cbn [bind]. rewrite E1. cbn [bind]. eexists. eexists. split; [reflexivity|].
    assert (KA : In a (keys vs)) by (apply (gi_all _ _ G), SE). assert (KB : In b (keys vs)) by (apply (gi_all _ _ G), SE).
    assert (KK : keys (dset pt_eqb b y1 (dset pt_eqb a y0 vs)) = keys vs).
    { rewrite (keys_dset_old _ pt_eqb_dec), (keys_dset_old _ pt_eqb_dec); auto. rewrite (keys_dset_old _ pt_eqb_dec); auto. }
    split; [|split; auto]. constructor.
    + apply nodup_app; [apply G|..].
      * constructor; [intros [X|[]]; congruence|constructor; [tauto|constructor]].
      * intros e X [<-|[<-|[]]]; contradiction.
    + intros e X. apply HES'. apply HES' in X as [X|[-> | ->]]; auto. left. now apply (gi_rev _ _ G).
    + intros e X. apply HES' in X as [X|[-> | ->]]; auto. now apply (gi_sub _ _ G).
    + rewrite KK. apply G.
    + intros p. rewrite KK. apply G.
    + intros c v D. rewrite (dget_dset _ pt_eqb_dec) in D. destruct (pt_eqb_ok c b) as [->|CB].
      * apply some_inv in D. now subst v.
      * rewrite (dget_dset _ pt_eqb_dec) in D. destruct (pt_eqb_ok c a) as [->|CA].
        -- apply some_inv in D. now subst v.
        -- apply (vgood_ext hes); [|now apply (gi_v _ _ G)]. intros e F. rewrite HES'. split; auto.
           intros [X|[-> | ->]]; auto; cbn in F; congruence.
Qed.
Lemma add_chain_ok l : forall hes vs, GI hes vs -> (forall a b, adj a b l -> sub_edge segs (a, b)) ->
  exists hes' vs', add_chain (hes, vs) l = Ok (hes', vs') /\ GI hes' vs' /\ keys vs' = keys vs /\
    forall e, In e hes' <-> In e hes \/ exists a b, adj a b l /\ (e = (a, b) \/ e = (b, a)).
Proof.
  induction l as [|a l IH]; intros hes vs G H.
  - exists hes, vs. cbn. split; auto. split; auto. split; auto. intros e. split; auto. intros [|(a & b & (u & v & E) & _)]; auto. destruct u; discriminate.
  - destruct l as [|b l].
    + exists hes, vs. cbn. split; auto. split; auto. split; auto. intros e. split; auto. intros [|(x & y & (u & v & E) & _)]; auto.
      destruct u as [|? [|]]; discriminate.
    + destruct (add_to_edge_ok hes vs a b G) as (h1 & v1 & E1 & G1 & K1 & X1). { apply H. exists [], l. auto. }
      destruct (IH h1 v1 G1) as (h2 & v2 & E2 & G2 & K2 & X2). { intros x y (u & v & E). apply H. exists (a :: u), v. cbn. now rewrite E. }
      exists h2, v2. cbn [add_chain]. rewrite E1. cbn [bind]. split; auto. split; auto. split; [congruence|].
      intros e. rewrite X2, X1. split.
      * intros [[X|X]|(x & y & (u & v & E) & X)]; auto; right.
        -- exists a, b. split; [exists [], l; auto|auto].
        -- exists x, y. split; auto. exists (a :: u), v. cbn. now rewrite E.
      * intros [X|(x & y & (u & v & E) & X)]; auto. destruct u as [|c u]; cbn in E.
        -- injection E as <- <- _. auto.
        -- injection E as _ E. right. exists x, y. split; auto. exists u, v. auto.
Qed.
Lemma add_segments_ok l : (forall s, In s l -> In (sorted_seg s) segs) -> forall hes vs, GI hes vs ->
  exists hes' vs', foldM (add_segment_edges calls) l (hes, vs) = Ok (hes', vs') /\ GI hes' vs' /\ keys vs' = keys vs /\
    forall e, In e hes' <-> In e hes \/ exists s a b, In s l /\ adj a b (along s) /\ (e = (a, b) \/ e = (b, a)).
Proof.
  induction l as [|s l IH]; intros H hes vs G.
  - exists hes, vs. cbn. split; auto. split; auto. split; auto. intros e. split; auto. intros [|(? & ? & ? & [] & _)]; auto.
  - assert (I : In (sorted_seg s) segs) by (apply H; now left).
    destruct (add_chain_ok (along s) hes vs G) as (h1 & v1 & E1 & G1 & K1 & X1). { intros a b. now apply along_adj. }
    destruct (IH (fun s' X => H s' (or_intror X)) h1 v1 G1) as (h2 & v2 & E2 & G2 & K2 & X2).
    exists h2, v2. cbn [foldM]. unfold add_segment_edges at 1. fold (along s).
    assert ((2 <=? length (along s))%nat = true) as ->.
    { apply Nat.leb_le. destruct (along_cover s (fst s) I) as (a & b & (u & v & ->) & _); [apply endpoint_on; now left|].
      rewrite app_length. cbn. lia. }
    cbn [bind passert]. rewrite E1. cbn [bind]. split; auto. split; auto. split; [congruence|].
    intros e. rewrite X2, X1. split.
    + intros [[X|(a & b & A & X)]|(r & a & b & R & A & X)]; auto; right.
      * exists s, a, b. split; [now left|]. auto.
      * exists r, a, b. split; [now right|]. auto.
    + intros [X|(r & a & b & [->|R] & A & X)]; auto.
      * left. right. exists a, b. auto.
      * right. exists r, a, b. auto.
Qed.
Lemma start_ok vertices : Permutation vertices (all_vertices calls) -> GI [] (map (fun v => (v, [])) vertices).
Proof.
  intros P. set (m := map _ vertices). assert (KE : @keys point vertex m = vertices).
  { unfold keys, m. rewrite map_map. cbn. apply map_id. }
  constructor.
  - constructor.
  - intros e [].
  - intros e [].
  - rewrite KE. apply (Permutation_NoDup (Permutation_sym P)). apply nodup_dedup_by, pt_eqb_dec.
  - intros p. rewrite KE, <- all_vertices_spec. split; apply Permutation_in; [auto|now symmetry].
  - intros c v D. apply (dget_in _ pt_eqb_dec) in D. unfold m in D. apply in_map_iff in D as (x & X & _). apply pair_inv in X as (_ & <-).
    split; [constructor|]. intros k e. cbn. tauto.
Qed.
Lemma graph_exact hes l : (forall s, In s l -> In (sorted_seg s) segs) -> (forall s, In s segs -> exists s', In s' l /\ sorted_seg s' = s) ->
  (forall e, In e hes <-> exists s a b, In s l /\ adj a b (along s) /\ (e = (a, b) \/ e = (b, a))) ->
  (forall e, In e hes <-> sub_edge segs e) /\ (forall s x, In s segs -> on_seg s x -> exists e, In e hes /\ on_seg e x) /\
  (forall e x, In e hes -> on_seg e x -> exists s, In s segs /\ on_seg s x).
Proof.
  intros L1 L2 H. split; [|split].
  - intros e. rewrite H. split.
    + intros (s & a & b & S & A & [-> | ->]); [eapply along_adj; eauto|]. apply (sub_edge_rev segs (a, b)). eapply along_adj; eauto.
    + intros SE. pose proof SE as (_ & _ & _ & (s & S & O1 & O2) & _). destruct (L2 s S) as (s' & S' & <-).
      rewrite on_sorted_seg in O1, O2. destruct (sub_edge_along s' e S SE O1 O2) as [A|A].
      * exists s', (fst e), (snd e). split; auto. split; auto. left. now destruct e.
      * exists s', (snd e), (fst e). split; auto. split; auto. right. now destruct e.
  - intros s x S O. destruct (L2 s S) as (s' & S' & <-). rewrite on_sorted_seg in O. destruct (along_cover s' x S O) as (a & b & A & X).
    exists (a, b). split; auto. apply H. exists s', a, b. auto.
  - intros e x E X. apply H in E as (s & a & b & S & A & E). specialize (L1 s S).
    destruct (adj_in _ _ _ A) as (IA & IB). apply (in_along _ _ L1) in IA as (OA & _), IB as (OB & _).
    exists (sorted_seg s). split; auto. rewrite on_sorted_seg. apply (on_seg_sub s e); auto; destruct E as [-> | ->]; auto.
Qed.
End Calls.
