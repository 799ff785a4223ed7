(** * Properties of the planar arrangement: C33-C36, C38, C69. *)
From Verif.Model Require Import SegmentTree CellMerger Arrangement2d Aabb Geom2d.
From Verif.Spec Require Import Plane Subdivision Region.
From Verif.Proofs Require Import PyP PolyP WindingP WindingQ NearP DictP SweepOrd SweepL PlanarP SubdivP MergerP MergerQ ArrVertexP ArrGraphP
  ArrInitP ArrTraceP ArrSampleP ArrSoundP Geom2dP Geom2dOps.
From Verif.Props Require Import Primitive2dProps Frangle2dProps Scan2dProps LocateProps CellMergerProps.

Local Notation dot := Plane.dot.
Local Definition P (x y : Z) : point := (zq x, zq y).
Local Definition orc0 : nat -> nat -> nat := fun _ _ => O.
(** three crossing segments *)
Local Definition segs3 : list segment := [(P 0 0, P 4 0); (P 1 (-1), P 1 3); (P 0 (-2), P 4 2)].

(** ** C33 *)
Theorem general_direction : forall edges : list segment, (forall e, In e edges -> fst e <> snd e) ->
  exists v, find_general_vector edges = Ok v /\ v <> (0, 0) /\
    forall e, In e edges -> cross v (vsub (snd e) (fst e)) <> 0 /\ dot v (vsub (snd e) (fst e)) <> 0.
Proof. exact general_vector_ok. Qed.
Print Assumptions general_direction.
Example general_direction_ex : (forall e, In e segs3 -> fst e <> snd e) /\
  match find_general_vector segs3 with Ok v => negb (qeqb (fst v) 0) && negb (qeqb (snd v) 0) && negb (qeqb (fst v) (snd v)) && negb (qeqb (fst v) (- snd v)) | Err _ => false end = true.
Proof. split; [intros e [<-|[<-|[<-|[]]]] E; apply pair_inv in E as (E1 & E2); discriminate|vm_compute; reflexivity]. Qed.

(** ** C69: the half-edges are exactly the pieces into which vertices cut the segments, both ways round;
    everything before the tracing of cells succeeds, in any order of the sets *)
Theorem arrangement_graph : forall orc sid, Forall nondeg sid ->
  exists hes vs gv,
    (exists box, SegmentArrangement orc sid =
       (' (cells, degrees, conts) <- find_cells orc hes vs box gv ;; Ok (mkArrangement hes vs gv cells degrees conts orc))) /\
    NoDup hes /\ (forall e, In e hes <-> sub_edge sid e) /\
    NoDup (keys vs) /\ (forall p, In p (keys vs) <-> vert sid p) /\
    (** pieces only meet in common ends *)
    (forall e f x, In e hes -> In f hes -> strictly_on e x -> on_seg f x -> f = e \/ f = (snd e, fst e)) /\
    (** and cover what the segments cover *)
    (forall x, (exists s, In s sid /\ on_seg s x) <-> (exists e, In e hes /\ on_seg e x)).
Proof.
  intros orc sid F. destruct (build_graph (orc 0%nat) (orc 1%nat) sid F) as (calls & vs0 & hes & vs & C & (l & CK) & VS & FM & G & KV).
  destruct (general_vector_ok hes (fun e => bt_ne sid hes vs G e)) as (gv & GV & _). destruct (check_orders_ok sid hes vs G) as (l' & CO).
  exists hes, vs, gv. split.
  { exists (fold_left include_point vs0 (AABB None None)). unfold SegmentArrangement. rewrite C. cbn [bind]. rewrite CK. cbn [bind]. rewrite <- VS, FM. cbn [bind].
    rewrite CO. cbn [bind]. rewrite GV. reflexivity. }
  split; [apply (go_nd _ _ _ G)|]. split; [apply (go_sub _ _ _ G)|]. split; [apply (go_keys _ _ _ G)|]. split; [apply (go_all _ _ _ G)|]. split.
  - intros e f x E Ff S O. apply (sub_edge_planar sid e f x); auto; now apply (go_sub _ _ _ G).
  - intros x. split; intros (s & S & O); [apply (go_cover _ _ _ G s x S O)|apply (go_on _ _ _ G s x S O)].
Qed.
Print Assumptions arrangement_graph.
Example arrangement_graph_ex : Forall nondeg segs3 /\ exists e, sub_edge segs3 e.
Proof.
  split; [repeat constructor; intros E; apply pair_inv in E as (E1 & E2); discriminate|].
  destruct (build_graph (orc0 0%nat) (orc0 0%nat) segs3) as (calls & vs0 & hes & vs & C & _ & VS & FM & G & _).
  { repeat constructor; intros E; apply pair_inv in E as (E1 & E2); discriminate. }
  destruct hes as [|e hes]; [|exists e; apply (go_sub _ _ _ G); now left].
  exfalso. destruct (go_cover _ _ _ G (P 0 0, P 4 0) (P 0 0)) as (e & [] & _); [now left|].
  exists 0. split; [discriminate|]. split; [discriminate|]. vm_compute. reflexivity.
Qed.

(** ** C34 *)
(** [n] is the next of the directions leaving the head of [e] when turning counter-clockwise from [e] backwards:
    no other half-edge leaves into the sector swept *)
Definition sector (u w m : point) : Prop :=
  (0 < cross u w /\ 0 < cross u m /\ 0 < cross m w) \/
  (cross u w = 0 /\ dot u w < 0 /\ 0 < cross u m) \/
  (cross u w < 0 /\ (0 < cross u m \/ 0 < cross m w)).
Definition follows (hes : list segment) (e n : segment) : Prop :=
  In n hes /\ fst n = snd e /\
  forall m, In m hes -> fst m = snd e -> ~ sector (vsub (fst e) (snd e)) (vsub (snd n) (fst n)) (vsub (snd m) (fst m)).
(** the vertex records list what leaves a vertex by increasing direction *)
Definition records (hes : list segment) (vs : list (point * vertex)) : Prop :=
  forall c, (exists e, In e hes /\ fst e = c) -> exists v, dget pt_eqb c vs = Some v /\ vgood hes c v.

Theorem turning_inverse : forall hes c v e, (forall f, In f hes -> fst f <> snd f) -> vgood hes c v -> In e hes -> fst e = c ->
  exists n m, get_next_ccw c v e = Ok n /\ get_next_cw c v n = Ok e /\ get_next_cw c v e = Ok m /\ get_next_ccw c v m = Ok e /\
    In n hes /\ fst n = c /\ In m hes /\ fst m = c.
Proof.
  intros hes c v e NE V I <-.
  assert (T : forall f, In f hes -> fst f = fst e -> exists n, get_next_ccw (fst e) v f = Ok n /\ get_next_cw (fst e) v n = Ok f /\ In n hes /\ fst n = fst e).
  { intros f F FE. destruct (ccw_turns hes v f) as (n & A & B & C & D & _); auto; [now rewrite FE|]. rewrite FE in A, B, D. eauto 6. }
  destruct (T e I eq_refl) as (n & A & B & C & D).
  (* get_next_ccw is an injection of the finite set of half-edges at the vertex into itself, so onto *)
  set (at_c := filter (fun f => pt_eqb (fst f) (fst e)) hes). set (L := nodup (fun a b => match seg_eqb a b as x return seg_eqb a b = x -> {a = b} + {a <> b} with
     true => fun H => left (match seg_eqb_ok a b in reflect _ y return y = true -> a = b with ReflectT _ p => fun _ => p | ReflectF _ _ => fun z => False_ind _ (diff_false_true z) end H)
     | false => fun H => right (match seg_eqb_ok a b in reflect _ y return y = false -> a <> b with ReflectT _ _ => fun z => False_ind _ (diff_true_false z) | ReflectF _ p => fun _ => p end H) end eq_refl) at_c).
  assert (LI : forall f, In f L <-> In f hes /\ fst f = fst e).
  { intros f. unfold L. rewrite nodup_In. unfold at_c. rewrite filter_In. destruct (pt_eqb_ok (fst f) (fst e)); intuition congruence. }
  set (g := fun f => match get_next_ccw (fst e) v f with Ok n => n | Err _ => f end).
  assert (GI : forall f, In f L -> In (g f) L /\ get_next_ccw (fst e) v f = Ok (g f) /\ get_next_cw (fst e) v (g f) = Ok f).
  { intros f F. apply LI in F as (F1 & F2). destruct (T f F1 F2) as (k & K1 & K2 & K3 & K4). unfold g. rewrite K1. split; [apply LI; auto|auto]. }
  assert (ND : NoDup L) by apply NoDup_nodup.
  assert (NM : NoDup (map g L)).
  { clear -GI ND. assert (H : forall l, incl l L -> NoDup l -> NoDup (map g l)); [|apply H; auto; apply incl_refl].
    induction l as [|a l IH]; intros IN N; [constructor|]. inversion N; subst. cbn. constructor; [|apply IH; auto; intros x X; apply IN; now right].
    intros X. apply in_map_iff in X as (b & E & X). destruct (GI a) as (_ & _ & A); [apply IN; now left|]. destruct (GI b) as (_ & _ & B); [apply IN; now right|].
    rewrite E in B. assert (a = b) by congruence. subst. contradiction. }
  assert (ON : incl L (map g L)). { apply NoDup_length_incl; auto; [now rewrite map_length|]. intros x X. apply in_map_iff in X as (y & <- & Y). now apply GI. }
  assert (EL : In e L) by (apply LI; auto). apply ON in EL. apply in_map_iff in EL as (m & GM & M). destruct (GI m M) as (_ & M1 & M2). rewrite GM in M1, M2.
  apply LI in M as (M3 & M4). exists n, m. auto 10.
Qed.
Print Assumptions turning_inverse.

(** [trace_cells] starts from any half-edges in any order [o]: either it stops at an edge whose head no other half-edge leaves, or it splits the half-edges
    into cycles in each of which every half-edge is followed by the next one counter-clockwise *)
Definition cycle_step (c : list point) (e n : segment) : Prop :=
  exists i, (i < length c)%nat /\ e = nth i (cyclic_pairs c) e /\ n = nth (S i mod length c) (cyclic_pairs c) n.
Lemma last_nth' {A} (l : list A) d d' : l <> [] -> last l d = nth (length l - 1) l d'.
Proof.
  intros N. destruct (exists_last N) as (u & x & ->). rewrite last_last, app_length. cbn [length].
  rewrite app_nth2 by lia. replace (length u + 1 - 1 - length u)%nat with O by lia. reflexivity.
Qed.
Lemma adj_nth {A} (l : list A) i d d' : (S i < length l)%nat -> adj (nth i l d) (nth (S i) l d') l.
Proof.
  revert i. induction l as [|a l IH]; intros i L; cbn in L; [lia|]. destruct i as [|i].
  - destruct l as [|b l]; cbn in L; [lia|]. exists [], l. reflexivity.
  - destruct (IH i) as (l1 & l2 & E); [lia|]. exists (a :: l1), l2. cbn. now rewrite E at 1.
Qed.
Lemma cell_steps hes vs path : is_cell hes vs path -> edges_iter (map fst path) = path ->
  forall e n, cycle_step (map fst path) e n -> nxr hes vs e n.
Proof.
  intros C E e n (i & I & EE & NN). change cyclic_pairs with edges_iter in *. rewrite E in EE, NN. rewrite map_length in I, NN.
  destruct path as [|first l]; [destruct C|]. destruct C as (CH & LA & _).
  destruct (Nat.eq_dec (S i) (length (first :: l))) as [Z|Z].
  - rewrite Z, Nat.mod_same in NN by (cbn; lia). cbn [nth] in NN. subst n. rewrite EE.
    replace i with (length (first :: l) - 1)%nat by lia. rewrite <- (last_nth' (first :: l) first e) by discriminate. exact LA.
  - rewrite Nat.mod_small in NN by lia. apply CH. rewrite EE, NN. apply adj_nth. lia.
Qed.
Theorem tracing_partitions : forall hes vs o, NoDup hes -> (forall e, In e hes -> In (snd e, fst e) hes) -> (forall e, In e hes -> fst e <> snd e) -> records hes vs ->
  (trace_cells (length hes) 0 o vs hes = Err AssertionError /\ exists e, In e hes /\ forall f, In f hes -> fst f = snd e -> f = (snd e, fst e)) \/
  exists cells, trace_cells (length hes) 0 o vs hes = Ok cells /\
    Permutation hes (flat_map cyclic_pairs cells) /\
    (forall c, In c cells -> c <> []) /\
    (forall c e n, In c cells -> cycle_step c e n -> follows hes e n).
Proof.
  intros hes vs o ND RV NE R.
  assert (VG : forall e, In e hes -> exists v, dget pt_eqb (fst e) vs = Some v /\ vgood hes (fst e) v) by (intros e I; apply R; eauto).
  destruct (trace_all hes vs RV NE VG o ND) as [(E & e & D)|(paths & E & PM & IC & ED)].
  - left. split; auto. exists e. split; [apply D|]. exact (dangling_alone hes vs RV NE e D).
  - right. exists (map (map fst) paths). split; auto. rewrite Forall_forall in IC. split.
    { rewrite PM at 1. rewrite flat_map_concat_map, map_map. rewrite (map_ext_in _ (fun p => p)); [now rewrite map_id|]. exact ED. }
    split.
    + intros c I. apply in_map_iff in I as (p & <- & I). apply IC in I. destruct p; [destruct I|discriminate].
    + intros c e n I S. apply in_map_iff in I as (p & <- & I). pose proof (cell_steps hes vs p (IC p I) (ED p I) e n S) as N.
      assert (EH : In e hes). { rewrite PM. apply in_concat. exists p. split; auto. destruct S as (i & L & EE & _). change cyclic_pairs with edges_iter in EE. rewrite ED in EE by auto.
        rewrite EE. apply nth_In. now rewrite map_length in L. }
      destruct (nxr_in hes vs RV NE VG e n EH N) as (NI & FN & _ & _ & TS & _). split; auto.
Qed.
Print Assumptions tracing_partitions.
(** the square with a diagonal: two triangles and the outside *)
Local Definition sq4 : list segment := [(P 0 0, P 2 0); (P 2 0, P 2 2); (P 2 2, P 0 2); (P 0 2, P 0 0); (P 0 0, P 2 2)].
Example tracing_ex : match SegmentArrangement orc0 sq4 with
  | Ok a => Nat.eqb (length (a_half_edges a)) 10 && Nat.eqb (length (a_cells a)) 3 && Nat.eqb (length (flat_map (fun c => cyclic_pairs (fc_vertices c)) (a_cells a))) 10
  | Err _ => false end = true.
Proof. vm_compute. reflexivity. Qed.

(** ** C34 for finished arrangements, C35, C36 *)
Lemma arrangement_paths orc sid a : Forall nondeg sid -> SegmentArrangement orc sid = Ok a ->
  Permutation (a_half_edges a) (flat_map (fun c => edges_iter (fc_vertices c)) (a_cells a)).
Proof.
  intros F H. pose proof (arrangement_ok orc sid a F H) as AO. destruct (ao_cells _ _ AO) as (paths & PM & _ & F2).
  rewrite PM. clear -F2. induction F2 as [|p c ps cs (_ & E & _) F2 IH]; [reflexivity|]. cbn. rewrite E. now apply Permutation_app_head.
Qed.
Theorem arrangement_cells : forall orc sid a, Forall nondeg sid -> SegmentArrangement orc sid = Ok a ->
  Permutation (a_half_edges a) (flat_map (fun c => cyclic_pairs (fc_vertices c)) (a_cells a)) /\ NoDup (a_half_edges a) /\
  (forall e, In e (a_half_edges a) <-> sub_edge sid e) /\
  forall c e n, In c (a_cells a) -> cycle_step (fc_vertices c) e n -> follows (a_half_edges a) e n.
Proof.
  intros orc sid a F H. split; [now apply (arrangement_paths orc sid a)|]. pose proof (arrangement_ok orc sid a F H) as AO.
  pose proof (ao_graph _ _ AO) as G. split; [apply (go_nd _ _ _ G)|]. split; [apply (go_sub _ _ _ G)|].
  intros c e n I S. destruct (ao_cells _ _ AO) as (paths & PM & IC & F2).
  assert (X : exists p, In p paths /\ is_cell_of (a_half_edges a) p c).
  { clear -F2 I. induction F2 as [|p d ps ds R F2 IH]; [destruct I|]. destruct I as [->|I]; [exists p; split; [now left|auto]|].
    destruct (IH I) as (q & Q1 & Q2). exists q. split; [now right|auto]. }
  destruct X as (p & IP & V & E & _). rewrite V in S, E. rewrite Forall_forall in IC. pose proof (IC p IP) as C.
  pose proof (cell_steps _ _ p C E e n S) as N.
  assert (EH : In e (a_half_edges a)). { rewrite PM. apply in_concat. exists p. split; auto. destruct S as (i & L & EE & _). change cyclic_pairs with edges_iter in EE. rewrite E in EE.
    rewrite EE. apply nth_In. now rewrite map_length in L. }
  destruct (nxr_in _ _ (bt_rv _ _ _ G) (bt_ne _ _ _ G) (bt_vg _ _ _ G) e n EH N) as (NI & FN & _ & _ & TS & _). split; auto.
Qed.
Print Assumptions arrangement_cells.

(** the value of [zsum] over winding numbers by one apex *)
Lemma winding_sum (cs : list (list point)) (w : list Z) p a : (forall c, In c cs -> c <> []) -> (forall c, In c cs -> ~ on_boundary c p) ->
  (forall c v, In c cs -> In v c -> ~ on_seg (a, v) p) -> Forall2 (fun c n => winding_number c p n) cs w ->
  zsum (fun n => n) w = zsum (fun s => tri_ind a (fst s) (snd s) p) (flat_map edges_iter cs).
Proof.
  intros N0 NB GA F2. induction F2 as [|c n l u Hc F2 IH]; [reflexivity|].
  cbn [zsum flat_map]. rewrite zsum_app, IH; [|intros; eauto with datatypes..].
  f_equal. destruct (locate_winding c p) as (w0 & _ & U & _); [apply N0; left; auto|apply NB; left; auto|].
  rewrite (U n Hc). symmetry. apply U. exists a. split; [|reflexivity].
  intros v Hv. apply (GA c); auto; left; auto.
Qed.
Lemma flat_map_map' {A B C} (f : A -> B) (g : B -> list C) l : flat_map g (map f l) = flat_map (fun x => g (f x)) l.
Proof. induction l as [|a l IH]; [reflexivity|]. cbn. now rewrite IH. Qed.
Lemma filter_nil {A} (f : A -> bool) l : (forall x, In x l -> f x = false) -> filter f l = [].
Proof. intros H. induction l as [|a l IH]; [reflexivity|]. cbn. rewrite H by now left. apply IH. intros; apply H; now right. Qed.
Lemma symmetric_sums (E : list segment) : NoDup E -> (forall e, In e E -> fst e <> snd e) -> (forall e, In e E -> In (snd e, fst e) E) ->
  (forall f : segment -> Qc, (forall e, f (snd e, fst e) = - f e) -> qsum f E = 0) /\
  (forall f : segment -> Z, (forall e, f (snd e, fst e) = - f e)%Z -> zsum f E = 0%Z).
Proof.
  intros ND NE RV. destruct (filter_opp_split E ND) with (R := @nil segment) as (HQ & HZ).
  - intros e I Q. apply (NE e I). exact (f_equal fst Q).
  - rewrite filter_nil; [reflexivity|]. intros e I. apply negb_false_iff. apply (mem_edge_in pt_eqb pt_eqb_spec). exact (RV e I).
  - split; intros f Hf; [rewrite <- HQ|rewrite <- HZ]; auto; reflexivity.
Qed.

(** ** C35 *)
Theorem cell_sums_zero : forall orc sid a, Forall nondeg sid -> SegmentArrangement orc sid = Ok a ->
  (forall areas, Forall2 (fun c x => simple_polygon_area (fc_vertices c) = Ok x) (a_cells a) areas -> qsum (fun x => x) areas = 0) /\
  (forall p w, (forall s, In s sid -> ~ on_seg s p) -> Forall2 (fun c n => winding_number (fc_vertices c) p n) (a_cells a) w -> zsum (fun n => n) w = 0%Z).
Proof.
  intros orc sid a F H. pose proof (arrangement_ok orc sid a F H) as AO. pose proof (ao_graph _ _ AO) as G.
  pose proof (arrangement_paths orc sid a F H) as PM. rewrite <- (flat_map_map' fc_vertices edges_iter) in PM.
  destruct (symmetric_sums (a_half_edges a) (go_nd _ _ _ G) (bt_ne _ _ _ G) (bt_rv _ _ _ G)) as (SQ & SZ).
  split.
  - intros areas FA.
    assert (E : qsum (fun x => x) areas = - (qq 1 2 * qsum (fun s => orient (0, 0) (fst s) (snd s)) (flat_map edges_iter (map fc_vertices (a_cells a))))).
    { clear -FA. induction FA as [|c x cs xs C FA IH]; [cbn; qlra|]. cbn [qsum map flat_map]. rewrite qsum_app, IH.
      destruct (area_ok_inv _ _ C) as (_ & ->). rewrite (area_of_fan (0, 0)). unfold fan2. change cyclic_pairs with edges_iter. qlra. }
    rewrite E, <- (qsum_perm _ _ _ PM). rewrite SQ; [qlra|]. intros [x y]. cbn [fst snd]. unfold orient, cross, vsub; cbn [fst snd]. ring.
  - intros p w O FW.
    assert (OE : forall e, In e (a_half_edges a) -> ~ on_seg e p). { intros e I X. destruct (go_on _ _ _ G e p I X) as (s & S1 & S2). exact (O s S1 S2). }
    assert (NB : forall c, In c (map fc_vertices (a_cells a)) -> ~ on_boundary c p).
    { intros c I X. apply on_boundary_iff in X as (s & S1 & S2). apply (OE s); auto. rewrite PM. apply in_flat_map. eauto. }
    assert (NN : forall c, In c (map fc_vertices (a_cells a)) -> c <> []).
    { intros c I. apply in_map_iff in I as (f & <- & I). destruct (ao_cells _ _ AO) as (paths & _ & IC & F2). clear -IC F2 I.
      induction F2 as [|q d ps ds (V & _) F2 IH]; [destruct I|]. inversion IC as [|? ? C1 C2]; subst. destruct I as [->|I]; auto.
      rewrite V. destruct q; [destruct C1|discriminate]. }
    destruct (generic_apex_exists (concat (map fc_vertices (a_cells a))) p) as (o & GO).
    { intros X. apply in_concat in X as (c & C1 & C2). apply (NB c C1). now apply vertex_on_boundary. }
    rewrite (winding_sum (map fc_vertices (a_cells a)) w p o); auto.
    + rewrite <- (zsum_perm _ _ _ PM). apply SZ. intros e. cbn [fst snd]. apply tri_ind_rev.
    + intros c v C1 C2. apply GO. apply in_concat. eauto.
    + clear -FW. induction FW; cbn; constructor; auto.
Qed.
Print Assumptions cell_sums_zero.
Example cell_sums_ex : match SegmentArrangement orc0 sq4 with
  | Ok a => list_eqb qeqb (map (fun c => area_of (fc_vertices c)) (a_cells a)) [zq 2; zq 2; - zq 4] ||
            list_eqb qeqb (map (fun c => area_of (fc_vertices c)) (a_cells a)) [zq 2; - zq 4; zq 2] ||
            list_eqb qeqb (map (fun c => area_of (fc_vertices c)) (a_cells a)) [- zq 4; zq 2; zq 2]
  | Err _ => false end = true.
Proof. vm_compute. reflexivity. Qed.

(** ** C36 *)
Theorem sample_points : forall orc sid a, Forall nondeg sid -> SegmentArrangement orc sid = Ok a ->
  forall c, In c (a_cells a) -> exists u v rest, fc_vertices c = u :: v :: rest /\
    let mid := ((fst u + fst v) / zq 2, (snd u + snd v) / zq 2) in
    (** the point lies to the right of the first half-edge *)
    orient u v (fc_point c) < 0 /\
    (** and sees the middle of it: neither the point nor anything strictly between lies on a segment *)
    (forall s, In s sid -> ~ on_seg s (fc_point c)) /\
    (forall x s, strictly_on (mid, fc_point c) x -> In s sid -> ~ on_seg s x).
Proof.
  intros orc sid a F H c I. pose proof (arrangement_ok orc sid a F H) as AO. pose proof (ao_graph _ _ AO) as G.
  destruct (ao_cells _ _ AO) as (paths & PM & IC & F2).
  assert (X : exists p, In p paths /\ is_cell_of (a_half_edges a) p c).
  { clear -F2 I. induction F2 as [|p d ps ds R F2 IH]; [destruct I|]. destruct I as [->|I]; [exists p; split; [now left|auto]|].
    destruct (IH I) as (q & Q1 & Q2). exists q. split; [now right|auto]. }
  destruct X as (p & IP & V & E & e & l & PE & S).
  assert (INP : incl p (a_half_edges a)) by (intros x X; rewrite PM; apply in_concat; eauto).
  rewrite Forall_forall in IC. destruct (cell_two sid _ _ G p INP (IC p IP)) as (e' & f & l' & PE' & FE).
  rewrite PE in PE'. injection PE' as <- ->. rewrite PE in V.
  exists (fst e), (snd e), (map fst l'). split; [rewrite V, <- FE; reflexivity|]. cbv zeta.
  assert (MID : ((fst (fst e) + fst (snd e)) / zq 2, (snd (fst e) + snd (snd e)) / zq 2) = midpoint e).
  { unfold midpoint. destruct e as [[x y] [z w]]. apply pteq; vec; cbn [fst snd]; unfold Qcdiv; replace (/ zq 2) with (qq 1 2) by (apply Qc_is_canon; vm_compute; reflexivity); qlra. }
  rewrite MID. destruct S as (v & t & R & T & SP & O). rewrite SP.
  assert (OFF : forall u, 0 < u -> u <= t -> forall s, In s sid -> ~ on_seg s (step (midpoint e) v u)).
  { intros u U1 U2 s IS X. destruct (go_cover _ _ _ G s _ IS X) as (h & H1 & H2). exact (O u U1 U2 h H1 H2). }
  split.
  - unfold right_of in R. clear -R T. destruct e as [[x y] [z w]], v as [v1 v2]. unfold orient, midpoint, step. vec. cbn [fst snd] in *.
    enough (t * ((z - x) * v2 - (w - y) * v1) < 0) by qlra. qnra.
  - split; [apply OFF; [auto|apply Qcle_refl]|]. intros x s (k & K0 & K1 & ->) IS.
    replace (at_t (midpoint e, step (midpoint e) v t) k) with (step (midpoint e) v (k * t)); [apply OFF; auto; qnra|].
    unfold step. apply pteq; vec; ring.
Qed.
Print Assumptions sample_points.

(** ** C70: no face is without a sample *)
Inductive connected (segs : list segment) (p : point) : point -> Prop :=
| conn_here : connected segs p p
| conn_step q r : connected segs p q -> (forall x s, on_seg (q, r) x -> In s segs -> ~ on_seg s x) -> connected segs p r.
Theorem every_face_sampled : forall orc sid a, Forall nondeg sid -> SegmentArrangement orc sid = Ok a ->
  forall p, (forall s, In s sid -> ~ on_seg s p) -> forall M,
    (exists c, In c (a_cells a) /\ connected sid (fc_point c) p) \/
    (** or p is outside everything: joined with a point further to the right than M *)
    (exists z, M < fst z /\ connected sid z p).
Proof.
  intros orc sid a F H p O M. pose proof (arrangement_ok orc sid a F H) as AO. pose proof (ao_graph _ _ AO) as G.
  assert (OFF : forall x, off (a_half_edges a) x <-> forall s, In s sid -> ~ on_seg s x).
  { intros x. split.
    - intros K s IS X. destruct (go_cover _ _ _ G s x IS X) as (h & H1 & H2). exact (K h H1 H2).
    - intros K e IE X. destruct (go_on _ _ _ G e x IE X) as (s & H1 & H2). exact (K s H1 H2). }
  pose (T := fun q => (exists c, In c (a_cells a) /\ connected sid (fc_point c) q) \/ exists z, M < fst z /\ connected sid z q).
  apply (everywhere sid a AO T).
  - intros q r FR [(c & C1 & C2)|(z & Z1 & Z2)]; [left; exists c|right; exists z]; (split; [auto|]); apply (conn_step _ _ q r); auto; intros x s X; now apply OFF, FR.
  - intros c C. left. exists c. split; auto. constructor.
  - exists M. intros z Z _. right. exists z. split; auto. constructor.
  - now apply OFF.
Qed.
Print Assumptions every_face_sampled.
Example sample_ex : match SegmentArrangement orc0 sq4 with
  | Ok a => forallb (fun c => match fc_vertices c with u :: v :: _ => qltb (orient u v (fc_point c)) 0 | _ => false end) (a_cells a)
  | Err _ => false end = true.
Proof. vm_compute. reflexivity. Qed.

(** ** C38 *)
Theorem set_operators : forall orc a b, is_geom2d a -> is_geom2d b -> let A := segment_arrangement orc in
  (forall r, g2_or A a b = Ok r -> is_op [a; b] (fun p => in_geom a p \/ in_geom b p) r) /\
  (forall r, g2_and A a b = Ok r -> is_op [a; b] (fun p => in_geom a p /\ in_geom b p) r) /\
  (forall r, g2_sub A a b = Ok r -> is_op [a; b] (fun p => in_geom a p /\ ~ in_geom b p) r).
Proof.
  intros orc a b Ga Gb A. pose proof (arrangement_sound orc) as S.
  split; [|split]; intros r R; [apply (g2_or_ok A)|apply (g2_and_ok A)|apply (g2_sub_ok A)]; auto.
Qed.
Print Assumptions set_operators.
(** in terms of [locate], for any operands and any Boolean function that is false outside everything *)
Theorem set_operators_locate : forall orc gs op r p, Forall is_geom2d gs -> op (map (fun _ => false) gs) = false ->
  arrangement_op (segment_arrangement orc) gs op = Ok r -> (forall g, In g gs -> ~ on_bd g p) ->
  exists locs, mapM (fun g => g2_locate g p) gs = Ok locs /\ Forall (fun l => l = 1%Z \/ l = (-1)%Z) locs /\
    g2_locate r p = Ok (if op (map (fun l => (0 <? l)%Z) locs) then 1%Z else (-1)%Z).
Proof.
  intros orc gs op r p F OP R O. destruct (arrangement_sound orc gs op r F OP R) as (Gr & B & M).
  assert (X : exists locs, mapM (fun g => g2_locate g p) gs = Ok locs /\ Forall (fun l => l = 1%Z \/ l = (-1)%Z) locs /\
    bits gs p (map (fun l => (0 <? l)%Z) locs)).
  { clear -F O. induction F as [|g gs Gg F IH]; [exists []; split; [reflexivity|split; constructor]|].
    destruct IH as (locs & L1 & L2 & L3); [intros; apply O; now right|]. cbn [mapM].
    destruct (g2_locate_ok g p Gg) as [(E & I)|(E & I)]; [apply O; now left| |]; rewrite E; cbn [bind]; rewrite L1; cbn [bind];
      eexists; (split; [reflexivity|]); split; constructor; auto; cbn; intuition discriminate. }
  destruct X as (locs & L1 & L2 & L3). exists locs. split; auto. split; auto.
  assert (NB : ~ on_bd r p) by (intros X; exact (B p X O)).
  destruct (g2_locate_ok r p Gr NB) as [(E & I)|(E & I)]; rewrite E.
  - apply M in I; auto. destruct I as (bs & B1 & B2). rewrite <- (bits_unique _ _ _ _ B1 L3), B2. reflexivity.
  - destruct (op (map (fun l => (0 <? l)%Z) locs)) eqn:Q; [|reflexivity]. exfalso. apply I, M; eauto.
Qed.
Print Assumptions set_operators_locate.
