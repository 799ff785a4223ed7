(** * What is chosen at first may be chosen: the faces grown by 1 lie within the faces grown by the support radius *)
From Verif.Spec Require Import Plane Region PointSet1 Fingers Crisp Hull Simple.
From Verif.Model Require Import Arrangement2d Geom2d Geom1d Sheetplex Sheetbuild.
From Verif.Proofs Require Import PyP PolyP WindingP WindingR PlanarP ExtOrd DictP NearP Geom2dP Geom2dOps ArrSoundP ReachP SheetplexP FingerP SheetbuildP CreateP CoverP CrispP CrispQ BufferP BufSharpQ RunSharpP.
From Verif.Props Require Import Geom1dProps SheetplexProps Geom2dProps BufferExactProps CrispProps RunSharpProps.
From Coq Require Import String.
Open Scope Qc_scope.

Lemma hull_grow k a b d : hull (octagon a b) d -> hull (octagon (k * a) (k * b)) (vscale k d).
Proof.
  induction 1 as [c H|x y z _ IH1 _ IH2 (t & T0 & T1 & ->)].
  - apply hull_in. unfold octagon in *. cbn [In] in *. repeat (destruct H as [<-|H]; [|try tauto]).
    all: unfold vscale; cbn [fst snd]; replace (k * 0) with 0 by ring; replace (k * - a) with (- (k * a)) by ring; replace (k * - b) with (- (k * b)) by ring; tauto.
  - apply (hull_seg _ (vscale k x) (vscale k y)); auto. exists t. split; auto. split; auto. unfold at_t, vscale, vadd, vsub. cbn [fst snd]. f_equal; ring.
Qed.

Section Support.
Variable orc : list segment -> nat -> nat -> nat.
Variable fsqrt : Qc -> Qc.
Let A := segment_arrangement orc.
Hypothesis RO : root_ok fsqrt.
(** an outer bound of a positive buffer, for any geometry *)
Lemma buffer_upper g amount q r a b : is_geom2d g -> 0 < q -> a * fsqrt 1 = q -> b * fsqrt (zq 2) = q -> g2_buffer A fsqrt g amount = Ok r -> pval amount = Some (Fin q) ->
  forall p, in_geom r p -> in_geom g p \/ exists v d, on_bd g v /\ hull (octagon a b) d /\ p = vadd v d.
Proof.
  intros G Pq Ea Eb R V p I. destruct RO as (F1 & F2 & F3). assert (AQ : qabs q = q) by (destruct (qabs_cases q) as [(_ & E)|(E & _)]; auto; exfalso; qlra). rewrite <- AQ in Ea, Eb.
  destruct (buffer_setup orc fsqrt g amount q r a b F1 F2 F3 Ea Eb R V) as (_ & _ & _ & L & R'); [intros E; rewrite E in Pq; qlra|].
  assert (S : (if qltb 0 q then 1 else - (1)) = 1) by (destruct (qltb_spec 0 q); tauto). rewrite S in R'.
  destruct (mink_reach _ 2 (arrangement_sound orc) g _ 1 r G L (or_introl eq_refl) R') as (_ & HS). destruct (proj1 (proj2 (HS p)) eq_refl I) as [Z|(v & Hv & [(d & Hd & ->)|(d & Hd & ->)])]; auto; right; exists v.
  - exists (vscale 1 d). split; auto. split; [apply hull_oct; auto|reflexivity].
  - exists (vscale (- (1)) d). split; auto. split; [apply hull_oct; auto|reflexivity].
Qed.
(** what the octagon reaches from a subset, the larger octagon reaches from the set *)
Lemma grown_within g f q r rad B : neat g -> sharp g -> is_geom2d f -> tidy f -> no_nesting f -> (exists S, forall p, off_segs S p -> in_geom g p -> in_geom f p) -> 1 < q -> pval rad = Some (Fin q) ->
  g2_buffer A fsqrt g (NInt 1) = Ok B -> g2_buffer A fsqrt f rad = Ok r -> exists S, forall p, off_segs S p -> in_geom B p -> in_geom r p.
Proof.
  intros Ng Sg Gf T NN (S & SUB) Q V HB Hr. pose proof RO as (F1 & F2 & F3). assert (F2p : 0 < fsqrt (zq 2)) by qlra. set (a := / fsqrt 1). set (b := / fsqrt (zq 2)).
  assert (Ea : a * fsqrt 1 = 1) by (unfold a; rewrite Qcmult_comm; apply Qcmult_inv_r; intros E; rewrite E in F1; qlra).
  assert (Eb : b * fsqrt (zq 2) = 1) by (unfold b; rewrite Qcmult_comm; apply Qcmult_inv_r; intros E; rewrite E in F2p; qlra). clearbody a b.
  assert (Eq : qabs q = q) by (destruct (qabs_cases q) as [(_ & E)|(E & _)]; auto; exfalso; qlra).
  assert (Ea' : q * a * fsqrt 1 = qabs q) by (rewrite Eq, <- Qcmult_assoc, Ea; ring). assert (Eb' : q * b * fsqrt (zq 2) = qabs q) by (rewrite Eq, <- Qcmult_assoc, Eb; ring).
  destruct (buffer_exact orc fsqrt f rad q r (q * a) (q * b) F1 F2 F3 Ea' Eb' Gf T NN Hr V) as (EX & _). destruct (EX ltac:(qlra)) as (_ & LO).
  pose proof (buffer_geom _ _ _ _ _ (arrangement_sound orc) Gf Hr) as Gr.
  exists (S ++ all_segments r ++ all_segments g ++ all_segments f). intros p Op I. apply off_segs_app in Op as (P0 & Op). apply off_segs_app in Op as (P1 & Op). apply off_segs_app in Op as (P2 & P3).
  assert (NBr : ~ on_bd r p) by (intros Z; apply on_bd_segments in Z as (e & E & Z); exact (P1 e E Z)).
  destruct (buffer_upper g (NInt 1) 1 B a b (proj1 Ng) ltac:(vm_compute; reflexivity) Ea Eb HB eq_refl p I) as [Ig|(v & d & Bv & Hd & Ep)]; [apply LO; auto|].
  destruct (g2_locate_ok r p Gr NBr) as [(_ & ?)|(_ & NI)]; auto. exfalso.
  assert (NW : forall x, on_seg (v, p) x -> ~ on_bd f x).
  { intros x (t & T0 & T1 & Ex) Bx. apply NI, LO; auto. right. exists x, (vscale q d), ((1 - t) / q). split; auto. split; [now apply hull_grow|].
    assert (Nq : q <> 0) by (intros Z; rewrite Z in Q; qlra). assert (Iq : (1 - t) / q * q = 1 - t) by (field; auto). split; [|split].
    - destruct (qleb_spec 0 ((1 - t) / q)) as [|Z]; auto. exfalso. assert (0 < (- ((1 - t) / q)) * q) by (apply mpp; qlra). qlra.
    - destruct (qltb_spec ((1 - t) / q) 1) as [|Z]; auto. exfalso. assert (0 <= ((1 - t) / q - 1) * q) by (apply mnn; qlra). qlra.
    - set (u := (1 - t) / q) in *. clearbody u. rewrite Ep in Ex |- *. rewrite Ex. destruct v as [v1 v2], d as [d1 d2]. unfold at_t, vadd, vscale, vsub. cbn [fst snd].
      assert (X : forall w, u * (q * w) = (1 - t) * w) by (intros w; rewrite <- Iq; ring). rewrite !X. f_equal; ring. }
  assert (Iv : in_geom f v).
  { destruct (g2_locate_ok f v Gf (NW v ltac:(exact (proj1 (on_seg_end v p))))) as [(_ & ?)|(_ & N)]; auto. exfalso. destruct (bd_away f v Gf (NW v ltac:(exact (proj1 (on_seg_end v p))))) as (e & E & AW).
    destruct (proj1 (proj2 Sg) v (e * qq 1 2) Bv) as ((x & Nx & Bx & Ix) & _); [apply mpp; [auto|vm_compute; reflexivity]|]. destruct (bd_away g x (proj1 Sg) Bx) as (e' & E' & AW').
    destruct (qmin_spec (e * qq 1 2) e') as (M1 & M2 & M3). assert (Hh : 0 < e * qq 1 2) by (apply mpp; [auto|vm_compute; reflexivity]). destruct (near_generic_eps x _ [] S (M3 Hh E')) as (y & Ny & _ & Oy); [intros ? []|].
    apply N. apply (AW y); [|apply (SUB y Oy); apply (AW' y); auto; apply (near_mono _ _ _ _ M2 Ny)].
    assert (HH : qq 1 2 + qq 1 2 = 1) by (apply Qc_is_canon; reflexivity). pose proof (near_mono _ _ _ _ M1 Ny) as Ny'. clear -Nx Ny' HH. unfold near in *. rewrite !qabs_lt in *. assert (H2 : e * qq 1 2 + e * qq 1 2 = e) by (rewrite <- (Qcmult_1_r e) at 3; rewrite <- HH; ring).
    destruct Nx as ((? & ?) & ? & ?), Ny' as ((? & ?) & ? & ?). repeat split; qlra. }
  apply NI, LO; auto. left. apply (in_geom_move f v p Gf NW). exact Iv.
Qed.
End Support.
