(** * C105, the other direction: what choose_obviously_irrelevant keeps *)
From Verif.Spec Require Import Plane Region PointSet1 Fingers Crisp Hull Trim Simple.
From Verif.Model Require Import SegmentTree CellMerger Arrangement2d Geom2d Sheetplex Sheetbuild Heuristics Canned.
From Verif.Proofs Require Import PyP PolyP WindingP WindingQ WindingR PlanarP ExtOrd DictP Geom1dP Geom1dM NearP Geom2dP Geom2dOps ArrSoundP ReachP SheetplexP FingerP SheetbuildP CreateP HeuristicsP ClusterP HeuStepsP CrispP CrispQ CoverP RibbonP BufSharpP BufSharpQ RunSharpP TrimP TrimQ JordanP JordanQ.
From Verif.Props Require Import Geom1dProps Primitive2dProps SheetplexProps Geom2dProps SetOpsProps BufferProps AreaProps CannedProps CrispProps BufferExactProps BufferSharpProps JointProps RunSharpProps TrimProps JordanProps.
From Coq Require Import String Permutation.
Open Scope Qc_scope.

Lemma hull_scaled c a b d : hull (octagon (c * a) (c * b)) d -> exists d', hull (octagon a b) d' /\ d = vscale c d'.
Proof.
  induction 1 as [d Hd|x y z _ (x' & X & ->) _ (y' & Y & ->) (t & T0 & T1 & ->)].
  - cbn in Hd. repeat destruct Hd as [<-|Hd]; [| | | | | | | |destruct Hd];
    [exists (a, 0)|exists (b, b)|exists (0, a)|exists (- b, b)|exists (- a, 0)|exists (- b, - b)|exists (0, - a)|exists (b, - b)];
    (split; [apply hull_in; cbn; auto 12|unfold vscale; cbn [fst snd]; apply f_equal2; ring]).
  - exists (at_t (x', y') t). split; [apply (hull_seg _ x' y'); auto; exists t; auto|]. unfold at_t. vring.
Qed.
Lemma hull_scaled' c a b d : hull (octagon a b) d -> hull (octagon (c * a) (c * b)) (vscale c d).
Proof.
  induction 1 as [d Hd|x y z _ X _ Y (t & T0 & T1 & ->)].
  - cbn in Hd. assert (E : forall u v, vscale c (u, v) = (c * u, c * v)) by reflexivity. apply hull_in. cbn.
    repeat destruct Hd as [<-|Hd]; [| | | | | | | |destruct Hd]; rewrite E; repeat first [left; apply f_equal2; ring | right].
  - apply (hull_seg _ _ _ _ X Y). exists t. repeat split; auto. unfold at_t. vring.
Qed.
Lemma seg_at u h : 0 < h -> - h <= u -> u <= h -> exists t, 0 <= t /\ t <= 1 /\ u = - h + t * (h + h).
Proof.
  intros H L R. assert (H2 : h + h <> 0) by (intros E; assert (0 < h + h) by qlra; qlra). exists ((u + h) / (h + h)). assert (E : (u + h) / (h + h) * (h + h) = u + h) by (field; auto).
  set (t := (u + h) / (h + h)) in *. clearbody t. split; [|split; [|qlra]].
  - destruct (qleb_spec 0 t); auto. exfalso. assert (0 < (- t) * (h + h)) by (apply mpp; qlra). qlra.
  - destruct (qleb_spec t 1); auto. exfalso. assert (0 < (t - 1) * (h + h)) by (apply mpp; qlra). qlra.
Qed.
Lemma hull_box a b u v : 0 < b -> - b <= u -> u <= b -> - b <= v -> v <= b -> hull (octagon a b) (u, v).
Proof.
  intros B U1 U2 V1 V2. destruct (seg_at u b B U1 U2) as (t & T0 & T1 & ->). destruct (seg_at v b B V1 V2) as (s & S0 & S1 & ->).
  assert (E : forall y, hull (octagon a b) (- b, y) -> hull (octagon a b) (b, y) -> hull (octagon a b) (- b + t * (b + b), y)).
  { intros y Y1 Y2. apply (hull_seg _ _ _ _ Y1 Y2). exists t. repeat split; auto. unfold at_t, vadd, vsub, vscale. cbn [fst snd]. apply f_equal2; ring. }
  apply (hull_seg _ (- b + t * (b + b), - b) (- b + t * (b + b), b)); [apply E; apply hull_in; cbn; auto 12|apply E; apply hull_in; cbn; auto 12|].
  exists s. repeat split; auto. unfold at_t, vadd, vsub, vscale. cbn [fst snd]. apply f_equal2; ring.
Qed.
(** the octagon absorbs what is small *)
Lemma hull_absorb a b t c : 0 < b -> 0 <= t -> t < c -> exists e, 0 < e /\ forall d u, hull (octagon a b) d -> near e (0, 0) u -> exists d', hull (octagon a b) d' /\ vadd (vscale t d) u = vscale c d'.
Proof.
  intros B T0 T. exists ((c - t) * b). split; [apply mpp; qlra|]. intros d u D N. unfold near in N. cbn [fst snd] in N. rewrite !qabs_lt in N. destruct N as ((N1 & N2) & N3 & N4).
  assert (H : c - t <> 0) by (intros E; qlra). assert (Hc : c <> 0) by (intros E; qlra). set (h := c - t) in *. assert (Hh : 0 < h) by (unfold h; qlra).
  assert (Q : forall x, - (h * b) < x - 0 -> x - 0 < h * b -> - b <= x / h /\ x / h <= b).
  { intros x X1 X2. assert (E : h * (x / h) = x) by (field; auto). set (y := x / h) in *. clearbody y. split.
    - destruct (qleb_spec (- b) y); auto. exfalso. assert (0 < h * (- b - y)) by (apply mpp; qlra). qlra.
    - destruct (qleb_spec y b); auto. exfalso. assert (0 < h * (y - b)) by (apply mpp; qlra). qlra. }
  exists (at_t (d, (fst u / h, snd u / h)) (h / c)). split.
  - apply (hull_seg _ d (fst u / h, snd u / h)); auto; [apply hull_box; auto; apply Q; qlra|]. assert (E : c * (h / c) = h) by (field; auto). exists (h / c). set (y := h / c) in *. clearbody y. repeat split.
    + destruct (qleb_spec 0 y); auto. exfalso. assert (0 < c * (- y)) by (apply mpp; qlra). qlra.
    + destruct (qleb_spec y 1); auto. exfalso. assert (0 < c * (y - 1)) by (apply mpp; qlra). unfold h in E. qlra.
  - destruct d as [d1 d2], u as [u1 u2]. unfold at_t, vadd, vsub, vscale. cbn [fst snd]. apply f_equal2; unfold h; field; unfold h in H; auto.
Qed.

Section I.
Variable orc : list segment -> nat -> nat -> nat.
Let A := segment_arrangement orc.
Variable fsqrt : Qc -> Qc.

Lemma buffer_open a b f c r : root_ok fsqrt -> a * fsqrt 1 = 1 -> b * fsqrt (zq 2) = 1 -> 0 < c -> is_geom2d f -> tidy f -> no_nesting f -> g2_buffer A fsqrt f (NMpq c) = Ok r ->
  0 < b /\ forall p v d t, on_bd f v -> hull (octagon a b) d -> 0 <= t -> t < c -> p = vadd v (vscale t d) -> exists e, 0 < e /\ forall q, near e p q -> ~ on_bd r q -> in_geom r q.
Proof.
  intros (F1 & F2 & F3) Ea Eb Pc G T NN R. assert (QC : qabs c = c) by (unfold qabs; destruct (qleb_spec 0 c); auto; exfalso; qlra).
  assert (Ea' : c * a * fsqrt 1 = qabs c) by (rewrite QC; transitivity (c * (a * fsqrt 1)); [ring|rewrite Ea; ring]). assert (Eb' : c * b * fsqrt (zq 2) = qabs c) by (rewrite QC; transitivity (c * (b * fsqrt (zq 2))); [ring|rewrite Eb; ring]).
  assert (Nc : c <> 0) by (intros E; rewrite E in Pc; discriminate Pc).
  destruct (buffer_setup orc fsqrt f (NMpq c) c r _ _ F1 F2 F3 Ea' Eb' R eq_refl Nc) as (Pb & _). assert (B : 0 < b). { destruct (qltb_spec 0 b); auto. exfalso. assert (0 <= c * (- b)) by (apply mnn; qlra). qlra. }
  split; auto. intros p v d t Hv Hd T0 Tc ->. set (m := (t + c) * qq 1 2). assert (M2 : m + m = t + c). { unfold m. transitivity ((t + c) * (qq 1 2 + qq 1 2)); [ring|]. replace (qq 1 2 + qq 1 2) with 1 by (apply Qc_is_canon; vm_compute; reflexivity). ring. }
  clearbody m. destruct (hull_absorb a b t m B T0 ltac:(qlra)) as (e & E & AB). exists e. split; auto. intros q N NB.
  destruct (buffer_exact orc fsqrt f (NMpq c) c r _ _ F1 F2 F3 Ea' Eb' G T NN R eq_refl) as (X & _). apply X; auto. right.
  destruct (AB d (vsub q (vadd v (vscale t d))) Hd) as (d' & D' & ED).
  { unfold near in *. unfold vsub. cbn [fst snd] in *. rewrite !qabs_lt in *. cbn [vadd vscale fst snd] in *. destruct N as ((N1 & N2) & N3 & N4). repeat split; qlra. }
  exists v, (vscale c d'), (m / c). split; auto. split; [now apply hull_scaled'|]. assert (EQ : c * (m / c) = m) by (field; auto). split; [|split].
  - set (y := m / c) in *. clearbody y. destruct (qleb_spec 0 y); auto. exfalso. assert (0 < c * (- y)) by (apply mpp; qlra). qlra.
  - set (y := m / c) in *. clearbody y. destruct (qltb_spec y 1); auto. exfalso. assert (0 <= c * (y - 1)) by (apply mnn; qlra). qlra.
  - transitivity (vadd v (vadd (vscale t d) (vsub q (vadd v (vscale t d))))); [vring|]. rewrite ED. f_equal. transitivity (vscale (c * (m / c)) d'); [now rewrite EQ|]. vring.
Qed.
Lemma buffer_away a b f c c' r p : root_ok fsqrt -> a * fsqrt 1 = 1 -> b * fsqrt (zq 2) = 1 -> 0 < c -> c < c' -> is_geom2d f -> tidy f -> no_nesting f -> g2_buffer A fsqrt f (NMpq c) = Ok r ->
  ~ in_geom f p -> (forall v d, on_bd f v -> hull (octagon a b) d -> p <> vadd v (vscale c' d)) -> exists e, 0 < e /\ forall q, near e p q -> ~ in_geom r q.
Proof.
  intros RO Ea Eb Pc Cc G T NN R NI NW. destruct (buffer_open a b f c r RO Ea Eb Pc G T NN R) as (B & _). destruct RO as (F1 & F2 & F3). assert (QC : qabs c = c) by (unfold qabs; destruct (qleb_spec 0 c); auto; exfalso; qlra).
  assert (Ea' : c * a * fsqrt 1 = qabs c) by (rewrite QC; transitivity (c * (a * fsqrt 1)); [ring|rewrite Ea; ring]). assert (Eb' : c * b * fsqrt (zq 2) = qabs c) by (rewrite QC; transitivity (c * (b * fsqrt (zq 2))); [ring|rewrite Eb; ring]).
  destruct (buffer_exact orc fsqrt f (NMpq c) c r _ _ F1 F2 F3 Ea' Eb' G T NN R eq_refl) as (X & _). destruct (X Pc) as (X1 & _).
  assert (NB : ~ on_bd f p). { intros Z. apply (NW p (0, 0) Z); [apply hull_box; qlra|]. vring. }
  destruct (bd_away f p G NB) as (e1 & E1 & AW). destruct (hull_absorb a b c c' B ltac:(qlra) Cc) as (e2 & E2 & AB). destruct (qmin_spec e1 e2) as (M1 & M2 & M3). exists (qmin e1 e2). split; auto. intros q N I.
  destruct (X1 q I) as [J|(v & d & Hv & Hd & EQ)]; [apply NI; now apply (AW q (near_mono _ _ _ _ M1 N))|]. apply hull_scaled in Hd as (d' & Hd & ->). apply (near_mono _ _ _ _ M2) in N.
  destruct (AB d' (vsub p q) Hd) as (d'' & D'' & ED). { unfold near in *. unfold vsub. cbn [fst snd] in *. rewrite !qabs_lt in *. destruct N as ((N1 & N2) & N3 & N4). repeat split; qlra. }
  apply (NW v d'' Hv D''). rewrite <- ED. rewrite EQ. vring.
Qed.
End I.

(** A position that both sides may take is kept if right after it there are points inside the sheet's slices which the octagon of radius
    1/100 reaches from the boundary of the fingers and a slightly larger octagon than the one of radius 1/1000 does not.  The fingers are
    those of the side over what is ok, grown lengthwise by 1/100; they are assumed to be simple polygons. *)
Theorem irrelevant_kept : forall orc fsqrt a b sp st st', root_ok fsqrt -> a * fsqrt 1 = 1 -> b * fsqrt (zq 2) = 1 ->
  plex_made sp -> plex_clean sp -> legal sp (fst st) -> choose_obviously_irrelevant (segment_arrangement orc) fsqrt st = Ok st' ->
  forall s o sh w f x, side_of sp s -> opposite s sp = Ok o -> Geom2d.dot (is_dir s) (is_dir s) = 1 -> dget String.eqb (is_sheet s) (sp_sheets sp) = Some sh ->
    buffer_q (ok_of (fst st) (is_id s)) (qq 1 100) = Ok w -> make_fingers01 (segment_arrangement orc) s w = Ok f -> tidy f -> no_nesting f ->
    pts (ok_of (fst st) (is_id s)) x -> pts (ok_of (fst st) (is_id o)) x ->
    (forall e, 0 < e -> exists p, x < along s p /\ along s p < x + e /\ ~ on_bd (sh_slices_max sh) p /\ in_geom (sh_slices_max sh) p /\
      (exists v d t, on_bd f v /\ hull (octagon a b) d /\ 0 <= t /\ t < qq 1 100 /\ p = vadd v (vscale t d)) /\
      ~ in_geom f p /\ exists c, qq 1 1000 < c /\ forall v d, on_bd f v -> hull (octagon a b) d -> p <> vadd v (vscale c d)) ->
    pts (ok_of (fst st') (is_id s)) x.
Proof.
  intros orc fsqrt a b sp st st' RO Ea Eb M PC L H s o sh w f x Hs O D1 SH W F Tf Nf P0 P1 HP. destruct (irrelevant_all orc fsqrt sp M st st' (iv_plex sp _ L) H) as (_ & T). destruct (T s Hs) as (v & V & R). clear T H.
  set (A := segment_arrangement orc) in *. set (k' := ok_of (fst st') (is_id s)) in *. clearbody k'. set (sb := fst st) in *. clearbody sb. rename V into H. unfold irrelevant in H. rewrite (iv_plex sp sb L), O in H.
  apply bind_ok in H as (k & Ek & H). apply bind_ok in H as (k1 & Ek1 & H). apply bind_ok in H as (f' & F' & H). apply bind_ok in H as (sh' & SH' & H). apply bind_ok in H as (fb & FB & H). apply bind_ok in H as (o1 & O1 & H).
  apply bind_ok in H as (fb' & FB' & H). apply bind_ok in H as (o2 & O2 & H). apply bind_ok in H as (p & P & H). apply bind_ok in H as (np & NP & H). cbn [bind] in H. apply bind_ok in H as (y & Y & H). apply bind_ok in H as (ko & Eko & H).
  pose proof (is_geom1d_normal _ (legal_iok sp sb _ _ L Ek)) as Nk. pose proof (is_geom1d_normal _ (legal_iok sp sb _ _ L Eko)) as Nko.
  apply dgetr_ok in Ek, Eko, SH'. assert (EK : ok_of sb (is_id s) = k) by (now apply opt_get). assert (EKO : ok_of sb (is_id o) = ko) by (now apply opt_get). rewrite EK in *. rewrite EKO in *. clear EK EKO.
  rewrite SH in SH'. apply some_inv in SH' as <-. rewrite W in Ek1. apply Ok_inv in Ek1 as <-. rewrite F in F'. apply Ok_inv in F' as <-.
  pose proof (is_geom1d_normal _ (is_geom1d_project _ _ _ _ P)) as Np. pose proof (inv_nml _ _ Np NP) as Nnp. pose proof (and_nml _ _ _ Nnp Nk Y) as Ny. pose proof (and_nml _ _ _ Ny Nko H) as Nv.
  rewrite (sub_pts _ _ _ x Nk Nv R), (and_pts _ _ _ x Ny Nko H), (and_pts _ _ _ x Nnp Nk Y), (inv_pts _ _ x Np NP). split; auto. intros ((X & _) & _). apply X. clear X.
  assert (NV : is_dir s <> (0, 0)) by (intros Z; rewrite Z in D1; discriminate D1).
  assert (AL : forall z, shadow (is_dir s) (- is_offs s) z = along s z).
  { intros z. unfold shadow, along. rewrite D1. rewrite <- (qdiv_mul (Geom2d.dot z (is_dir s)) 1) at 1 by discriminate. ring. }
  destruct RO as (F1 & F2 & F3).
  pose proof (fingers_sharp orc _ _ _ F) as Sf. pose proof (proj2 (buffer_sharp orc fsqrt f _ _ fb F1 F2 F3 FB eq_refl) Sf) as Sfb. pose proof (proj2 (buffer_sharp orc fsqrt f _ _ fb' F1 F2 F3 FB' eq_refl) Sf) as Sfb'.
  pose proof (dget_in _ string_eqb_ok _ _ _ SH) as ISH. pose proof (plex_clean_neat sp PC _ _ ISH) as (_ & _ & Nsl). pose proof (and_neat orc _ _ o1 Nsl (sharp_neat _ Sfb) O1) as So1. pose proof (sub_sharp_neat orc _ _ o2 So1 (sharp_neat _ Sfb') O2) as So2.
  destruct (g2_and_ok A _ _ _ (arrangement_sound orc) (proj1 Nsl) (proj1 Sfb) O1) as (_ & _ & M1). destruct (g2_sub_ok A _ _ _ (arrangement_sound orc) (proj1 So1) (proj1 Sfb') O2) as (_ & _ & M2).
  apply (project_dense o2 (is_dir s) (- is_offs s) p So2 NV P x). intros e gs E. destruct (HP e E) as (q & Q1 & Q2 & BSL & ISL & (vv & d & t & Hv & Hd & T0 & T1 & EQ) & NI & c & Cc & NW). rename F into FF.
  assert (P100 : 0 < qq 1 100) by (vm_compute; reflexivity). assert (P1000 : 0 < qq 1 1000) by (vm_compute; reflexivity).
  destruct (proj2 (buffer_open orc fsqrt a b f (qq 1 100) fb (conj F1 (conj F2 F3)) Ea Eb P100 (proj1 Sf) Tf Nf FB) q vv d t Hv Hd T0 T1 EQ) as (e1 & E1 & A1).
  destruct (buffer_away orc fsqrt a b f (qq 1 1000) c fb' q (conj F1 (conj F2 F3)) Ea Eb P1000 Cc (proj1 Sf) Tf Nf FB' NI NW) as (e2 & E2 & A2).
  destruct (qmin_spec (along s q - x) (x + e - along s q)) as (X1 & X2 & X3). destruct (along_near s _ (X3 ltac:(qlra) ltac:(qlra))) as (e3 & E3 & A3).
  destruct (qmin_spec e1 e2) as (Y1 & Y2 & Y3). destruct (qmin_spec (qmin e1 e2) e3) as (Z1 & Z2 & Z3). specialize (Z3 (Y3 E1 E2) E3).
  destruct (near_region q _ (sh_slices_max sh) (gs ++ [f; fb; fb'; o1; o2]) Z3 (proj1 Nsl) BSL) as (z & Nz & Bz & Iz & Oz). exists z. rewrite AL.
  specialize (A3 q z (near_mono _ _ _ _ Z2 Nz)). apply qabs_lt in A3 as (L1 & L2). split; [qlra|]. split; [qlra|]. split; [intros g Hg; apply Oz, in_app_iff; auto|]. split; [apply Oz, in_app_iff; cbn; auto 8|].
  apply (near_mono _ _ _ _ Z1) in Nz. assert (OO : forall g, In g [f; fb; fb'; o1; o2] -> ~ on_bd g z) by (intros g Hg; apply Oz, in_app_iff; auto).
  apply M2; [intros g [<-|[<-|[]]]; apply OO; cbn; auto 8|]. split; [|exact (A2 z (near_mono _ _ _ _ Y2 Nz))].
  apply M1; [intros g [<-|[<-|[]]]; auto; apply OO; cbn; auto 8|]. split; [now apply Iz|]. apply A1; [exact (near_mono _ _ _ _ Y1 Nz)|apply OO; cbn; auto 8].
Qed.
Print Assumptions irrelevant_kept.

(** Non-vacuity: two 20 x 20 sheets joined along 4 mm of an edge.  The slices go on beyond the fingers, so the first sheet keeps the position 1;
    both sheets keep everything. *)
Module KeptEx.
Definition orc0 : list segment -> nat -> nat -> nat := fun _ _ _ => O.
Definition A0 := segment_arrangement orc0.
Definition rect (a b c d : Z) : geom2d := [mkSpwh [(zq a, zq b); (zq a, zq d); (zq c, zq d); (zq c, zq b)] []].
Definition sh n := mkSheet n (rect 0 0 20 20) (rect 0 0 20 20) (rect 0 0 20 20).
Definition sp0 := mkPlex [("s0", sh "s0"); ("s1", sh "s1")]%string [].
Definition fr : frames := fun _ _ => Ok (Some (((1, 0), ((0, 0), [(0, zq 4)])), ((1, 0), ((0, 0), [(0, zq 4)])))).
Definition sp := match create_intersections fr sp0 with Ok sp => sp | Err _ => sp0 end.
Definition fs (q : Qc) : Qc := if qeqb q 1 then 1 else qq 41 29.
Definition id0 := ("s0,s1", "s0")%string.
Definition id1 := ("s0,s1", "s1")%string.
Definition st : hstate := (mkSB sp [("s0", []); ("s1", [])]%string [("s0", rect 0 0 20 20); ("s1", rect 0 0 20 20)]%string [(id0, []); (id1, [])] [(id0, [(Fin 0, Fin (zq 5))]); (id1, [(Fin 0, Fin (zq 10))])], 0%Z).
Definition none := mkSide id0 "" 0 "" (0,0) 0 (0,0) 0 0.
Definition s0 := nth 0 (sp_intersides sp None) none.
Definition s1 := nth 1 (sp_intersides sp None) none.
Definition w : geom1d := [(Fin (- qq 1 100), Fin (zq 5 + qq 1 100))].
Definition ring := [(zq 5 + qq 1 100, zq 4); (zq 5 + qq 1 100, 0); (- qq 1 100, 0); (- qq 1 100, zq 4)].
Definition f : geom2d := [mkSpwh ring []].
Lemma made : plex_made sp /\ plex_clean sp /\ legal sp (fst st) /\ root_ok fs.
Proof.
  assert (R : sharp (rect 0 0 20 20)) by (apply (rect_sharp 0 0 20 20); vm_compute; reflexivity).
  split; [|split; [|split]].
  - exists fr, sp0. split; [|reflexivity]. split; [reflexivity|]. split; [repeat constructor; cbn; intuition discriminate|].
    intros k s [E|[E|[]]]; apply pair_inv in E as (<- & <-); (split; [reflexivity|]); intros K; vm_compute in K; intuition discriminate.
  - intros k s [E|[E|[]]]; apply pair_inv in E as (<- & <-); cbn [sh_face0 sh_face1 sh_slices_max sh]; intros g Hg; assert (g = rect 0 0 20 20) as -> by (destruct Hg as [<-|[<-|[<-|[]]]]; reflexivity); split; apply R.
  - constructor.
    + reflexivity.
    + intros s (k & it & I & Is). destruct I as [E|[]]. apply pair_inv in E as (<- & <-). destruct Is as [<-|[<-|[]]]; vm_compute; auto.
    + assert (N0 : is_geom1d []) by exact (is_geom1d_new [] [] eq_refl). assert (N1 : is_geom1d [(Fin 0, Fin (zq 5))]) by (apply (is_geom1d_new [[NInt 0; NInt 5]]); vm_compute; reflexivity).
      assert (N2 : is_geom1d [(Fin 0, Fin (zq 10))]) by (apply (is_geom1d_new [[NInt 0; NInt 10]]); vm_compute; reflexivity). intros id. unfold chosen_of, ok_of. cbn [st fst sb_ichosen sb_iok dget]. destruct (id2_eqb id id0), (id2_eqb id id1); cbn [opt]; (split; [exact N0|]); assumption.
    + intros s o x _ _ C. unfold chosen_of in C. cbn [st fst sb_ichosen dget] in C. destruct (id2_eqb (is_id s) id0), (id2_eqb (is_id s) id1); destruct C as (i & [] & _).
  - repeat split; vm_compute; reflexivity.
Qed.
Lemma hull_y a b d : b <= a -> 0 < b -> hull (octagon a b) d -> - a <= snd d /\ snd d <= a.
Proof.
  intros B P. induction 1 as [d Hd|x y z _ (X1 & X2) _ (Y1 & Y2) (t & T0 & T1 & ->)].
  - cbn in Hd. repeat destruct Hd as [<-|Hd]; [| | | | | | | |destruct Hd]; cbn [snd]; split; qlra.
  - unfold at_t, vadd, vsub, vscale. cbn [fst snd]. assert (0 <= (1 - t) * (snd x + a)) by (apply mnn; qlra). assert (0 <= t * (snd y + a)) by (apply mnn; qlra). assert (0 <= (1 - t) * (a - snd x)) by (apply mnn; qlra). assert (0 <= t * (a - snd y)) by (apply mnn; qlra). split; qlra.
Qed.
Lemma f_low v : on_bd f v -> snd v <= zq 4.
Proof.
  intros (r & (s & [<-|[]] & [->|[]]) & (e & E & t & T0 & T1 & ->)). apply is_edge_iter in E. cbn in E. repeat destruct E as [<-|E]; [| | | |destruct E]; unfold at_t, vadd, vsub, vscale; cbn [fst snd]; 
    replace (zq 4) with (1 + 1 + 1 + 1) by (apply Qc_is_canon; vm_compute; reflexivity); qlra.
Qed.
End KeptEx.
Example kept_ex : let x := 1 in
  KeptEx.s0 <> KeptEx.none /\ side_of KeptEx.sp KeptEx.s0 /\ opposite KeptEx.s0 KeptEx.sp = Ok KeptEx.s1 /\ Geom2d.dot (is_dir KeptEx.s0) (is_dir KeptEx.s0) = 1 /\
  plex_made KeptEx.sp /\ plex_clean KeptEx.sp /\ legal KeptEx.sp (fst KeptEx.st) /\ root_ok KeptEx.fs /\ 1 * KeptEx.fs 1 = 1 /\ qq 29 41 * KeptEx.fs (zq 2) = 1 /\
  dget String.eqb (is_sheet KeptEx.s0) (sp_sheets KeptEx.sp) = Some (KeptEx.sh "s0"%string) /\
  buffer_q (ok_of (fst KeptEx.st) (is_id KeptEx.s0)) (qq 1 100) = Ok KeptEx.w /\ make_fingers01 KeptEx.A0 KeptEx.s0 KeptEx.w = Ok KeptEx.f /\ tidy KeptEx.f /\ no_nesting KeptEx.f /\
  (forall e, 0 < e -> exists p, x < along KeptEx.s0 p /\ along KeptEx.s0 p < x + e /\ ~ on_bd (KeptEx.rect 0 0 20 20) p /\ in_geom (KeptEx.rect 0 0 20 20) p /\
      (exists v d t, on_bd KeptEx.f v /\ hull (octagon 1 (qq 29 41)) d /\ 0 <= t /\ t < qq 1 100 /\ p = vadd v (vscale t d)) /\
      ~ in_geom KeptEx.f p /\ exists c, qq 1 1000 < c /\ forall v d, on_bd KeptEx.f v -> hull (octagon 1 (qq 29 41)) d -> p <> vadd v (vscale c d)) /\
  (s <- choose_obviously_irrelevant KeptEx.A0 KeptEx.fs KeptEx.st ;; Ok (sb_iok (fst s))) = Ok (sb_iok (fst KeptEx.st)).
Proof.
  assert (EW : buffer_pure (ok_of (fst KeptEx.st) (is_id KeptEx.s0)) (qq 1 100) = KeptEx.w) by (vm_compute; reflexivity).
  intros x. split; [intros E; apply (f_equal is_sheet) in E; vm_compute in E; discriminate E|].
  split; [eexists; eexists; split; [left; reflexivity|left; vm_compute; reflexivity]|].
  split; [vm_compute; reflexivity|]. split; [vm_compute; reflexivity|]. destruct KeptEx.made as (M1 & M2 & M3 & M4). do 4 (split; [assumption|]). split; [vm_compute; reflexivity|]. split; [apply Qc_is_canon; vm_compute; reflexivity|].
  split; [reflexivity|]. split; [vm_compute; reflexivity|]. split; [vm_compute; reflexivity|].
  assert (SR : simple_ring KeptEx.ring) by (apply simple_simple; [apply simpleb_ok; vm_compute; reflexivity|vm_compute; reflexivity]).
  destruct (rect_tidy _ SR) as (T & NN). split; [exact T|]. split; [exact NN|]. split; [|vm_compute; reflexivity].
  intros e E. subst x. destruct (qmin_spec e 1) as (Q1 & Q2 & Q3). specialize (Q3 E ltac:(vm_compute; reflexivity)). set (h := qmin e 1) in *. clearbody h. pose proof (half_pos h Q3) as H0. pose proof (half_lt h Q3) as H1. set (k := h * qq 1 2) in *. clearbody k.
  exists (1 + k, zq 4 + qq 1 200).
  assert (ZZ : zq 4 = 1 + 1 + 1 + 1) by (apply Qc_is_canon; vm_compute; reflexivity). assert (U : 0 < qq 1 200 /\ qq 1 200 + qq 1 200 = qq 1 100 /\ qq 1 100 < 1 /\ qq 1 500 < qq 1 200 /\ 0 < qq 1 500) by (split; [vm_compute; reflexivity|split; [apply Qc_is_canon; vm_compute; reflexivity|repeat split; vm_compute; reflexivity]]).
  destruct U as (U1 & U2 & U3 & U4 & U5). set (u := qq 1 200) in *. clearbody u.
  assert (AL : along KeptEx.s0 (1 + k, zq 4 + u) = 1 + k). { unfold along. replace (is_dir KeptEx.s0) with (1, 0) by (vm_compute; reflexivity). replace (is_offs KeptEx.s0) with 0 by (vm_compute; reflexivity). unfold Geom2d.dot. cbn [fst snd]. field. discriminate. }
  rewrite AL. split; [qlra|]. split; [qlra|].
  assert (BX : 0 < zq 20 /\ 1 + 1 + 1 + 1 + 1 < zq 20) by (split; vm_compute; reflexivity). destruct BX as (BX & BY). assert (N20 : zq 0 <> zq 20) by discriminate. change (zq 0) with 0 in N20.
  destruct (box_region 0 0 (zq 20) (zq 20) N20 N20 (1 + k, zq 4 + u)) as (R1 & R2). cbn [fst snd] in R1, R2. rewrite ZZ in *. unfold strictly_between in *.
  assert (NB : ~ on_boundary (box 0 0 (zq 20) (zq 20)) (1 + k, 1 + 1 + 1 + 1 + u)) by (rewrite R1; intros (_ & N); apply N; split; left; split; qlra).
  split; [|split].
  { intros (r & (s & [<-|[]] & [->|[]]) & B). exact (NB B). }
  { exists (mkSpwh (box 0 0 (zq 20) (zq 20)) []). split; [left; reflexivity|]. split; [|intros ? []]. apply R2; auto. split; left; split; qlra. }
  clear R1 R2 NB. assert (NF : ~ on_bd KeptEx.f (1 + k, 1 + 1 + 1 + 1 + u)) by (intros B; apply KeptEx.f_low in B; rewrite ZZ in B; cbn [snd] in B; qlra). split; [|split].
  - exists (1 + k, zq 4), (0, 1), u. split; [|split; [|split; [|split]]]; [|apply hull_in; cbn; auto|qlra|qlra|unfold vadd, vscale; cbn [fst snd]; rewrite ZZ; apply f_equal2; ring].
    exists KeptEx.ring. split; [exists (mkSpwh KeptEx.ring []); split; [left; reflexivity|left; reflexivity]|]. exists ((- qq 1 100, zq 4), (zq 5 + qq 1 100, zq 4)). split; [apply is_edge_iter; cbn; auto 6|].
    assert (L : 0 < zq 5 + qq 1 100 + qq 1 100) by (vm_compute; reflexivity). set (l := zq 5 + qq 1 100 + qq 1 100) in *. assert (LN : l <> 0) by (intros Z; rewrite Z in L; discriminate L). assert (L1 : 1 + 1 + qq 1 100 < l) by (vm_compute; reflexivity).
    assert (EQ : (1 + k + qq 1 100) / l * l = 1 + k + qq 1 100) by (field; auto). exists ((1 + k + qq 1 100) / l). set (t := (1 + k + qq 1 100) / l) in *. clearbody t. assert (U6 : 0 < qq 1 100) by (vm_compute; reflexivity). assert (EL : l = zq 5 + qq 1 100 + qq 1 100) by reflexivity. clearbody l. split; [|split].
    + destruct (qleb_spec 0 t); auto. exfalso. assert (0 < (- t) * l) by (apply mpp; qlra). qlra.
    + destruct (qleb_spec t 1); auto. exfalso. assert (0 < (t - 1) * l) by (apply mpp; qlra). qlra.
    + unfold at_t, vadd, vsub, vscale. cbn [fst snd]. apply f_equal2; [|ring]. replace (zq 5 + qq 1 100 - - qq 1 100) with l by (rewrite EL; ring). rewrite EQ. ring.
  - intros I. assert (NW : normal KeptEx.w) by (pose proof (buffer_normal (ok_of (fst KeptEx.st) (is_id KeptEx.s0)) (qq 1 100)) as NW; rewrite <- EW; exact NW). destruct (fingers_any KeptEx.A0 KeptEx.s0 KeptEx.w 0 1 KeptEx.f (arrangement_sound _) (made_rot KeptEx.sp _ M1 ltac:(eexists; eexists; split; [left; reflexivity|left; vm_compute; reflexivity])) NW ltac:(vm_compute; reflexivity)) as (_ & _ & X).
    apply X in I as (_ & B); auto. unfold across, offset_at in B. replace (is_normal KeptEx.s0) with ((0, - (1)) : point) in B by (vm_compute; reflexivity). replace (is_min KeptEx.s0) with (- zq 4) in B by (vm_compute; reflexivity). replace (is_max KeptEx.s0) with 0 in B by (vm_compute; reflexivity).
    unfold Geom2d.dot in B. cbn [fst snd] in B. rewrite ZZ in B. set (z := _ / _) in B. replace z with (- (1 + 1 + 1 + 1 + u)) in B by (unfold z; field; discriminate). clear z. destruct B as [(B1 & B2)|(B1 & B2)]; qlra.
  - exists (qq 1 500). split; [vm_compute; reflexivity|]. intros v d Hv Hd EQ. apply KeptEx.hull_y in Hd as (D1 & D2); [|vm_compute; discriminate|vm_compute; reflexivity]. apply KeptEx.f_low in Hv. rewrite ZZ in Hv. apply (f_equal snd) in EQ. unfold vadd, vscale in EQ. cbn [fst snd] in EQ.
    assert (0 <= qq 1 500 * (1 - snd d)) by (apply mnn; qlra). qlra.
Qed.
