(** * The fresh state: positions where both sheets of a joint may have material *)
From Verif.Spec Require Import Plane Region PointSet1 Fingers Crisp.
From Verif.Model Require Import Arrangement2d Geom2d Geom1d Sheetplex Sheetbuild.
From Verif.Proofs Require Import PyP PolyP WindingP WindingR PlanarP ExtOrd DictP Geom1dP Geom1dM NearP Geom2dP Geom2dOps ArrSoundP SheetplexP FingerP SheetbuildP CreateP CoverP CrispP CrispQ BufferP BufSharpQ RunSharpP HeuristicsP TrimP TrimQ.
From Verif.Props Require Import Geom1dProps SheetplexProps Geom2dProps SheetbuildProps JointProps CrispProps RunSharpProps TrimProps.
From Coq Require Import String.
Open Scope Qc_scope.

(** ** one dimension *)
Lemma left_gap w y b : normal w -> In (Fin y, b) w -> exists eps, 0 < eps /\ forall t, 0 < t -> t <= eps -> ~ pts w (y - t).
Proof.
  induction w as [|(u & v) w IH]; intros N I; [destruct I|]. destruct I as [E|I].
  - injection E as -> ->. exists 1. split; [vm_compute; reflexivity|]. intros t T _. rewrite pts_epts. apply (normal_lt_fst (Fin y, b)); auto. change (y - t < y). qlra.
  - pose proof (normal_after _ _ N) as AF. rewrite Forall_forall in AF. specialize (AF _ I). cbn [fst snd] in AF. destruct N as (L & N & _). destruct (IH N I) as (e & E & NP).
    destruct v as [|v|]; [destruct u; destruct L| |destruct AF]. change (v < y) in AF.
    destruct (qmin_spec e (y - v)) as (M1 & M2 & M3). exists (qmin e (y - v)). split; [apply M3; [auto|qlra]|]. intros t T0 T1 (i & [<-|Hi] & J1 & J2).
    + change (y - t < v) in J2. qlra.
    + apply (NP t T0); [qlra|]. exists i. split; auto. split; auto.
Qed.
Lemma inside_of_pts w y eps : normal w -> 0 < eps -> (forall z, qabs (z - y) < eps -> pts w z) -> inside1 w y.
Proof.
  intros N E H. destruct (H y) as ((a & b) & I & J1 & J2); [replace (y - y) with 0 by ring; exact E|]. cbn [fst snd] in *. exists (a, b). split; auto. split; auto. cbn [fst].
  destruct a as [|a|]; [exact Logic.I| |destruct J1]. change (a <= y) in J1. change (a < y). destruct (qeqb_spec a y) as [->|NE]; [|destruct (qc_not_eq _ _ NE); auto; exfalso; qlra].
  exfalso. destruct (left_gap w y b N I) as (e & Ee & NP). destruct (qmin_spec e (eps * qq 1 2)) as (M1 & M2 & M3). assert (Hh : 0 < eps * qq 1 2 /\ eps * qq 1 2 < eps).
  { assert (0 < qq 1 2 /\ qq 1 2 < 1) by (split; vm_compute; reflexivity). split; [apply mpp; tauto|]. assert (0 < eps * (1 - qq 1 2)) by (apply mpp; [auto|qlra]). qlra. }
  specialize (M3 Ee (proj1 Hh)). set (t := qmin e (eps * qq 1 2)) in *. apply (NP t M3 M1). apply H. replace (y - t - y) with (- t) by ring. apply qabs_lt. split; qlra.
Qed.

(** ** the shadow of an inside point is open *)
Lemma shadow_open g vec offs res p : sharp g -> Geom2d.dot vec vec = 1 -> project_to_1d g vec offs = Ok res -> g2_locate g p = Ok 1%Z ->
  exists eps, 0 < eps /\ forall y, qabs (y - (Geom2d.dot p vec + offs)) < eps -> pts res y.
Proof.
  intros S U H L. assert (NV : vec <> (0, 0)) by (intros ->; unfold Geom2d.dot in U; cbn [fst snd] in U; apply (f_equal this) in U; vm_compute in U; discriminate).
  pose proof (projection_is_shadow g vec offs res S NV H) as PS. destruct (crisp_locates g p (proj1 S) (proj1 (proj2 S))) as [(E & _)|[(_ & B & I)|(E & _)]]; [rewrite L in E; discriminate| |rewrite L in E; discriminate].
  destruct (bd_away g p (proj1 S) B) as (e & E & AW). exists e. split; auto. intros y Y. apply PS. intros d D. set (t := y - (Geom2d.dot p vec + offs)) in *.
  exists (fst p + t * fst vec, snd p + t * snd vec). assert (ES : Geom2d.dot (fst p + t * fst vec, snd p + t * snd vec) vec + offs = y).
  { transitivity (Geom2d.dot p vec + offs + t * Geom2d.dot vec vec); [unfold Geom2d.dot; cbn [fst snd]; ring|]. rewrite U. unfold t. ring. }
  rewrite ES. split; [qlra|]. split; [qlra|].
  assert (V1 : qabs (fst vec) <= 1 /\ qabs (snd vec) <= 1).
  { unfold Geom2d.dot in U. assert (S0 : forall u, 0 <= u * u) by (intros u; destruct (qleb_spec 0 u); [apply mnn; auto|replace (u * u) with ((- u) * (- u)) by ring; apply mnn; qlra]).
    assert (K : forall u, u * u <= 1 -> qabs u <= 1).
    { intros u X. destruct (qleb_spec (qabs u) 1) as [|Q]; auto. exfalso. assert (QQ : qabs u * qabs u = u * u) by (destruct (qabs_cases u) as [(_ & ->)|(_ & ->)]; ring). assert (0 < (qabs u - 1) * (qabs u + 1)) by (apply mpp; qlra). qlra. }
    pose proof (S0 (fst vec)). pose proof (S0 (snd vec)). split; apply K; qlra. }
  assert (NE : near e p (fst p + t * fst vec, snd p + t * snd vec)).
  { assert (M : forall v, qabs v <= 1 -> qabs (t * v) < e).
    { intros v V. apply qabs_lt in Y. fold t in Y. assert (V' : - (1) <= v /\ v <= 1) by (destruct (qabs_cases v) as [(? & X)|(? & X)]; rewrite X in V; split; qlra). apply qabs_lt. destruct V'. destruct (qleb_spec 0 t) as [T|T]; [assert (0 <= t * (1 - v)) by (apply mnn; qlra); assert (0 <= t * (1 + v)) by (apply mnn; qlra)|assert (0 <= (- t) * (1 - v)) by (apply mnn; qlra); assert (0 <= (- t) * (1 + v)) by (apply mnn; qlra)]; destruct Y; split; qlra. }
    split; cbn [fst snd]; [replace (fst p + t * fst vec - fst p) with (t * fst vec) by ring|replace (snd p + t * snd vec - snd p) with (t * snd vec) by ring]; apply M; tauto. }
  destruct (AW _ NE) as (B' & I'). destruct (g2_locate_ok g _ (proj1 S) B') as [(R & _)|(_ & R)]; tauto.
Qed.

Lemma qc_inv1 : / 1 = 1.
Proof. apply Qc_is_canon. reflexivity. Qed.
(** ** the positions of a side *)
Section Fresh.
Variable orc : list segment -> nat -> nat -> nat.
Variable fsqrt : Qc -> Qc.
Let A := segment_arrangement orc.
Variable sp : sheetplex.
Hypothesis M : plex_made sp.
Hypothesis PC : plex_clean sp.
Variable rad : pynum.
Variable sb : sbuild.
Hypothesis RO : root_ok fsqrt.
Hypothesis C : create_sheetbuild A fsqrt sp rad = Ok sb.
(** what is wanted of a place of a side: strictly inside the band, within a metre, strictly inside what may be chosen *)
Definition in_reach (s : interside) (p : point) : Prop :=
  is_min s < across s p /\ across s p < is_max s /\ zq (-1000) < along s p /\ along s p < zq 1000 /\ g2_locate (geom_at (sb_sok sb) (is_sheet s)) p = Ok 1%Z.
Lemma side_position s p v : side_of sp s -> frame_ok s -> Geom2d.dot (is_dir s) (is_dir s) = 1 -> in_reach s p -> init_side_ok A sp (sb_sok sb) s = Ok v ->
  exists eps, 0 < eps /\ forall y, qabs (y - along s p) < eps -> pts v y.
Proof.
  intros Hs FO U (B1 & B2 & L1 & L2 & L) H. destruct RO as (F1 & F2 & F3). pose proof (proj2 (create_sharp orc fsqrt F1 F2 F3 sp rad sb (plex_clean_neat sp PC) C (is_sheet s))) as S0.
  unfold init_side_ok in H. apply bind_ok in H as (k & H1 & H). apply bind_ok in H as (sh & H2 & H). apply bind_ok in H as (a & H3 & H). apply bind_ok in H as (r & H4 & H). apply bind_ok in H as (f & H5 & H). apply bind_ok in H as (x & H6 & H).
  apply dgetr_ok in H1. apply geom_at_get in H1. rewrite H1 in *. apply dgetr_ok in H2. pose proof (dget_in _ string_eqb_ok _ _ _ H2) as Ish.
  destruct (span_ok (zq (-1000)) (zq 1000)) as (r' & R1 & Nr & Pr); [vm_compute; discriminate|]. rewrite R1 in H4. apply Ok_inv in H4 as <-.
  assert (Gr : is_geom1d r') by (exists (ENew [[NMpq (zq (-1000)); NMpq (zq 1000)]]); exact R1).
  clear R1. set (lo := zq (-1000)) in *. set (hi := zq 1000) in *. clearbody lo hi.
  pose proof (plex_clean_neat sp PC _ sh Ish) as (_ & _ & Nm). pose proof (and_neat orc _ _ a (sharp_neat _ S0) Nm H3) as Sa. pose proof (fingers_sharp orc s r' f H5) as Sf. pose proof (and_sharp orc a f x Sa Sf H6) as Sx.
  assert (E01 : offset_at s 0 = is_min s /\ offset_at s 1 = is_max s) by (unfold offset_at; split; ring). destruct E01 as (E0 & E1).
  assert (Lf : g2_locate f p = Ok 1%Z).
  { destruct (make_fingers_band orc s r' 0 1 f FO) as (_ & X & _); auto; [rewrite E0, E1; intros E; rewrite E in B1; qlra|]. apply X. split; [|rewrite E0, E1; left; auto].
    apply (inside_of_pts r' _ (qmin (along s p - lo) (hi - along s p)) Nr); destruct (qmin_spec (along s p - lo) (hi - along s p)) as (M1 & M2 & M3); [apply M3; qlra|].
    intros z Z. apply Pr. apply qabs_lt in Z as (Z1 & Z2). split; qlra. }
  assert (W : exists S, forall q, off_segs S q -> in_geom k q -> in_geom (sh_slices_max sh) q).
  { destruct (create_2d A (arrangement_sound orc) fsqrt sp M (plex_clean_geoms _ PC) rad sb C) as (_ & _ & S & X). exists S. intros q Q I. destruct (X q Q) as (_ & X2 & _). specialize (X2 (is_sheet s)). rewrite H1 in X2.
    specialize (X2 I). unfold slices_of in X2. now rewrite H2 in X2. }
  destruct W as (S & W). destruct (op_segs _ _ _ (g2_and_ok A k (sh_slices_max sh) a (arrangement_sound orc) (proj1 S0) (proj1 Nm) H3)) as (S1 & O1). destruct (op_segs _ _ _ (g2_and_ok A a f x (arrangement_sound orc) (proj1 Sa) (proj1 Sf) H6)) as (S2 & O2).
  assert (Lx : g2_locate x p = Ok 1%Z).
  { destruct (sharp_locate x p Sx) as (n & X). rewrite X. f_equal. destruct (crisp_locates x p (proj1 Sx) (proj1 (proj2 Sx))) as [(Z & _)|[(Z & _)|(Z & _)]]; rewrite X in Z; apply Ok_inv in Z as ->; auto; exfalso.
    all: destruct (crisp_locates f p (proj1 Sf) (proj1 (proj2 Sf))) as [(Z & _)|[(_ & NB & If)|(Z & _)]]; [rewrite Lf in Z; discriminate| |rewrite Lf in Z; discriminate];
      destruct (bd_away f p (proj1 Sf) NB) as (e & E & AW); destruct (differ_near x k p _ _ Sx S0 X L ltac:(lia) (S ++ S1 ++ S2) e E) as (q & Nq & Oq & Ik & NIx);
      apply off_segs_app in Oq as (Q0 & Oq); apply off_segs_app in Oq as (Q1 & Q2); apply NIx, (O2 q Q2); split; [apply (O1 q Q1); split; auto|apply (AW q Nq); auto]. }
  destruct (shadow_open x (is_dir s) (- is_offs s) v p Sx U H Lx) as (e & E & Y). exists e. split; auto. intros y Hy. apply Y. unfold along in Hy. rewrite U in Hy.
  assert (ED : Geom2d.dot p (is_dir s) / 1 - is_offs s = Geom2d.dot p (is_dir s) + - is_offs s); [|rewrite <- ED; exact Hy]. set (u := Geom2d.dot p (is_dir s)). clear. unfold Qcdiv. rewrite (qc_inv1 : / 1 = 1). ring.
Qed.

Lemma keep_common s o y : side_of sp s -> opposite s sp = Ok o -> forall l iok iok', (forall t, In t l -> side_of sp t) -> (forall id v, dget id2_eqb id iok = Some v -> is_geom1d v) ->
  foldM (and_opposite sp) l iok = Ok iok' -> pts (opt (dget id2_eqb (is_id s) iok)) y -> pts (opt (dget id2_eqb (is_id o) iok)) y ->
  pts (opt (dget id2_eqb (is_id s) iok')) y /\ pts (opt (dget id2_eqb (is_id o) iok')) y.
Proof.
  intros Hs Ho. destruct (made_opp _ _ M Hs) as (o' & O1 & O2 & Hso & NI & _). rewrite Ho in O1. apply Ok_inv in O1 as <-.
  induction l as [|t l IH]; intros iok iok' HL G H P1 P2; cbn [foldM] in H; [apply Ok_inv in H as <-; auto|]. apply bind_ok in H as (m & F & H).
  unfold and_opposite, iget in F. apply bind_ok in F as (a & F1 & F). apply bind_ok in F as (o1 & F2 & F). apply bind_ok in F as (b & F3 & F). apply bind_ok in F as (r & F4 & F). apply Ok_inv in F as <-. apply dgetr_ok in F1, F3.
  pose proof (is_geom1d_normal _ (G _ _ F1)) as Na. pose proof (is_geom1d_normal _ (G _ _ F3)) as Nb. pose proof (HL t (or_introl eq_refl)) as Ht.
  apply (IH _ _ (fun x X => HL x (or_intror X))) in H; auto.
  - intros id v. rewrite (dget_dset _ id2_eqb_ok). destruct (id2_eqb id (is_id t)); [|now apply G]. intros E. apply some_inv in E as <-. exact (is_geom1d_and _ _ _ (G _ _ F1) (G _ _ F3) F4).
  - rewrite (dget_dset _ id2_eqb_ok). destruct (eqb_case _ id2_eqb_ok (is_id s) (is_id t)) as [(Q & E)|(Q & E)]; rewrite Q; auto. cbn [opt]. rewrite (and_pts a b r y Na Nb F4).
    assert (t = s) by (apply (made_unique sp); auto). subst t. rewrite Ho in F2. apply Ok_inv in F2 as <-. rewrite F1 in P1. rewrite F3 in P2. auto.
  - rewrite (dget_dset _ id2_eqb_ok). destruct (eqb_case _ id2_eqb_ok (is_id o) (is_id t)) as [(Q & E)|(Q & E)]; rewrite Q; auto. cbn [opt]. rewrite (and_pts a b r y Na Nb F4).
    assert (t = o) by (apply (made_unique sp); auto). subst t. rewrite O2 in F2. apply Ok_inv in F2 as <-. rewrite F1 in P2. rewrite F3 in P1. auto.
Qed.
(** a position that both sides reach is ok for both *)
Lemma common_ok s o p q : joint sp s o -> frame_ok s -> frame_ok o -> Geom2d.dot (is_dir s) (is_dir s) = 1 -> Geom2d.dot (is_dir o) (is_dir o) = 1 -> in_reach s p -> in_reach o q -> along s p = along o q ->
  inside1 (ok_of sb (is_id s)) (along s p) /\ inside1 (ok_of sb (is_id o)) (along s p).
Proof.
  intros (Hs & Ho) FS FO U1 U2 R1 R2 E. destruct (made_opp _ _ M Hs) as (o' & O1 & _ & Hso & _). rewrite Ho in O1. apply Ok_inv in O1 as <-.
  pose proof (proj1 (create_inv1 _ _ _ _ _ M C)) as L. pose proof C as C'. apply create_parts in C' as (sc0 & iok & _ & _ & _ & E3 & E4 & _ & P).
  pose proof (dict_of_in _ _ _ _ _ E3) as DI. pose proof (proj2 (dict_of_get _ id2_eqb_ok _ _ _ _ _ E3)) as DG.
  assert (GET : forall t, side_of sp t -> exists v, dget id2_eqb (is_id t) iok = Some v /\ init_side_ok A sp (sb_sok sb) t = Ok v).
  { intros t Ht. assert (K : In (is_id t) (keys iok)) by (apply DI; right; apply in_map; now apply (made_list _ _ M)). apply (dget_some _ id2_eqb_ok) in K as (v & K). exists v. split; auto.
    apply DG in K as [K|(t' & I & Ei & K)]; [discriminate|]. apply (made_list _ _ M) in I. assert (t' = t) by (apply (made_unique sp); auto). now subst. }
  destruct (GET s Hs) as (v & V1 & V2), (GET o Hso) as (w & W1 & W2). destruct (side_position s p v Hs FS U1 R1 V2) as (e1 & P1 & Y1). destruct (side_position o q w Hso FO U2 R2 W2) as (e2 & P2 & Y2). rewrite <- E in Y2.
  destruct (qmin_spec e1 e2) as (M1 & M2 & M3). specialize (M3 P1 P2).
  assert (ALL : forall z, qabs (z - along s p) < qmin e1 e2 -> pts (ok_of sb (is_id s)) z /\ pts (ok_of sb (is_id o)) z).
  { intros z Z. unfold ok_of. refine (keep_common s o z Hs Ho _ _ _ _ _ E4 _ _).
    - intros t I. now apply (made_list _ _ M).
    - intros id x X. apply DG in X as [X|(t & _ & _ & X)]; [discriminate|exact (init_side_geom _ _ _ _ _ X)].
    - rewrite V1. cbn [opt]. apply Y1. qlra.
    - rewrite W1. cbn [opt]. apply Y2. qlra. }
  split; (eapply inside_of_pts; [apply is_geom1d_normal, (iv_normal _ _ L)|exact M3|]); intros z Z; now apply ALL.
Qed.
(** so the material of the two sheets does not meet there *)
Lemma fresh_apart s o p q : joint sp s o -> frame_ok s -> frame_ok o -> Geom2d.dot (is_dir s) (is_dir s) = 1 -> Geom2d.dot (is_dir o) (is_dir o) = 1 -> in_reach s p -> in_reach o q -> along s p = along o q ->
  g2_locate (geom_at (sb_schosen sb) (is_sheet s)) p <> Ok 1%Z /\ g2_locate (geom_at (sb_schosen sb) (is_sheet o)) q <> Ok 1%Z.
Proof.
  intros J FS FO U1 U2 R1 R2 E. destruct (common_ok s o p q J FS FO U1 U2 R1 R2 E) as (I1 & I2). pose proof (proj1 (create_inv1 _ _ _ _ _ M C)) as L.
  destruct J as (Hs & Ho). destruct (made_opp _ _ M Hs) as (o' & O1 & _ & Hso & _). rewrite Ho in O1. apply Ok_inv in O1 as <-.
  destruct (create_2d A (arrangement_sound orc) fsqrt sp M (plex_clean_geoms _ PC) rad sb C) as (_ & _ & S & X).
  assert (ONE : forall t x, side_of sp t -> frame_ok t -> is_min t < across t x -> across t x < is_max t -> inside1 (ok_of sb (is_id t)) (along t x) -> g2_locate (geom_at (sb_schosen sb) (is_sheet t)) x <> Ok 1%Z).
  { intros t x Ht F B1 B2 Ix Lx. destruct RO as (F1 & F2 & F3). pose proof (proj1 (create_sharp orc fsqrt F1 F2 F3 sp rad sb (plex_clean_neat sp PC) C (is_sheet t))) as S0. set (g := geom_at (sb_schosen sb) (is_sheet t)) in *.
    destruct (crisp_locates g x (proj1 S0) (proj1 (proj2 S0))) as [(Z & _)|[(_ & NB & Ig)|(Z & _)]]; [rewrite Lx in Z; discriminate| |rewrite Lx in Z; discriminate]. destruct (bd_away g x (proj1 S0) NB) as (e & Pe & AW).
    destruct (band_open t (ok_of sb (is_id t)) x) as (e' & Pe' & BN); [split; auto; assert (E01 : offset_at t 0 = is_min t /\ offset_at t 1 = is_max t) by (unfold offset_at; split; ring); destruct E01 as (-> & ->); left; auto|].
    destruct (qmin_spec e e') as (M1 & M2 & M3). destruct (near_generic_eps x (qmin e e') [] S (M3 Pe Pe')) as (z & Nz & _ & Oz); [intros ? []|].
    apply (proj2 (proj2 (X z Oz)) t Ht); [apply BN; apply (near_mono (qmin e e')); auto|]. apply (AW z); auto. apply (near_mono (qmin e e')); auto. }
  split; apply ONE; auto; try apply R1; try apply R2. now rewrite <- E.
Qed.
End Fresh.
