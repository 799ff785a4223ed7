(** * What the trimming steps of a run take away: C101 - C105 *)
From Verif.Spec Require Import Plane Region PointSet1 Fingers Crisp Hull Trim.
From Verif.Model Require Import SegmentTree CellMerger Arrangement2d Geom2d Sheetplex Sheetbuild Heuristics Canned.
From Verif.Proofs Require Import PyP PolyP WindingP WindingQ WindingR PlanarP ExtOrd DictP Geom1dP Geom1dM NearP Geom2dP Geom2dOps ArrSoundP ReachP SheetplexP FingerP SheetbuildP CreateP HeuristicsP ClusterP HeuStepsP CrispP CrispQ CoverP RibbonP BufSharpP BufSharpQ RunSharpP TrimP TrimQ.
From Verif.Props Require Import Geom1dProps Primitive2dProps SheetplexProps Geom2dProps SetOpsProps BufferProps AreaProps CannedProps CrispProps BufferExactProps BufferSharpProps JointProps RunSharpProps.
From Coq Require Import String Permutation.
Open Scope Qc_scope.

(** ** C101: remove_loose.  Of what is chosen or ok on a sheet, the polygons that have no point in common with both faces are no longer
    ok; nothing else changes. *)
Theorem loose_removed : forall orc sp st st', plex_made sp -> plex_clean sp -> sb_plex (fst st) = sp -> state_in sharp (fst st) ->
  remove_loose (segment_arrangement orc) st = Ok st' ->
  same_but_sok (fst st) (fst st') /\
  (forall k, ~ In k (keys (sp_sheets sp)) -> geom_at (sb_sok (fst st')) k = geom_at (sb_sok (fst st)) k) /\
  forall k sh, In (k, sh) (sp_sheets sp) -> let ok := geom_at (sb_sok (fst st)) k in exists possible,
    g2_or (segment_arrangement orc) (geom_at (sb_schosen (fst st)) k) ok = Ok possible /\ forall p, off_all [ok; possible] p ->
    let supported w := exists q, off_all [[w]; sh_face0 sh; sh_face1 sh] q /\ in_poly w q /\ in_geom (sh_face0 sh) q /\ in_geom (sh_face1 sh) q in
    (in_geom (geom_at (sb_sok (fst st')) k) p <-> in_geom ok p /\ forall w, In w possible -> in_poly w p -> supported w).
Proof.
  intros orc sp st st' M PC P S H. destruct (loose_all orc sp st st' M P H) as (SB & T & O). split; auto. split; auto. intros k sh I ok. destruct (T k sh I) as (sup & ps & im & SU & PS & IM & SK).
  rewrite (proj2 (made_sheets sp M) k sh I) in PS. exists ps. split; auto. fold ok in PS, SK. destruct (S k) as (Sc & Sk). fold ok in Sk. pose proof (plex_clean_neat sp PC k sh I) as (N0 & N1 & _).
  pose proof (and_neat orc _ _ sup N0 N1 SU) as Ss. pose proof (or_sharp orc _ _ ps Sc Sk PS) as Sp.
  destruct (loose_fold orc (fst st) sh sup ps (proj1 Ss) (proj1 Sp) [] im (Forall_nil _) IM) as (XW & Gi & Mi).
  destruct (g2_sub_ok _ ok im _ (arrangement_sound orc) (proj1 Sk) Gi SK) as (_ & _ & Mk). intros p OP supported.
  assert (N2 : ~ on_bd [] p) by (intros (r & (s & [] & _) & _)). destruct (Mi p N2 ltac:(apply OP; cbn; auto)) as (Ni & M2).
  rewrite Mk by (intros g [<-|[<-|[]]]; auto; apply OP; cbn; auto). rewrite M2. split; intros (I1 & I2); (split; [exact I1|]).
  - intros w Iw J. destruct (XW w Iw) as (x & X). destruct (common_points orc w _ _ sup x (neat_part _ w (sharp_neat _ Sp) Iw) N0 N1 SU X) as [(-> & _)|(_ & E)]; auto.
    exfalso. apply I2. right. exists w. auto.
  - intros [(s & [] & _)|(w & Iw & L & J)]. destruct (common_points orc w _ _ sup [] (neat_part _ w (sharp_neat _ Sp) Iw) N0 N1 SU L) as [(_ & E)|(E & _)]; [|congruence]. exact (E (I2 w Iw J)).
Qed.
Print Assumptions loose_removed.
(** In particular a place stays ok if it can be reached from a point of both faces without leaving the inside of what is chosen or ok. *)
Theorem reachable_kept : forall orc sp st st', plex_made sp -> plex_clean sp -> sb_plex (fst st) = sp -> state_in sharp (fst st) ->
  remove_loose (segment_arrangement orc) st = Ok st' ->
  state_in sharp (fst st') /\
  forall k sh possible p q, In (k, sh) (sp_sheets sp) ->
    g2_or (segment_arrangement orc) (geom_at (sb_schosen (fst st)) k) (geom_at (sb_sok (fst st)) k) = Ok possible ->
    way (fun x => g2_locate possible x = Ok 1%Z) p q -> off_all [sh_face0 sh; sh_face1 sh] q -> in_geom (sh_face0 sh) q -> in_geom (sh_face1 sh) q ->
    g2_locate (geom_at (sb_sok (fst st')) k) p = g2_locate (geom_at (sb_sok (fst st)) k) p.
Proof.
  intros orc sp st st' M PC P S H.
  assert (SS : state_in sharp (fst st')).
  { destruct (loose_all orc sp st st' M P H) as ((_ & EC & _) & T & O). intros k. rewrite EC. split; [apply S|]. destruct (in_dec string_dec k (keys (sp_sheets sp))) as [I|N]; [|rewrite (O k N); apply S].
    apply in_map_iff in I as ((k' & sh) & E & I). cbn [fst] in E. subst k'. destruct (T k sh I) as (sup & ps & im & SU & PS & IM & SK). rewrite (proj2 (made_sheets sp M) k sh I) in PS. destruct (S k) as (Sc & Sk).
    refine (sub_sharp_neat orc _ im _ Sk _ SK). exact (loose_neat orc _ _ _ _ (sharp_neat _ (or_sharp orc _ _ ps Sc Sk PS)) _ _ neat_nil IM). }
  split; auto. intros k sh ps p q I PS W O2 I0 I1. destruct (loose_removed orc sp st st' M PC P S H) as (_ & _ & X). destruct (X k sh I) as (ps' & PS' & MK). rewrite PS in PS'. apply Ok_inv in PS' as <-.
  destruct (S k) as (Sc & Sk). destruct (SS k) as (_ & Sk'). pose proof (or_sharp orc _ _ ps Sc Sk PS) as Sp. set (ok := geom_at (sb_sok (fst st)) k) in *. set (ok' := geom_at (sb_sok (fst st')) k) in *.
  assert (OFF : forall z, off_segs (all_segments ok ++ all_segments ps) z -> off_all [ok; ps] z).
  { intros z Z. apply off_segs_app in Z as (Z1 & Z2). intros g [<-|[<-|[]]] B; apply on_bd_segments in B as (e & Ie & B); [exact (Z1 e Ie B)|exact (Z2 e Ie B)]. }
  destruct (sharp_le ok' ok _ p Sk' Sk (fun z Z J => proj1 (proj1 (MK z (OFF z Z)) J))) as (x & y & Ex & Ey & L). rewrite Ex, Ey. f_equal. destruct (Z.eq_dec x y) as [|NE]; auto. exfalso.
  assert (INS : forall z, g2_locate ps z = Ok 1%Z -> ~ on_bd ps z) by (intros z Z B; destruct (crisp_locates ps z (proj1 Sp) (proj1 (proj2 Sp))) as [(E & _)|[(_ & N & _)|(_ & N & _)]]; try tauto; rewrite Z in E; discriminate).
  assert (Lp : g2_locate ps p = Ok 1%Z) by (inversion W as [? Z|? z ? Z]; subst; auto; apply Z; apply on_seg_end).
  destruct (bd_away ps p (proj1 Sp) (INS p Lp)) as (eps & E & AW). destruct (differ_near ok' ok p x y Sk' Sk Ex Ey ltac:(lia) (all_segments ok ++ all_segments ps) eps E) as (z & N & Oz & Iz & NIz).
  apply NIz. apply MK; auto. split; auto. intros w Iw J. exists q.
  assert (Ip : in_geom ps p) by (destruct (crisp_locates ps p (proj1 Sp) (proj1 (proj2 Sp))) as [(E' & _)|[(_ & _ & ?)|(E' & _)]]; auto; rewrite Lp in E'; discriminate).
  assert (Wz : way (fun x => g2_locate ps x = Ok 1%Z) p z).
  { apply (way_on _ p z z).
    - intros v V. destruct (AW v (near_between eps p z v N V)) as (B & IE). destruct (g2_locate_ok ps v (proj1 Sp) B) as [(R & _)|(_ & R)]; tauto.
    - apply way_here. destruct (AW z N) as (B & IE). destruct (g2_locate_ok ps z (proj1 Sp) B) as [(R & _)|(_ & R)]; tauto. }
  assert (Lq : g2_locate ps q = Ok 1%Z) by (clear -W; induction W; auto).
  assert (Jq : in_poly w q) by (apply (way_piece ps w p q Sp Iw W), (way_piece ps w p z Sp Iw Wz), J). split; [|auto].
  intros g [<-|[<-|[<-|[]]]]; [|apply O2; cbn; auto|apply O2; cbn; auto]. intros (r & (s & [<-|[]] & Hr) & B). apply (INS q Lq). exists r. split; auto. exists w. auto.
Qed.
Print Assumptions reachable_kept.

(** ** C102: project_to_1d is the shadow of the geometry: a position is in the result iff points inside the geometry are found over it or
    right after it. *)
Theorem projection_is_shadow : forall g vec offs res, sharp g -> vec <> (0, 0) -> project_to_1d g vec offs = Ok res ->
  forall y, pts res y <-> forall e, 0 < e -> exists p, y <= Geom2d.dot p vec + offs /\ Geom2d.dot p vec + offs < y + e /\ g2_locate g p = Ok 1%Z.
Proof.
  intros g vec offs res S NV H y. rewrite (project_dense g vec offs res S NV H y). split.
  - intros X e E. destruct (X e [] E) as (p & L1 & L2 & _ & B & I). exists p. split; auto. split; auto. destruct (g2_locate_ok g p (proj1 S) B) as [(Z & _)|(_ & Z)]; tauto.
  - intros X e gs E. destruct (X _ (half_pos e E)) as (p & L1 & L2 & L). destruct (crisp_locates g p (proj1 S) (proj1 (proj2 S))) as [(Z & _)|[(_ & B & I)|(Z & _)]]; [rewrite L in Z; discriminate| |rewrite L in Z; discriminate].
    destruct (shifted_inside g vec offs p (y + e) gs (proj1 S) NV B) as (q & Q1 & Q2 & O & B' & I'); [unfold shadow; pose proof (half_lt e E); qlra|].
    exists q. split; [unfold shadow in *; qlra|]. repeat (split; auto).
Qed.
Print Assumptions projection_is_shadow.

(** ** C103: update_intersection_ok.  A position stays ok for a side iff it was and the finger band has, over or right after every position
    within 1/1000 of it, a point inside what is ok on the sheet.  Nothing else changes. *)
Theorem ok_ranges_supported : forall orc sp st st', plex_made sp -> legal sp (fst st) -> state_in sharp (fst st) ->
  update_intersection_ok (segment_arrangement orc) st = Ok st' ->
  same_but_iok (fst st) (fst st') /\
  forall s, side_of sp s -> Geom2d.dot (is_dir s) (is_dir s) = 1 -> forall x,
    pts (ok_of (fst st') (is_id s)) x <-> pts (ok_of (fst st) (is_id s)) x /\
    forall y e, x - qq 1 1000 <= y -> y <= x + qq 1 1000 -> 0 < e -> exists p, y <= along s p /\ along s p < y + e /\
      strictly_between (offset_at s 0) (across s p) (offset_at s 1) /\ g2_locate (geom_at (sb_sok (fst st)) (is_sheet s)) p = Ok 1%Z.
Proof.
  intros orc sp st st' M L S H. destruct (iok_all orc sp st st' M (iv_plex sp (fst st) L) H) as (SB & R & _). split; auto. intros s Hs D1 x.
  exact (proj2 (ranged_ok orc (fst st) s _ _ (made_rot sp s M Hs) D1 (is_geom1d_normal _ (proj2 (iv_normal sp _ L (is_id s)))) (proj2 (S (is_sheet s))) (R s Hs)) x).
Qed.
Print Assumptions ok_ranges_supported.

(** ** C104: update_sheet_ok.  A place stops being ok only within sqrt(K)/500 of a place that a finger of some side of the sheet or of its
    opposite may cover, but that is strictly inside no finger that a side of the sheet may have; and only if it is not inside what is
    chosen.  K is 1.0003 for the roots of the code.  Nothing becomes ok and nothing but sheet_ok changes. *)
Theorem sheet_ok_narrowed : forall orc fsqrt K sp st st', root_ok fsqrt -> 1 <= K * (fsqrt 1 * fsqrt 1) -> zq 2 <= K * (fsqrt (zq 2) * fsqrt (zq 2)) ->
  plex_made sp -> legal sp (fst st) -> state_in sharp (fst st) -> update_sheet_ok (segment_arrangement orc) fsqrt st = Ok st' ->
  same_but_sok (fst st) (fst st') /\ state_in sharp (fst st') /\
  forall k, In k (keys (sp_sheets sp)) -> let ok := geom_at (sb_sok (fst st)) k in let ok' := geom_at (sb_sok (fst st')) k in forall p,
    (g2_locate ok' p = Ok 1%Z -> g2_locate ok p = Ok 1%Z) /\
    (g2_locate ok p = Ok 1%Z -> g2_locate ok' p <> Ok 1%Z -> g2_locate (geom_at (sb_schosen (fst st)) k) p <> Ok 1%Z /\
     exists z s o w, dist2 p z <= K * (qq 2 1000 * qq 2 1000) /\ side_of sp s /\ is_sheet s = k /\ opposite s sp = Ok o /\
       g_or (ok_of (fst st) (is_id s)) (ok_of (fst st) (is_id o)) = Ok w /\ on_band s w z /\
       forall t, side_of sp t -> is_sheet t = k -> ~ in_band t (ok_of (fst st) (is_id t)) 0 1 z).
Proof.
  intros orc fsqrt K sp st st' RO K1 K2 M L S H. destruct (sok_all orc fsqrt sp M st st' (iv_plex sp _ L) H) as (SB & T & O). split; auto.
  assert (N : forall k sh, In (k, sh) (sp_sheets sp) -> sh_id sh = k) by (intros k sh I; exact (proj2 (made_sheets sp M) k sh I)). split.
  - intros k. rewrite (proj1 (proj2 SB)). split; [apply S|]. destruct (in_dec string_dec k (keys (sp_sheets sp))) as [I|NI]; [|rewrite (O k NI); apply S].
    apply in_map_iff in I as ((k' & sh) & E & I). cbn [fst] in E. subst k'. pose proof (T k sh I) as TK. rewrite <- (N k sh I) in *. exact (proj1 (narrowed_ok orc fsqrt sp M K (fst st) sh _ RO K1 K2 L S TK)).
  - intros k I ok ok' p. apply in_map_iff in I as ((k' & sh) & E & I). cbn [fst] in E. subst k'. pose proof (T k sh I) as TK. pose proof (N k sh I) as <-. destruct (proj2 (narrowed_ok orc fsqrt sp M K (fst st) sh _ RO K1 K2 L S TK) p) as (X1 & X2).
    split; auto. intros E NE. destruct (X2 E NE) as (NC & z & s & w & D & Hs & Es & (o & Oo & W) & B & NB). split; auto. exists z, s, o, w. auto 9.
Qed.
Print Assumptions sheet_ok_narrowed.

(** ** C105: choose_obviously_irrelevant.  A side gives up only positions that the opposite side may take; a position that both may take
    is kept only if, over or right after it, there is a point inside the sheet's slices within sqrt(K)/100 of the side's finger band
    grown lengthwise by 1/100.  Nothing but intersection_ok changes. *)
Theorem irrelevant_given_up : forall orc fsqrt K sp st st', root_ok fsqrt -> 1 <= K * (fsqrt 1 * fsqrt 1) -> zq 2 <= K * (fsqrt (zq 2) * fsqrt (zq 2)) ->
  plex_made sp -> plex_clean sp -> legal sp (fst st) -> choose_obviously_irrelevant (segment_arrangement orc) fsqrt st = Ok st' ->
  same_but_iok (fst st) (fst st') /\
  forall s o, side_of sp s -> opposite s sp = Ok o -> Geom2d.dot (is_dir s) (is_dir s) = 1 ->
    let ok := ok_of (fst st) (is_id s) in let ok' := ok_of (fst st') (is_id s) in let oko := ok_of (fst st) (is_id o) in forall x,
    (pts ok' x -> pts ok x) /\ (pts ok x -> ~ pts oko x -> pts ok' x) /\
    (pts ok' x -> pts oko x -> forall e, 0 < e -> exists sh w p z, dget String.eqb (is_sheet s) (sp_sheets sp) = Some sh /\ buffer_q ok (qq 1 100) = Ok w /\
       x <= along s p /\ along s p < x + e /\ g2_locate (sh_slices_max sh) p = Ok 1%Z /\ dist2 p z <= K * (qq 1 100 * qq 1 100) /\ on_band s w z).
Proof.
  intros orc fsqrt K sp st st' RO K1 K2 M PC L H. destruct (irrelevant_all orc fsqrt sp M st st' (iv_plex sp _ L) H) as (SB & T). split; auto. intros s o Hs Oo D1 ok ok' oko x. destruct (T s Hs) as (v & V & KE).
  destruct (irrelevant_ok orc fsqrt sp M K (fst st) s o v _ RO K1 K2 PC L Hs Oo D1 V KE x) as (X1 & X2 & X3). split; auto. split; auto. intros P1 P2 e E. destruct (X3 P1 P2 e E) as (sh & p & z & Y). exists sh, (buffer_pure ok (qq 1 100)), p, z.
  split; [apply Y|]. split; [apply buffer_q_ok|]. apply Y.
Qed.
Print Assumptions irrelevant_given_up.

(** The hypotheses hold of two 20 x 20 sheets joined along 4 mm of an edge, with what follows ok and nothing chosen: of the first sheet the
    5 x 20 part next to x = 0 and a piece off the faces, of the second all; the positions 0 - 5 and 0 - 10.  The piece off the faces is
    loose; the positions within 1/1000 of the ends of what is ok are not supported; the band over 5 - 10 stops being ok on the first
    sheet. *)
Section Ex.
Let orc0 : list segment -> nat -> nat -> nat := fun _ _ _ => O.
Let A0 := segment_arrangement orc0.
Let rect (a b c d : Z) : geom2d := [mkSpwh [(zq a, zq b); (zq a, zq d); (zq c, zq d); (zq c, zq b)] []].
Let sh n := mkSheet n (rect 0 0 20 20) (rect 0 0 20 20) (rect 0 0 20 20).
Let sp0 := mkPlex [("s0", sh "s0"); ("s1", sh "s1")]%string [].
Let fr : frames := fun _ _ => Ok (Some (((1, 0), ((0, 0), [(0, zq 4)])), ((1, 0), ((0, 0), [(0, zq 4)])))).
Let sp := match create_intersections fr sp0 with Ok sp => sp | Err _ => sp0 end.
Let fs (q : Qc) : Qc := if qeqb q 1 then 1 else qq 41 29.
Let id0 := ("s0,s1", "s0")%string.
Let id1 := ("s0,s1", "s1")%string.
Let two := match g2_or A0 (rect 0 0 7 20) (rect 30 30 32 32) with Ok g => g | Err _ => [] end.
Let st : hstate := (mkSB sp [("s0", []); ("s1", [])]%string [("s0", two); ("s1", rect 0 0 20 20)]%string [(id0, []); (id1, [])] [(id0, [(Fin 0, Fin (zq 5))]); (id1, [(Fin 0, Fin (zq 10))])], 0%Z).
Let at_ (st : hstate) k p := g2_locate (geom_at (sb_sok (fst st)) k) p.
Lemma trim_st : plex_made sp /\ plex_clean sp /\ legal sp (fst st) /\ state_in sharp (fst st) /\ root_ok fs.
Proof.
  assert (R : sharp (rect 0 0 20 20)) by (apply (rect_sharp 0 0 20 20); vm_compute; reflexivity).
  split; [|split; [|split; [|split]]].
  - exists fr, sp0. split; [|reflexivity]. split; [reflexivity|]. split; [repeat constructor; cbn; intuition discriminate|].
    intros k s [E|[E|[]]]; apply pair_inv in E as (<- & <-); (split; [reflexivity|]); intros K; vm_compute in K; intuition discriminate.
  - intros k s [E|[E|[]]]; apply pair_inv in E as (<- & <-); cbn [sh_face0 sh_face1 sh_slices_max sh]; intros g Hg; assert (g = rect 0 0 20 20) as -> by (destruct Hg as [<-|[<-|[<-|[]]]]; reflexivity); split; apply R.
  - constructor.
    + reflexivity.
    + intros s (k & it & I & Is). destruct I as [E|[]]. apply pair_inv in E as (<- & <-). destruct Is as [<-|[<-|[]]]; vm_compute; auto.
    + assert (N0 : is_geom1d []) by exact (is_geom1d_new [] [] eq_refl). assert (N1 : is_geom1d [(Fin 0, Fin (zq 5))]) by (apply (is_geom1d_new [[NInt 0; NInt 5]]); vm_compute; reflexivity).
      assert (N2 : is_geom1d [(Fin 0, Fin (zq 10))]) by (apply (is_geom1d_new [[NInt 0; NInt 10]]); vm_compute; reflexivity). intros id. unfold chosen_of, ok_of. cbn [st fst sb_ichosen sb_iok dget]. destruct (id2_eqb id id0), (id2_eqb id id1); cbn [opt]; (split; [exact N0|]); assumption.
    + intros s o x _ _ C. unfold chosen_of in C. cbn [st fst sb_ichosen dget] in C. destruct (id2_eqb (is_id s) id0), (id2_eqb (is_id s) id1); destruct C as (i & [] & _).
  - intros k. unfold geom_at. cbn [st fst sb_schosen sb_sok dget]. split.
    + destruct (String.eqb k "s0"); [apply sharp_nil|]. destruct (String.eqb k "s1"); apply sharp_nil.
    + destruct (String.eqb k "s0"); [|destruct (String.eqb k "s1"); [exact R|apply sharp_nil]]. cbn [opt]. assert (E : g2_or A0 (rect 0 0 7 20) (rect 30 30 32 32) = Ok two) by (vm_compute; reflexivity). refine (or_sharp orc0 _ _ two _ _ E); [apply (rect_sharp 0 0 7 20); vm_compute; reflexivity|]. apply (rect_sharp 30 30 32 32). vm_compute; reflexivity.
  - repeat split; vm_compute; reflexivity.
Qed.
Example trim_ex :
  (s <- remove_loose A0 st ;; x <- at_ s "s0"%string (zq 5, 1) ;; y <- at_ s "s0"%string (zq 31, zq 31) ;; Ok (x, y)) = Ok (1, -1)%Z /\
  (s <- update_intersection_ok A0 st ;; Ok (sb_iok (fst s))) = Ok [(id0, [(Fin (qq 1 1000), Fin (zq 5))]); (id1, [(Fin (qq 1 1000), Fin (zq 10))])] /\
  (s <- update_sheet_ok A0 fs st ;; x <- at_ s "s0"%string (zq 4, 1) ;; y <- at_ s "s0"%string (zq 6, 1) ;; Ok (x, y)) = Ok (1, -1)%Z.
Proof. split; [vm_compute; reflexivity|]. split; vm_compute; reflexivity. Qed.
End Ex.
