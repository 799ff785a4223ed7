(** * Property C132: which side gets the fingers of a range *)
From Verif.Spec Require Import PointSet1 Tiling.
From Verif.Model Require Import Heuristics.
From Verif.Proofs Require Import PyP WindingR CoverP ExtOrd DictP Geom1dP Geom1dM SheetplexP FingerP SheetbuildP HeuristicsP ClusterP HeuStepsP.
From Verif.Props Require Import Geom1dProps SheetplexProps SheetbuildProps HeuristicsProps AssignProps.
From Coq Require Import String.
Open Scope Qc_scope.

Lemma count_best odd len mn mx a b : 0 < len -> 0 < mn -> 0 < mx -> count_range odd len mn mx = Ok (a, b) ->
  forall n, Z.odd n = negb odd -> (mn * zq n <= len -> (n <= b)%Z) /\ (len <= mx * zq n -> (a <= n)%Z).
Proof.
  intros HL Hmn Hmx H n On. unfold count_range, qdivr in H. destruct (qeqb_spec mx 0) as [->|N1]; [exfalso; qlra|]. destruct (qeqb_spec mn 0) as [->|N2]; [exfalso; qlra|]. cbn [bind] in H. apply Ok_inv in H.
  pose proof (qdiv_mul len mx N1) as D1. pose proof (qdiv_mul len mn N2) as D2.
  destruct (np_ceil_spec (len / mx)) as (C1 & C2). destruct (np_floor_spec (len / mn)) as (F1 & F2). set (a' := np_ceil (len / mx)) in *. set (b' := np_floor (len / mn)) in *.
  assert (B : mn * zq n <= len -> (n <= b')%Z).
  { intros X. destruct (Z.le_gt_cases n b') as [|G]; auto. exfalso. assert (G' : (b' + 1 <= n)%Z) by lia. apply zq_le in G'. set (y := len / mn) in *. clearbody y. clear - X G' F2 D2 Hmn. assert (0 < mn * (zq n - y)) by (apply mpp; qlra). qlra. }
  assert (C : len <= mx * zq n -> (a' <= n)%Z).
  { intros X. destruct (Z.le_gt_cases a' n) as [|G]; auto. exfalso. assert (G' : (n <= a' - 1)%Z) by lia. apply zq_le in G'. set (y := len / mx) in *. clearbody y. clear - X G' C2 D1 Hmx. assert (0 < mx * (y - zq n)) by (apply mpp; qlra). qlra. }
  clearbody a' b'. clear C1 C2 F1 F2 D1 D2.
  pose proof (Z.mod_pos_bound a' 2 ltac:(lia)) as Ma. pose proof (Z.mod_pos_bound b' 2 ltac:(lia)) as Mb. pose proof (Zmod_odd a') as Oa. pose proof (Zmod_odd b') as Ob.
  assert (EV : forall m, Z.odd m <> Z.odd n -> n <> m) by (intros m X ->; congruence).
  destruct odd; apply pair_inv in H as (<- & <-); cbn [negb] in On; rewrite On in EV; (split; [intros X; apply B in X|intros X; apply C in X]).
  - destruct (Z.odd b') eqn:E; rewrite Ob; [|lia]. pose proof (EV b' ltac:(congruence)). lia.
  - destruct (Z.odd a') eqn:E; rewrite Oa; [|lia]. pose proof (EV a' ltac:(congruence)). lia.
  - destruct (Z.odd b') eqn:E; rewrite Ob; [lia|]. pose proof (EV b' ltac:(congruence)). lia.
  - destruct (Z.odd a') eqn:E; rewrite Oa; [lia|]. pose proof (EV a' ltac:(congruence)). lia.
Qed.
Lemma on_side_inv (start : Qc) l : forall cur side (x : Qc), on_side_pts start l cur side x <-> exists j a b, nth_error l j = Some (a, b) /\ start + a <= x /\ x < start + b /\ side = xorb cur (Nat.odd j).
Proof.
  induction l as [|(u, v) l IH]; intros cur side x; cbn [on_side_pts].
  - split; [intros []|]. intros ([|j] & a & b & E & _); discriminate E.
  - rewrite IH. split.
    + intros [(E & X)|(j & a & b & E & X1 & X2 & SS)].
      * exists O, u, v. split; [reflexivity|]. split; [apply X|]. split; [apply X|]. change (Nat.odd 0) with false. now rewrite Bool.xorb_false_r.
      * exists (S j), a, b. split; [exact E|]. split; auto. split; auto. rewrite SS. rewrite Nat.odd_succ, <- Nat.negb_odd. destruct cur, (Nat.odd j); reflexivity.
    + intros ([|j] & a & b & E & X1 & X2 & SS).
      * apply some_inv, pair_inv in E as (-> & ->). left. change (Nat.odd 0) with false in SS. rewrite Bool.xorb_false_r in SS. auto.
      * right. exists j, a, b. split; [exact E|]. split; auto. split; auto. rewrite SS. rewrite Nat.odd_succ, <- Nat.negb_odd. destruct cur, (Nat.odd j); reflexivity.
Qed.

(** how much of [a, b) the side [s] has chosen *)
Definition chosen_len (sb : sbuild) (s : interside) (a b : Qc) (m : ext) : Prop := exists e x, Geom1D [[NMpq a; NMpq b]] = Ok e /\ g_and (chosen_of sb (is_id s)) e = Ok x /\ measure1d x = Some m.
(** within [a, b) side 1 has chosen more than side 0 *)
Definition more_1 (sb : sbuild) (s0 s1 : interside) (a b : Qc) (on : bool) : Prop := exists m0 m1, chosen_len sb s0 a b m0 /\ chosen_len sb s1 a b m1 /\ (on = true <-> elt m0 m1).
Lemma more_ok sp sb s0 s1 a b on : legal sp sb -> a <= b -> more_on_1 sb s0 s1 (Fin a, Fin b) = Ok on -> more_1 sb s0 s1 a b on.
Proof.
  intros L AB H. unfold more_on_1 in H. apply bind_ok in H as (e & E & H). apply bind_ok in H as (c0 & C0 & H). apply bind_ok in H as (x0 & X0 & H). apply bind_ok in H as (c1 & C1 & H). apply bind_ok in H as (x1 & X1 & H). apply Ok_inv in H.
  change (Geom1D [[NMpq a; NMpq b]] = Ok e) in E. destruct (span_ok a b AB) as (e' & E' & Ne & _). rewrite E in E'. apply Ok_inv in E' as <-.
  pose proof (is_geom1d_normal _ (legal_ich sp _ _ _ L C0)) as N0. pose proof (is_geom1d_normal _ (legal_ich sp _ _ _ L C1)) as N1. apply dgetr_ok in C0, C1.
  assert (E0 : chosen_of sb (is_id s0) = c0) by now apply opt_get. assert (E1 : chosen_of sb (is_id s1) = c1) by now apply opt_get.
  pose proof (measure_mes _ (and_nml _ _ _ N0 Ne X0)) as M0. pose proof (measure_mes _ (and_nml _ _ _ N1 Ne X1)) as M1. rewrite M0, M1 in H. cbn [opt_ltb] in H.
  exists (mes x0), (mes x1). split; [exists e, x0; rewrite E0; auto|]. split; [exists e, x1; rewrite E1; auto|]. rewrite <- H. destruct (eltb_spec (mes x0) (mes x1)); split; auto; discriminate.
Qed.

(** [on0], [on1]: within 2 of the range, before and after it, side 1 has chosen more.
    If no number of fingers of the right parity fits, side 0 gets the range.  Otherwise the fingers alternate; the first is for the side
    that has less before the range. *)
Theorem range_fingers : forall A R mn mx sp s0 s1 sb k start end_ sb' k', rng_ok R -> 0 < mn -> mn <= mx -> start < end_ -> plex_made sp -> legal sp sb -> joint sp s0 s1 ->
  fingers_range A idq R mn mx s0 s1 (sb, k) (Fin start, Fin end_) = Ok (sb', k') ->
  exists on0 on1, more_1 sb s0 s1 (start - zq 2) start on0 /\ more_1 sb s0 s1 end_ (end_ + zq 2) on1 /\
  let fits n := Z.odd n = Bool.eqb on0 on1 /\ mn * zq n <= end_ - start /\ end_ - start <= mx * zq n in
  let gives s l := forall x, pts (chosen_of sb' (is_id s)) x <-> pts (chosen_of sb (is_id s)) x \/ exists u v, In (u, v) l /\ u <= x /\ x < v in
  ((forall n, ~ fits n) /\ gives s0 [(start, end_)] /\ gives s1 []) \/
  (exists n l lo hi, (lo <= n <= hi)%Z /\ fits lo /\ fits hi /\ (forall m, fits m -> lo <= m <= hi)%Z /\ List.length l = Z.to_nat n /\ chain start l end_ /\ (forall u v, In (u, v) l -> mn <= v - u <= mx) /\
     (forall s, s = s0 \/ s = s1 -> forall x, pts (chosen_of sb' (is_id s)) x <-> pts (chosen_of sb (is_id s)) x \/
        exists j u v, nth_error l j = Some (u, v) /\ u <= x /\ x < v /\ (s = s1 <-> Nat.odd j = on0))).
Proof.
  intros A R mn mx sp s0 s1 sb k start end_ sb' k' RO M1 M2 SE M L J H. cbn [fingers_range] in H. apply bind_ok in H as (g & G & H). apply bind_ok in H as (on0 & O0 & H). apply bind_ok in H as (on1 & O1 & H).
  apply bind_ok in H as ((pl & k1) & PL & H). assert (Z2 : 0 <= zq 2) by (vm_compute; discriminate).
  apply (more_ok sp) in O0; [|auto|qlra]. apply (more_ok sp) in O1; [|auto|qlra]. exists on0, on1. split; [auto|]. split; [auto|]. intros fits gives.
  assert (EQ : Bool.eqb on0 on1 = negb (xorb on0 on1)) by (destruct on0, on1; reflexivity).
  pose proof J as (Hs & Ho). destruct (made_opp sp s0 M Hs) as (o & OP & OP' & Hs1 & NE & _). rewrite Ho in OP. apply Ok_inv in OP as <-. pose proof (iv_plex sp sb L) as EP.
  assert (ONE : forall b s v b', legal sp b -> side_of sp s -> is_geom1d v -> choose_interside A b (is_id s) v false = Ok b' -> legal sp b' /\ (forall x, pts (chosen_of b' (is_id s)) x <-> pts (chosen_of b (is_id s)) x \/ pts v x) /\ forall j, j <> is_id s -> chosen_of b' j = chosen_of b j).
  { intros b s v b' Lb Sb V C. split; [exact (legal_steps A sp M b b' Lb (one_choose A (Kc:=geoms_of A) b _ v false b' V C))|]. assert (M' : plex_made (sb_plex b)) by now rewrite (iv_plex sp b Lb).
    destruct (choose_local A b (is_id s) v false b' M' (legal_legal1 sp b Lb) V C) as (s' & o' & _ & _ & _ & C1 & C2 & _). split; [exact C2|]. intros j NJ. now apply (only_of _ _ _ _ C1). }
  destruct (plan_inv R mn mx on0 on1 start end_ k RO SE M1 M2) as (a & b & EC & PI). assert (L0 : 0 < end_ - start) by qlra. assert (M3 : 0 < mx) by qlra.
  pose proof (count_best _ _ mn mx a b L0 M1 M3 EC) as CB. destruct (count_range_ok (xorb on0 on1) _ mn mx L0 M1 M3) as (a' & b' & EC' & A1 & A2 & A3 & A4 & A5). rewrite EC in EC'. apply Ok_inv, pair_inv in EC' as (<- & <-).
  destruct PI as [(BA & E)|(n & l & k2 & f0 & f1 & N1 & N2 & LN & CH & W & E & _ & _ & P0 & P1)]; rewrite E in PL; apply Ok_inv, pair_inv in PL as (<- & <-).
  - left. apply bind_ok in H as (sb1 & C1 & H). apply Ok_inv, pair_inv in H as (<- & <-). split.
    + intros n (F1 & F2 & F3). rewrite EQ in F1. destruct (CB n F1) as (X1 & X2). specialize (X1 F2). specialize (X2 F3). lia.
    + destruct (ONE _ _ _ _ L Hs (is_geom1d_new _ _ G) C1) as (_ & X1 & X2). assert (LE : start <= end_) by qlra. destruct (span_ok start end_ LE) as (g' & G' & _ & P). change (Geom1D [[NMpq start; NMpq end_]] = Ok g) in G. rewrite G in G'. apply Ok_inv in G' as <-.
      split; [intros x; rewrite X1, P; split; (intros [X|X]; [auto|right]); [exists start, end_; split; [left; reflexivity|exact X]|destruct X as (u & v & [X|[]] & Y); apply pair_inv in X as (<- & <-); exact Y]|].
      intros x. rewrite X2 by congruence. split; [auto|intros [X|(u & v & [] & _)]; auto].
  - right. apply bind_ok in H as (sb1 & C1 & H). apply bind_ok in H as (sb2 & C2 & H). apply Ok_inv, pair_inv in H as (<- & <-). destruct (plan_geom _ _ _ _ _ _ _ _ _ _ _ _ E) as (G0 & G1).
    destruct (ONE _ _ _ _ L Hs G0 C1) as (L1 & X1 & X2). destruct (ONE _ _ _ _ L1 Hs1 G1 C2) as (_ & Y1 & Y2). clear ONE.
    assert (RIGHT : Z.odd a = Bool.eqb on0 on1 /\ Z.odd b = Bool.eqb on0 on1) by (rewrite EQ; auto). assert (AB : (a <= b)%Z) by lia.
    exists n, (map (fun s => (start + fst s, start + snd s)) l), a, b. split; [lia|].
    assert (UP : end_ - start <= mx * zq b) by (apply zq_le in AB; assert (0 <= mx * (zq b - zq a)) by (apply mnn; qlra); qlra). assert (DN : mn * zq a <= end_ - start) by (apply zq_le in AB; assert (0 <= mn * (zq b - zq a)) by (apply mnn; qlra); qlra).
    split; [split; [apply RIGHT|split; auto]|]. split; [split; [apply RIGHT|split; auto]|]. split; [intros m (F1 & F2 & F3); rewrite EQ in F1; destruct (CB m F1) as (Q1 & Q2); split; auto|].
    split; [rewrite map_length; exact LN|]. split.
    { clear -CH. revert CH. replace start with (start + 0) at 2 by ring. replace end_ with (start + (end_ - start)) at 2 by ring. generalize 0 (end_ - start). induction l as [|(u, v) l IH]; intros a b; cbn [chain map fst snd]; [intros ->; reflexivity|]. intros (-> & C). split; [reflexivity|auto]. }
    split. { intros u v I. apply in_map_iff in I as ((p & q) & I & J'). cbn [fst snd] in I. apply pair_inv in I as (<- & <-). destruct (W _ J') as (W1 & W2). cbn [fst snd] in W1, W2. split; qlra. }
    assert (SP : forall side x, on_side_pts start l (negb on0) side x <-> exists j u v, nth_error (map (fun s => (start + fst s, start + snd s)) l) j = Some (u, v) /\ u <= x /\ x < v /\ side = xorb (negb on0) (Nat.odd j)).
    { intros side x. rewrite on_side_inv. split; intros (j & u & v & EN & Q1 & Q2 & Q3).
      - exists j, (start + u), (start + v). split; [rewrite nth_error_map, EN; reflexivity|auto].
      - rewrite nth_error_map in EN. destruct (nth_error l j) as [(p & q)|] eqn:EJ; [|discriminate EN]. apply some_inv, pair_inv in EN as (<- & <-). exists j, p, q. auto. }
    assert (NS : s0 <> s1) by congruence. intros s [-> | ->] x.
    + rewrite (Y2 (is_id s0)) by congruence. rewrite X1, P0, SP. split; (intros [X|X]; [auto|right]); destruct X as (j & u & v & Q1 & Q2 & Q3 & Q4); exists j, u, v; (split; [auto|]); (split; [auto|]); (split; [auto|]).
      * split; [intros Z; congruence|]. intros Z. rewrite Z in Q4. destruct on0; discriminate Q4.
      * destruct on0, (Nat.odd j); auto; exfalso; apply NS; now apply Q4.
    + rewrite Y1, (X2 (is_id s1)) by congruence. rewrite P1, SP. split; (intros [X|X]; [auto|right]); destruct X as (j & u & v & Q1 & Q2 & Q3 & Q4); exists j, u, v; (split; [auto|]); (split; [auto|]); (split; [auto|]).
      * split; auto. intros _. destruct on0, (Nat.odd j); auto; discriminate Q4.
      * rewrite (proj1 Q4 eq_refl). destruct on0; reflexivity.
Qed.
Print Assumptions range_fingers.

(** Non-vacuity: side 1 has chosen 0 - 3; the first finger of 3 - 12 is for side 0, the second for side 1.  Widths 6 to 7 leave no room for an even number: side 0 gets all. *)
Module NeighbourEx.
Definition A0 : arr_impl := mkArr unit unit (fun _ => Ok tt) (fun _ => Ok []) (fun _ _ => Ok []).
Definition R : rng := mkRng (fun _ l => rev l) (fun _ lo hi => (lo + hi) / zq 2) (fun _ lo _ => lo).
Definition sq : geom2d := [mkSpwh [(0, 0); (0, zq 12); (zq 12, zq 12); (zq 12, 0)] []].
Definition sh n := mkSheet n sq sq sq.
Definition sp0 := mkPlex [("s0", sh "s0"); ("s1", sh "s1")]%string [].
Definition fr : frames := fun _ _ => Ok (Some (((1, 0), ((0, 0), [(0, zq 6)])), ((1, 0), ((0, 0), [(0, zq 6)])))).
Definition sp := match create_intersections fr sp0 with Ok sp => sp | Err _ => sp0 end.
Definition id0 : id2 := ("s0,s1", "s0")%string.
Definition id1 : id2 := ("s0,s1", "s1")%string.
Definition iv (a b : Z) : geom1d := [(Fin (zq a), Fin (zq b))].
Definition sb : sbuild := mkSB sp [("s0", sq); ("s1", sq)]%string [("s0", sq); ("s1", sq)]%string [(id0, []); (id1, iv 0 3)] [(id0, iv 3 12); (id1, iv 0 12)].
Definition none := mkSide id0 "" 0 "" (0, 0) 0 (0, 0) 0 0.
Definition s0 := nth 0 (sp_intersides sp None) none.
Definition s1 := nth 1 (sp_intersides sp None) none.
Definition got mn mx := match fingers_range A0 idq R mn mx s0 s1 (sb, O) (Fin (zq 3), Fin (zq 12)) with Ok (b, _) => Some (chosen_of b id0, chosen_of b id1) | Err _ => None end.
Lemma good : plex_made sp /\ legal sp sb /\ joint sp s0 s1.
Proof.
  split; [|split].
  - exists fr, sp0. split; [|reflexivity]. split; [reflexivity|]. split; [repeat constructor; cbn; intuition discriminate|].
    intros k s [E|[E|[]]]; apply pair_inv in E as (<- & <-); (split; [reflexivity|]); intros K; vm_compute in K; intuition discriminate.
  - constructor.
    + reflexivity.
    + intros s (k & it & I & Is). destruct I as [E|[]]. apply pair_inv in E as (<- & <-). destruct Is as [<-|[<-|[]]]; vm_compute; auto.
    + assert (N0 : is_geom1d []) by exact (is_geom1d_new [] [] eq_refl). assert (N1 : is_geom1d (iv 0 3)) by (apply (is_geom1d_new [[NInt 0; NInt 3]]); vm_compute; reflexivity).
      assert (N2 : is_geom1d (iv 3 12)) by (apply (is_geom1d_new [[NInt 3; NInt 12]]); vm_compute; reflexivity). assert (N3 : is_geom1d (iv 0 12)) by (apply (is_geom1d_new [[NInt 0; NInt 12]]); vm_compute; reflexivity).
      intros id. unfold chosen_of, ok_of. cbn [sb sb_ichosen sb_iok dget]. destruct (id2_eqb id id0), (id2_eqb id id1); cbn [opt]; split; assumption.
    + intros s o x S O C. destruct S as (k & it & I & Is). destruct I as [E|[]]. apply pair_inv in E as (<- & <-). destruct Is as [<-|[<-|[]]].
      * destruct C as (i & [] & _).
      * vm_compute in O. apply Ok_inv in O as <-. intros K. destruct C as (i & [<-|[]] & C1 & C2), K as (j & [<-|[]] & K1 & K2). cbn in C2, K1. change (x < zq 3) in C2. change (zq 3 <= x) in K1. qlra.
  - split; [eexists; eexists; split; [left; reflexivity|left; vm_compute; reflexivity]|vm_compute; reflexivity].
Qed.
End NeighbourEx.
Example neighbour_ex : rng_ok NeighbourEx.R /\ plex_made NeighbourEx.sp /\ legal NeighbourEx.sp NeighbourEx.sb /\ joint NeighbourEx.sp NeighbourEx.s0 NeighbourEx.s1 /\
  NeighbourEx.got (zq 3) (zq 5) = Some ([(Fin (zq 3), Fin (qq 15 2))], [(Fin 0, Fin (zq 3)); (Fin (qq 15 2), Fin (zq 12))]) /\
  NeighbourEx.got (zq 6) (zq 7) = Some (NeighbourEx.iv 3 12, NeighbourEx.iv 0 3).
Proof. split; [exact rng_ex|]. destruct NeighbourEx.good as (G1 & G2 & G3). do 3 (split; [assumption|]). split; vm_compute; reflexivity. Qed.
