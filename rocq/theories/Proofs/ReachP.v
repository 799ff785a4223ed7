(** * How far a buffer reaches: ribbons stay within the convex polygon's reach of the ring *)
From Verif.Model Require Import Geom2d.
From Verif.Spec Require Import Plane Region Hull.
From Verif.Proofs Require Import PyP PolyP WindingP WindingQ WindingR NearP SimplifyP Geom2dP Geom2dOps.
From Verif.Props Require Import Geom2dProps.

Lemma on_seg_dec s p : on_seg s p \/ ~ on_seg s p.
Proof.
  destruct (hit p s) eqn:E; [left; now apply hit_sound|]. destruct (pt_eqb_spec p (fst s)) as [->|N].
  - left. destruct s. apply on_seg_end.
  - right. intros O. apply hit_complete in O as [O|O]; congruence.
Qed.
Lemma at_t_lin a b t : at_t (a, b) t = ((1 - t) * fst a + t * fst b, (1 - t) * snd a + t * snd b).
Proof. destruct a, b. unfold at_t, vadd, vscale, vsub. cbn [fst snd]. f_equal; ring. Qed.
Lemma hull_sub l m x : (forall c, In c l -> hull m c) -> hull l x -> hull m x.
Proof. intros S. induction 1; eauto using hull_seg. Qed.
Lemma hull_tri l a b c p : hull l a -> hull l b -> hull l c -> 0 < orient a b p -> 0 < orient b c p -> 0 < orient c a p -> hull l p.
Proof.
  intros A B C P1 P2 P3. set (u := orient b c p) in *. set (v := orient c a p) in *. set (w := orient a b p) in *.
  set (q := ((v * fst b + w * fst c) / (v + w), (v * snd b + w * snd c) / (v + w))).
  assert (N1 : v + w <> 0) by (intros E; qlra). assert (N2 : u + (v + w) <> 0) by (intros E; qlra).
  assert (Q : on_seg (b, c) q).
  { exists (w / (v + w)). rewrite at_t_lin. pose proof (qdiv_mul w (v + w) N1) as D. set (t := w / (v + w)) in *.
    split; [destruct (qleb_spec 0 t); auto; exfalso; qnra|]. split; [destruct (qleb_spec t 1); auto; exfalso; qnra|].
    unfold q. assert (Hw : w = t * (v + w)) by qlra. assert (Hv : v = (1 - t) * (v + w)) by qlra. clearbody t. set (k := v + w) in *.
    f_equal; [transitivity (((1 - t) * k * fst b + t * k * fst c) / k)|transitivity (((1 - t) * k * snd b + t * k * snd c) / k)];
      try (rewrite <- Hw, <- Hv; reflexivity); field; auto. }
  apply (hull_seg l a q); [auto|exact (hull_seg l b c q B C Q)|].
  assert (E1 : u * fst a + v * fst b + w * fst c = (u + (v + w)) * fst p).
  { unfold u, v, w. destruct a, b, c, p. unfold orient, cross, vsub; cbn [fst snd]. ring. }
  assert (E2 : u * snd a + v * snd b + w * snd c = (u + (v + w)) * snd p).
  { unfold u, v, w. destruct a, b, c, p. unfold orient, cross, vsub; cbn [fst snd]. ring. }
  clear A B C. clearbody u v w. clear Q.
  exists ((v + w) / (u + (v + w))). rewrite at_t_lin. pose proof (qdiv_mul (v + w) (u + (v + w)) N2) as D. set (t := (v + w) / (u + (v + w))) in *.
  split; [destruct (qleb_spec 0 t); auto; exfalso; qnra|]. split; [destruct (qleb_spec t 1); auto; exfalso; qnra|].
  unfold q. cbn [fst snd]. clear q. clearbody t. destruct p as [px py]. cbn [fst snd] in *.
  assert (T1 : t * (u + (v + w)) = v + w) by qlra.
  assert (T2 : (1 - t) * (u + (v + w)) = u) by qlra.
  assert (K : forall x y z r, u * x + v * y + w * z = (u + (v + w)) * r -> r = (1 - t) * x + t * ((v * y + w * z) / (v + w))).
  { intros x y z r E. pose proof (qdiv_mul (v * y + w * z) (v + w) N1) as G. set (d := (v * y + w * z) / (v + w)) in *. clearbody d.
    assert ((u + (v + w)) * (r - ((1 - t) * x + t * d)) = 0).
    { transitivity ((u + (v + w)) * r - (1 - t) * (u + (v + w)) * x - t * (u + (v + w)) * d); [ring|]. rewrite T1, T2, <- E. qlra. }
    destruct (Qcmult_integral _ _ H); [tauto|qlra]. }
  apply f_equal2; [apply (K (fst a) (fst b) (fst c)); exact E1|apply (K (snd a) (snd b) (snd c)); exact E2].
Qed.
Lemma on_boundary_dec r p : on_boundary r p \/ ~ on_boundary r p.
Proof.
  destruct r as [|a r]; [right; intros (s & (i & Hi & _) & _); cbn in Hi; lia|].
  destruct (locate_spec (a :: r) p) as (x & _ & [[B _]|[(B & _)|(B & _)]]); auto. discriminate.
Qed.
Lemma zsum_nz {X} (f : X -> Z) l : zsum f l <> 0%Z -> exists x, In x l /\ f x <> 0%Z.
Proof.
  induction l as [|x l IH]; cbn; [congruence|]. intros H. destruct (Z.eq_dec (f x) 0) as [E|E]; [|eauto].
  destruct IH as (y & Hy & F); [lia|]. eauto.
Qed.
(** a ring winds around no point outside its convex hull *)
Lemma ring_hull r p : in_ring r p \/ on_boundary r p -> hull r p.
Proof.
  intros H.
  assert (BH : on_boundary r p -> hull r p).
  { intros ([a b] & Hs & O). apply is_edge_pedges, pedges_in in Hs as (A & B). apply (hull_seg r a b); auto; apply hull_in; auto. }
  destruct H as [I|B]; auto. destruct (on_boundary_dec r p) as [B|NB]; auto.
  destruct r as [|o r]; [destruct I as (w & (o & _ & ->) & N); exfalso; apply N; reflexivity|]. set (R := o :: r) in *.
  assert (D : (exists v, In v R /\ on_seg (o, v) p) \/ generic_apex R o p).
  { unfold generic_apex. clear. induction R as [|v R [(x & Hx & O)|IH]]; [right; intros ? []|left; exists x; cbn; auto|].
    destruct (on_seg_dec (o, v) p) as [O|O]; [left; exists v; cbn; auto|]. right. intros x [<-|Hx]; auto. }
  destruct D as [(v & Hv & O)|G]. { apply (hull_seg R o v); auto; apply hull_in; cbn; auto. }
  destruct I as (w & (o' & G' & ->) & N).
  assert (F : fan_winding o R p <> 0%Z).
  { pose proof (wsum_fan o' R p NB G'). pose proof (wsum_fan o R p NB G). lia. }
  apply zsum_nz in F as ([a b] & Hs & F). cbn [fst snd] in F.
  assert (Hab : In a R /\ In b R). { apply (pedges_in R (a, b)). apply is_edge_pedges, is_edge_iter. exact Hs. }
  assert (Ho : hull R o) by (apply hull_in; cbn; auto). destruct Hab as (Ha & Hb). apply hull_in in Ha. apply hull_in in Hb.
  destruct (tri_ind_range o a b p) as [E|[E|E]]; [|congruence|].
  - apply tri_ind_1 in E as (E1 & E2 & E3). eapply (hull_tri R o a b); eauto.
  - apply tri_ind_m1, tri_ind_1 in E as (E1 & E2 & E3). eapply (hull_tri R o b a); eauto.
Qed.

(** [x] is reached from the segment [s] by a vector of the hull of [0 :: c], scaled by [sign] *)
Definition reached (c : list point) (sign : Qc) (b x : point) : Prop := exists d, hull ((0, 0) :: c) d /\ x = padd b (pscale sign d).
Lemma hull_reached c sign v vn l x : (forall y, In y l -> exists b, (b = v \/ b = vn) /\ exists d, In d ((0, 0) :: c) /\ y = padd b (pscale sign d)) ->
  hull l x -> exists b, on_seg (v, vn) b /\ reached c sign b x.
Proof.
  intros S. induction 1 as [y Hy|y z x Hy (b1 & B1 & d1 & D1 & ->) Hz (b2 & B2 & d2 & D2 & ->) O].
  - destruct (S y Hy) as (b & Hb & d & Hd & ->). exists b. split; [destruct Hb; subst; apply on_seg_end|]. exists d. split; auto using hull_in.
  - destruct O as (t & T0 & T1 & ->). destruct B1 as (t1 & U0 & U1 & ->), B2 as (t2 & V0 & V1 & ->).
    exists (at_t (at_t (v, vn) t1, at_t (v, vn) t2) t). split.
    + exists ((1 - t) * t1 + t * t2). split; [qnra|]. split; [qnra|]. rewrite !at_t_lin. cbn [fst snd]. f_equal; ring.
    + exists (at_t (d1, d2) t). split; [apply (hull_seg _ d1 d2); auto; exists t; auto|]. rewrite !at_t_lin. unfold padd, pscale. cbn [fst snd]. f_equal; ring.
Qed.
Lemma sublist_in {X} (l m : list X) x : sublist l m -> In x l -> In x m.
Proof. induction 1; cbn; intuition auto. Qed.
Lemma insert_pokes_in sign v l x : In x (insert_pokes sign v l) -> x = v \/ In x l.
Proof.
  induction l as [|a l IH]; [cbn; tauto|]. destruct l as [|b l]; [cbn; tauto|]. cbn [insert_pokes].
  set (I := insert_pokes sign v (b :: l)) in *.
  destruct (qltb _ 0); cbn [In] in *; intuition auto.
Qed.
Lemma ribbon_part_reach cpoly sign d vp v vn es : cpoly <> [] -> ribbon_part cpoly sign d vp v vn = Ok es ->
  forall e y, In e es -> In y e -> exists b, (b = v \/ b = vn) /\ exists c, In c ((0, 0) :: cpoly) /\ y = padd b (pscale sign c).
Proof.
  intros NC H e y He Hy. unfold ribbon_part in H. apply bind_ok in H as (pfr & _ & H). apply bind_ok in H as (nfr & _ & H).
  apply bind_ok in H as (ip & _ & H). apply bind_ok in H as (inx & _ & H).
  cbv zeta in H. pose (cp := fun i => nth (i mod length cpoly) cpoly (0, 0)).
  assert (CP : forall i, In (cp i) cpoly).
  { intros i. unfold cp. apply nth_In. apply Nat.mod_upper_bound. destruct cpoly; [congruence|discriminate]. }
  set (others := [_; vn; v]) in *.
  assert (O : forall y, In y others -> exists b, (b = v \/ b = vn) /\ exists c, In c ((0, 0) :: cpoly) /\ y = padd b (pscale sign c)).
  { assert (Z : forall b : point, b = padd b (pscale sign (0, 0))) by (intros [b1 b2]; unfold padd, pscale; cbn [fst snd]; f_equal; ring).
    intros z [<-|[<-|[<-|[]]]]; [exists vn; split; auto; exists (cp inx); split; [right; apply CP|reflexivity]|exists vn|exists v]; (split; [auto|]);
      exists (0, 0); (split; [left; reflexivity|apply Z]). }
  clearbody others.
  match type of H with (let '(_, _) := ?b in _) = _ => destruct b as (idxs & others') eqn:E1 end.
  assert (O' : forall y, In y others' -> In y others).
  { revert E1. destruct (qltb _ FRANGLE_180); intros E1 z Hz; apply pair_inv in E1 as (_ & <-); auto. now apply in_rev. }
  clear E1. match type of H with (let '(_, _) := ?b in _) = _ => destruct b as (idxs' & others'') eqn:E1 end.
  assert (O'' : forall y, In y others'' -> In y others).
  { revert E1. destruct (qltb sign 0); intros E1 z Hz; apply pair_inv in E1 as (_ & <-); auto. apply O'. now apply in_rev. }
  clear E1. apply bind_ok in H as (verts & V & H).
  assert (In y verts). { destruct (2 <? length verts)%nat; injection H as <-; [destruct He as [<-|[]]; auto|destruct He]. }
  unfold simplify_degeneracies in V. match type of V with simp_outer _ ?l = _ => destruct (simp_outer_ok (S (length l)) l) as (r & R1 & _ & R2 & _); [lia|] end.
  rewrite R1 in V. injection V as ->. apply (sublist_in _ _ _ R2) in H0. apply in_app_iff in H0 as [K|K]; [|auto].
  apply insert_pokes_in in K as [->|K].
  - exists v. split; auto. exists (0, 0). split; [left; reflexivity|]. destruct v; unfold padd, pscale; cbn [fst snd]; f_equal; ring.
  - apply in_map_iff in K as (i & <- & _). exists v. split; auto. exists (cp i). split; [right; apply CP|reflexivity].
Qed.

(** ** Rings *)
Lemma triples_edge l vp v vn : In (vp, v, vn) (triples l) -> is_edge l (v, vn).
Proof.
  unfold triples. intros H. apply in_map_iff in H as (i & E & Hi). apply in_seq in Hi. injection E as _ <- <-. exists i. cbn [fst snd].
  assert (N : forall k, (k < length l)%nat -> nth_error l k = Some (nthp l (Z.of_nat k))).
  { intros k Hk. unfold nthp. rewrite Z.mod_small by lia. rewrite Nat2Z.id. now apply nth_error_nth'. }
  split; [lia|]. split; [apply N; lia|]. destruct (Nat.eqb_spec (S i) (length l)) as [E|E].
  - rewrite N by lia. f_equal. unfold nthp. replace (Z.of_nat i + 1)%Z with (Z.of_nat (length l)) by lia. rewrite Z_mod_same_full. reflexivity.
  - rewrite N by lia. f_equal. f_equal. lia.
Qed.
Lemma ribbon_reach ring cpoly sign es : minkowski_ribbon_simple_convex ring cpoly sign = Ok es ->
  forall e e' x, In e es -> (forall y, In y e' -> In y e) -> in_ring e' x \/ on_boundary e' x -> exists b, on_boundary ring b /\ reached cpoly sign b x.
Proof.
  intros H e e' x He SE I. unfold minkowski_ribbon_simple_convex in H. apply bind_ok in H as (u & U & H). apply bind_ok in H as (u' & _ & H).
  apply bind_ok in H as (d & _ & H). apply bind_ok in H as (parts & P & H). injection H as <-. apply in_concat in He as (part & Hp & He).
  apply PyP.mapM_ok in P. assert (NC : cpoly <> []). { intros ->. apply passert_ok in U. discriminate. }
  assert (exists t, In t (triples ring) /\ (let '(vp, v, vn) := t in ribbon_part cpoly sign d vp v vn) = Ok part) as (((vp & v) & vn) & T & R).
  { clear -P Hp. induction P as [|t q ts qs E P IH]; [destruct Hp|]. destruct Hp as [->|Hp]; [exists t; cbn; auto|].
    destruct (IH Hp) as (t' & Ht & E'). exists t'. cbn. auto. }
  apply ring_hull in I. destruct (hull_reached cpoly sign v vn e' x) as (b & B & Q); auto.
  { intros y Hy. eapply ribbon_part_reach; eauto. }
  exists b. split; auto. exists (v, vn). split; auto. eapply triples_edge; eauto.
Qed.
Lemma reached_self c sign b : reached c sign b b.
Proof. exists (0, 0). split; [apply hull_in; left; reflexivity|]. destruct b; unfold padd, pscale; cbn [fst snd]; f_equal; ring. Qed.

Lemma on_bd_dec g p : on_bd g p \/ ~ on_bd g p.
Proof.
  assert (D : forall l, (exists s, In s l /\ on_seg s p) \/ ~ (exists s, In s l /\ on_seg s p)).
  { induction l as [|s l [(x & Hx & O)|IH]]; [right; intros (? & [] & _)|left; exists x; cbn; auto|].
    destruct (on_seg_dec s p) as [O|O]; [left; exists s; cbn; auto|]. right. intros (x & [<-|Hx] & Q); [auto|apply IH; eauto]. }
  destruct (D (all_segments g)) as [H|H]; [left|right; intros B; apply H]; now apply on_bd_segments.
Qed.
(** [N g] : reached from the boundary of [g] *)
Definition reached_bd (g : geom2d) (c : list point) (p : point) : Prop := exists b, on_bd g b /\ (reached c 1 b p \/ reached c (- (1)) b p).
Lemma mink_reach A depth : arr_sound A -> forall g cpoly sign r, is_geom2d g ->
  locate_point_polygon_winding_number cpoly (0, 0) = Ok 1%Z -> sign = 1 \/ sign = - (1) ->
  minkowski_convex_op A depth g cpoly sign = Ok r ->
  is_geom2d r /\ forall p,
    (on_bd r p -> reached_bd g cpoly p) /\
    (sign = 1 -> in_geom r p -> in_geom g p \/ reached_bd g cpoly p) /\
    (sign = - (1) -> no_nesting g -> in_geom g p -> in_geom r p \/ reached_bd g cpoly p).
Proof.
  intros SA. induction depth as [|depth IH]; intros g cpoly sign r G L Sg R; [discriminate|].
  cbn [minkowski_convex_op] in R. rewrite L in R. cbn [bind] in R.
  change (negb (1 =? 1)%Z) with false in R. cbn iota in R.
  destruct (passert (negb (qeqb sign 0))) as [u|] eqn:P0; cbn [bind] in R; [|discriminate].
  destruct (mapM _ g) as [parts|] eqn:EP in R; cbn [bind] in R; [|discriminate].
  destruct (mapM _ (flat_map holes g)) as [hneg|] eqn:EH in R; cbn [bind] in R; [|discriminate].
  destruct (union_tree A _) as [gpos|] eqn:EU1 in R; cbn [bind] in R; [|discriminate].
  destruct (union_tree A _) as [gneg|] eqn:EU2 in R; cbn [bind] in R; [|discriminate].
  apply PyP.mapM_ok in EP. apply PyP.mapM_ok in EH.
  assert (FP : Forall2 (fun s pe => fst pe = [mkSpwh (outer s) []] /\ ring_ok (outer s) /\ Forall is_geom2d (snd pe) /\
     forall x p, In x (snd pe) -> in_geom x p \/ on_bd x p -> exists b, on_boundary (outer s) b /\ reached cpoly sign b p) g parts).
  { clear -EP G. revert G. induction EP as [|s pe g parts H EP IHp]; intros G; constructor.
    - inversion G; subst. apply bind_ok in H as (t & T & H). apply bind_ok in H as (o & O & H). apply bind_ok in H as (simples & S & H). apply bind_ok in H as (ext & X & H).
      injection H as <-. rewrite transformed_shift0 in T by auto. injection T as <-. apply single_ok in O as (-> & RO). cbn [fst snd]. split; [reflexivity|]. split; [exact RO|].
      apply PyP.mapM_ok in X. split.
      + clear -X. induction X as [|e x l m H X IHe]; constructor; auto. apply bind_ok in H as (e' & _ & H). eapply single_geom; eauto.
      + intros x p Hx I. assert (exists e e', In e simples /\ (e' = e \/ e' = rev e) /\ x = [mkSpwh e' []]) as (e & e' & He & Ee & ->).
        { clear -X Hx. induction X as [|e x' l m H X IHe]; [destruct Hx|]. destruct Hx as [->|Hx].
          - apply bind_ok in H as (e' & E' & H). rewrite shift0 in H. apply single_ok in H as (-> & _). exists e, e'. split; [cbn; auto|]. split; auto.
            unfold reorient in E'. apply bind_ok in E' as (a & _ & E'). injection E' as <-. destruct (qltb a 0); auto.
          - destruct (IHe Hx) as (e1 & e2 & A1 & A2 & A3). exists e1, e2. cbn. auto. }
        apply (ribbon_reach _ _ _ _ S e e'); auto.
        { intros y. destruct Ee as [->| ->]; [auto|]. intros Hy. now apply in_rev. }
        destruct I as [I|I]; [left; now apply in_single in I|right]. destruct I as (q & (s' & [<-|[]] & [->|[]]) & B). exact B.
    - inversion G; subst; auto. }
  assert (FH : Forall2 (fun h m => is_geom2d m /\ forall p, (on_bd m p -> reached_bd [mkSpwh h []] cpoly p) /\
       (sign = - (1) -> in_geom m p -> in_ring h p \/ reached_bd [mkSpwh h []] cpoly p) /\
       (sign = 1 -> in_ring h p -> in_geom m p \/ reached_bd [mkSpwh h []] cpoly p)) (flat_map holes g) hneg).
  { clear -EH L Sg IH. induction EH as [|h m hs ms H EH IHh]; constructor; auto. apply bind_ok in H as (x & E & H).
    pose proof (single_geom _ _ E) as G1. apply single_ok in E as (-> & RO).
    destruct (IH [mkSpwh h []] cpoly (- sign) m G1 L) as (G2 & HS); [destruct Sg as [->| ->]; [right|left]; qlra|exact H|].
    split; auto. intros p. destruct (HS p) as (H1 & H2 & H3). split; [exact H1|]. split; intros E I.
    - destruct H2 as [J|J]; [rewrite E; qlra|exact I| |right; exact J]. left. now apply in_single in J.
    - apply H3; [rewrite E; qlra| |now apply in_single]. intros s s' h' q [<-|[]] [<-|[]] []. }
  assert (HB : forall h, In h (flat_map holes g) -> forall p, reached_bd [mkSpwh h []] cpoly p -> reached_bd g cpoly p).
  { intros h Hh p (b & (q & (s & [<-|[]] & [->|[]]) & B) & Rb). exists b. split; auto. apply in_flat_map in Hh as (s & Hs & Hh).
    exists h. split; [exists s; auto|exact B]. }
  assert (OB : forall s p b, In s g -> on_boundary (outer s) b -> reached cpoly sign b p -> reached_bd g cpoly p).
  { intros s p b Hs B Rb. exists b. split; [exists (outer s); split; [exists s; auto|exact B]|]. destruct Sg as [->| ->]; auto. }
  assert (BD : forall pe, In pe parts -> exists s, In s g /\ fst pe = [mkSpwh (outer s) []] /\
     forall x p, In x (snd pe) -> in_geom x p \/ on_bd x p -> reached_bd g cpoly p).
  { intros pe Hpe. assert (exists s, In s g /\ fst pe = [mkSpwh (outer s) []] /\
      forall x p, In x (snd pe) -> in_geom x p \/ on_bd x p -> exists b, on_boundary (outer s) b /\ reached cpoly sign b p) as (s & Hs & E & K).
    { clear -FP Hpe. induction FP as [|s pe' g parts (E1 & _ & _ & E3) FP IHp]; [destruct Hpe|]. destruct Hpe as [->|Hpe].
      - exists s. cbn. auto.
      - destruct (IHp Hpe) as (s' & Hs & E). exists s'. cbn. auto. }
    exists s. split; auto. split; auto. intros x p Hx I. destruct (K x p Hx I) as (b & B & Rb). eapply OB; eauto. }
  assert (NB : forall m, In m hneg -> exists h, In h (flat_map holes g) /\ is_geom2d m /\ forall p, (on_bd m p -> reached_bd g cpoly p) /\
       (sign = - (1) -> in_geom m p -> in_ring h p \/ reached_bd g cpoly p)).
  { intros m Hm. assert (exists h, In h (flat_map holes g) /\ is_geom2d m /\ forall p, (on_bd m p -> reached_bd [mkSpwh h []] cpoly p) /\
       (sign = - (1) -> in_geom m p -> in_ring h p \/ reached_bd [mkSpwh h []] cpoly p)) as (h & Hh & Gm & K).
    { clear -FH Hm. induction FH as [|h m' hs ms (E1 & E2) FH IHp]; [destruct Hm|]. destruct Hm as [->|Hm].
      - exists h. split; [cbn; auto|]. split; auto. intros p. destruct (E2 p) as (X & Y & _). auto.
      - destruct (IHp Hm) as (s' & Hs & E). exists s'. cbn. auto. }
    exists h. split; auto. split; auto. intros p. destruct (K p) as (K1 & K2). split; [intros X; apply (HB h); auto|].
    intros X Y. destruct (K2 X Y); [auto|right; apply (HB h); auto]. }
  assert (HN : forall h, In h (flat_map holes g) -> exists m, In m hneg /\ forall p, sign = 1 -> in_ring h p -> in_geom m p \/ reached_bd g cpoly p).
  { intros h Hh. assert (exists m, In m hneg /\ forall p, sign = 1 -> in_ring h p -> in_geom m p \/ reached_bd [mkSpwh h []] cpoly p) as (m & Hm & K).
    { clear -FH Hh. induction FH as [|h' m hs ms (E1 & E2) FH IHp]; [destruct Hh|]. destruct Hh as [->|Hm].
      - exists m. split; [cbn; auto|]. intros p. apply E2.
      - destruct (IHp Hm) as (s' & Hs & E). exists s'. cbn. auto. }
    exists m. split; auto. intros p X Y. destruct (K p X Y); [auto|right; apply (HB h); auto]. }
  set (pos := if qltb 0 sign then flat_map (fun pe => fst pe :: snd pe) parts else map fst parts) in *.
  set (neg := (if qltb 0 sign then [] else flat_map snd parts) ++ hneg) in *.
  assert (GX : Forall is_geom2d (map fst parts) /\ Forall is_geom2d (flat_map snd parts)).
  { clear -FP. induction FP as [|s pe g parts (E1 & E2 & E3 & _) FP (I1 & I2)]; [split; constructor|]. split; cbn [map flat_map].
    - constructor; [|exact I1]. refine (eq_ind_r is_geom2d _ E1). constructor; [|constructor]. apply spwh_ok_iff. cbn. auto.
    - apply Forall_app. auto. }
  destruct GX as (GX1 & GX2). rewrite Forall_forall in GX1, GX2.
  assert (GP : forall x, In x pos -> is_geom2d x).
  { intros x Hx. unfold pos in Hx. destruct (qltb 0 sign); [|apply GX1; exact Hx]. apply in_flat_map in Hx as (pe & Hpe & [<-|Hx]); [apply GX1, in_map, Hpe|].
    apply GX2. apply in_flat_map. eauto. }
  assert (GN : forall x, In x neg -> is_geom2d x).
  { intros x Hx. unfold neg in Hx. apply in_app_iff in Hx as [Hx|Hx]; [|destruct (NB x Hx) as (h & _ & Gm & _); exact Gm].
    destruct (qltb 0 sign); [destruct Hx|apply GX2; exact Hx]. }
  assert (PB : forall x p, In x pos -> on_bd x p -> reached_bd g cpoly p).
  { intros x p Hx B. assert (exists pe, In pe parts /\ (x = fst pe \/ In x (snd pe))) as (pe & Hpe & Hx').
    { unfold pos in Hx. destruct (qltb 0 sign); [apply in_flat_map in Hx as (pe & Hpe & [<-|Hx]); eauto|apply in_map_iff in Hx as (pe & <- & Hpe); eauto]. }
    destruct (BD pe Hpe) as (s & Hs & E & K). destruct Hx' as [->|Hx']; [|apply (K x p Hx'); auto]. rewrite E in B.
    destruct B as (q & (s' & [<-|[]] & [->|[]]) & B). apply (OB s p p Hs B). apply reached_self. }
  assert (NBd : forall x p, In x neg -> on_bd x p -> reached_bd g cpoly p).
  { intros x p Hx B. unfold neg in Hx. apply in_app_iff in Hx as [Hx|Hx]; [|destruct (NB x Hx) as (h & _ & _ & K); apply K; exact B].
    destruct (qltb 0 sign); [destruct Hx|]. apply in_flat_map in Hx as (pe & Hpe & Hx). destruct (BD pe Hpe) as (s & Hs & E & K). apply (K x p Hx); auto. }
  assert (DEC : forall l p, (forall x, In x l -> on_bd x p -> reached_bd g cpoly p) -> reached_bd g cpoly p \/ off_all l p).
  { clear. intros l p K. induction l as [|x l IHl]; [right; intros ? []|]. destruct IHl as [X|X]; [intros; eapply K; cbn; eauto|auto|].
    destruct (on_bd_dec x p) as [B|B]; [left; apply (K x); cbn; auto|right]. intros y [<-|Hy]; auto. }
  apply Forall_forall in GP. apply Forall_forall in GN.
  pose proof (union_tree_ok A _ _ SA GP EU1) as (G1 & B1 & M1).
  pose proof (union_tree_ok A _ _ SA GN EU2) as (G2 & B2 & M2).
  pose proof (g2_sub_ok A _ _ _ SA G1 G2 R) as (G3 & B3 & M3).
  split; auto. intros p.
  destruct (DEC pos p) as [Rp|O2]; [intros; eapply PB; eauto|auto|]. destruct (DEC neg p) as [Rp|O3]; [intros; eapply NBd; eauto|auto|].
  assert (O4 : off_all [gpos; gneg] p).
  { intros x [<-|[<-|[]]] Bx; [exact (B1 p Bx O2)|exact (B2 p Bx O3)]. }
  split; [intros Br; destruct (B3 p Br O4)|].
  rewrite (M3 p O4), (M1 p O2), (M2 p O3). unfold some_in. split.
  - intros E ((x & Hx & I) & NN). unfold pos in Hx. rewrite E in Hx. change (qltb 0 1) with true in Hx. cbn iota in Hx.
    apply in_flat_map in Hx as (pe & Hpe & Hx). destruct (BD pe Hpe) as (s & Hs & E1 & K). destruct Hx as [<-|Hx]; [|right; apply (K x p Hx); auto].
    rewrite E1 in I. apply in_single in I.
    assert (D : reached_bd g cpoly p \/ forall h, In h (holes s) -> ~ in_ring h p).
    { assert (HS : forall h, In h (holes s) -> in_ring h p -> reached_bd g cpoly p).
      { intros h Hh J. destruct (HN h) as (m & Hm & K'); [apply in_flat_map; eauto|]. destruct (K' p E J) as [J'|J']; [|exact J']. destruct NN.
        exists m. split; auto. unfold neg. apply in_app_iff. auto. }
      assert (HD : forall h, In h (holes s) -> on_boundary h p -> reached_bd g cpoly p).
      { intros h Hh B. exists p. split; [exists h; split; [exists s; auto|exact B]|]. left. apply reached_self. }
      assert (HO : forall h, In h (holes s) -> h <> []).
      { intros h Hh. unfold is_geom2d in G. rewrite Forall_forall in G. specialize (G s Hs). apply spwh_ok_iff in G as (_ & F). rewrite Forall_forall in F. apply (F h Hh). }
      clear -HS HD HO. induction (holes s) as [|h hs IHh]; [right; intros ? []|]. destruct IHh as [X|X]; [intros; eapply HS; cbn; eauto|intros; eapply HD; cbn; eauto|intros; apply HO; cbn; auto|auto|].
      destruct (on_boundary_dec h p) as [B|B]; [left; apply (HD h); cbn; auto|].
      destruct (locate_ring h p) as [(_ & J)|(_ & J)]; [apply HO; cbn; auto|exact B|left; apply (HS h); cbn; auto|].
      right. intros h' [<-|Hh]; auto. }
    destruct D as [D|D]; [auto|left]. exists s. split; auto. split; auto.
  - intros E NN I. destruct (on_bd_dec g p) as [B|B]; [right; exists p; split; [exact B|left; apply reached_self]|].
    pose proof I as (s & Hs & J).
    assert (D : reached_bd g cpoly p \/ ~ (exists x, In x neg /\ in_geom x p)).
    { assert (K : forall x, In x neg -> in_geom x p -> reached_bd g cpoly p).
      { intros x Hx X. unfold neg in Hx. apply in_app_iff in Hx as [Hx|Hx].
        - rewrite E in Hx. change (qltb 0 (- (1))) with false in Hx. cbn iota in Hx. apply in_flat_map in Hx as (pe & Hpe & Hx).
          destruct (BD pe Hpe) as (s' & _ & _ & K). apply (K x p Hx); auto.
        - destruct (NB x Hx) as (h & Hh & _ & K). destruct (proj2 (K p) E X) as [Y|Y]; [|exact Y].
          apply in_flat_map in Hh as (s' & Hs' & Hh). destruct (NN s s' h p Hs Hs' Hh B J Y). }
      clear -K O3 GN. induction neg as [|x l IHl]; [right; intros (? & [] & _)|]. inversion GN as [|? ? Gx GN']; subst.
      destruct IHl as [X|X]; [exact GN'|intros y Hy; apply O3; cbn; auto|intros; eapply K; cbn; eauto|auto|].
      destruct (off_all_dec x p Gx) as [Y|Y]; [apply O3; cbn; auto|left; apply (K x); cbn; auto|].
      right. intros (y & [<-|Hy] & Z); [auto|apply X; eauto]. }
    destruct D as [D|D]; [auto|left]. split; [|exact D].
    assert (exists pe, In pe parts /\ fst pe = [mkSpwh (outer s) []]) as (pe & Hpe & E1).
    { clear -FP Hs. induction FP as [|s' pe g parts (E1 & _) FP IHp]; [destruct Hs|]. destruct Hs as [->|Hs].
      - exists pe. cbn. auto.
      - destruct (IHp Hs) as (q & Hq & E). exists q. cbn. auto. }
    exists (fst pe). split.
    + unfold pos. rewrite E. change (qltb 0 (- (1))) with false. cbn iota. now apply in_map.
    + rewrite E1. apply in_single. apply J.
Qed.
