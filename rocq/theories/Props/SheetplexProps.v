(** * Properties of sheetplexes: C44, C45, C46. *)
From Verif.Model Require Import Sheetplex.
From Verif.Proofs Require Import PyP DictP SheetplexP.
From Coq Require Import String Ascii List.
Import ListNotations.

(** ** Spec: a sheetplex before create_intersections: sheets stored under their own, distinct ids
    that contain no comma; no intersections *)
Definition fresh_plex (sp : sheetplex) : Prop :=
  sp_inters sp = [] /\ NoDup (keys (sp_sheets sp)) /\
  forall k s, In (k, s) (sp_sheets sp) -> sh_id s = k /\ no_comma k.
(** [s] is a side of some intersection of [sp] *)
Definition side_of (sp : sheetplex) (s : interside) : Prop := exists k it, In (k, it) (sp_inters sp) /\ In s (it_sides it).
(** the intersection joins exactly these two sheets *)
Definition joins (it : intersection) (x y : string) : Prop :=
  map is_sheet (it_sides it) = [x; y] \/ map is_sheet (it_sides it) = [y; x].
Definition before {X} (l : list X) (a b : X) : Prop := exists l1 l2 l3, l = l1 ++ a :: l2 ++ b :: l3.

Lemma filter_all {X} (l : list X) : filter (fun _ => true) l = l.
Proof. induction l as [|x l IH]; cbn; congruence. Qed.
Lemma fresh_ids sp : fresh_plex sp -> NoDup (map sh_id (values (sp_sheets sp))) /\
  forall s, In s (values (sp_sheets sp)) -> no_comma (sh_id s).
Proof.
  intros (_ & N & H). assert (E : map sh_id (values (sp_sheets sp)) = keys (sp_sheets sp)).
  { unfold values, keys. rewrite map_map. apply map_ext_in. intros (k & s) I. cbn. now apply H in I. }
  rewrite E. split; auto. intros s I. apply in_map_iff in I as ((k & s') & <- & I). cbn. apply H in I as (-> & C). exact C.
Qed.
Lemma created fr sp0 sp : fresh_plex sp0 -> create_intersections fr sp0 = Ok sp ->
  sp_sheets sp = sp_sheets sp0 /\ NoDup (keys (sp_inters sp)) /\
  (forall a b, before (values (sp_sheets sp0)) a b -> exists o, fr a b = Ok o) /\
  forall k it, In (k, it) (sp_inters sp) <->
    exists a b f1 f2, before (values (sp_sheets sp0)) a b /\ fr a b = Ok (Some (f1, f2)) /\ k = pid (a, b) /\ it = made (a, b) f1 f2.
Proof.
  intros F R. unfold create_intersections in R. rewrite create_loop_pairs in R. destruct (fresh_ids _ F) as (N & C).
  destruct F as (I0 & F). apply create_pairs_ok in R as (A & B & D & G); [|apply nodup_pids; auto|rewrite I0; constructor|rewrite I0; intros ? _ []].
  split; auto. split; auto. rewrite I0 in G. split.
  - intros a b H. apply (D (a, b)). now apply in_pairs.
  - intros k it. rewrite G. split.
    + intros [[]|((a & b) & f1 & f2 & Hp & E)]. exists a, b, f1, f2. split; auto. now apply in_pairs.
    + intros (a & b & f1 & f2 & Hp & E). right. exists (a, b), f1, f2. split; auto. now apply in_pairs.
Qed.
Lemma before_ids l a b : NoDup (map sh_id l) -> before l a b -> sh_id a <> sh_id b /\ In a l /\ In b l.
Proof.
  intros N (l1 & l2 & l3 & ->). split.
  - rewrite map_app in N. cbn in N. rewrite map_app in N. cbn in N. apply NoDup_remove_2 in N. intros E. apply N.
    rewrite E. apply in_app_iff. right. apply in_app_iff. right. cbn. auto.
  - split; apply in_app_iff; right; cbn; auto. right. apply in_app_iff. cbn. auto.
Qed.

(** ** C44 *)
Theorem interside_lookups : forall fr sp0 sp, fresh_plex sp0 -> create_intersections fr sp0 = Ok sp ->
  (forall s, side_of sp s ->
     sp_interside sp (is_id s) = Ok s /\
     exists o, opposite s sp = Ok o /\ opposite o sp = Ok s /\ side_of sp o /\
               is_inter o = is_inter s /\ is_sheet o <> is_sheet s /\
               is_id s = (is_inter s, is_sheet s) /\
               exists it, dget String.eqb (is_inter s) (sp_inters sp) = Some it /\ joins it (is_sheet s) (is_sheet o) /\
                 side_by_sheet it (is_sheet s) = Some s /\ side_by_sheet it (is_sheet o) = Some o /\
                 forall x, x <> is_sheet s -> x <> is_sheet o -> side_by_sheet it x = None) /\
  (forall s t, side_of sp s -> side_of sp t -> is_id s = is_id t -> s = t) /\
  NoDup (sp_intersides sp None) /\
  (forall s, In s (sp_intersides sp None) <-> side_of sp s) /\
  (forall i, NoDup (sp_intersides sp (Some i))) /\
  (forall i s, In s (sp_intersides sp (Some i)) <-> side_of sp s /\ is_sheet s = i).
Proof.
  intros fr sp0 sp F R. destruct (created fr sp0 sp F R) as (S0 & ND & _ & G). destruct (fresh_ids _ F) as (N & C).
  assert (SD : forall s, side_of sp s <-> In s (sp_intersides sp None)).
  { intros s. unfold sp_intersides. rewrite filter_In, in_flat_map. unfold side_of, values. split.
    - intros (k & it & H1 & H2). split; auto. exists it. split; auto. apply in_map_iff. exists (k, it). auto.
    - intros ((it & H1 & H2) & _). apply in_map_iff in H1 as ((k & it') & <- & H1). eauto. }
  assert (L : forall s, side_of sp s -> exists k it s0 s1 , dget String.eqb k (sp_inters sp) = Some it /\ it_sides it = [s0; s1] /\
     is_sheet s0 <> is_sheet s1 /\ is_id s0 = (k, is_sheet s0) /\ is_id s1 = (k, is_sheet s1) /\ is_inter s0 = k /\ is_inter s1 = k /\
     is_idx s0 = 0%Z /\ is_idx s1 = 1%Z /\ (s = s0 \/ s = s1)).
  { intros s (k & it & H & Hs). pose proof H as H'. apply G in H' as (a & b & f1 & f2 & B & _ & -> & ->).
    destruct (before_ids _ a b N B) as (NE & _). destruct f1 as (d1 & o1 & os1), f2 as (d2 & o2 & os2).
    exists (pid (a, b)), (made (a, b) (d1, (o1, os1)) (d2, (o2, os2))), (create_inter_side (pid (a, b)) (sh_id a) 0 (d1, (o1, os1))),
      (create_inter_side (pid (a, b)) (sh_id b) 1 (d2, (o2, os2))).
    split; [now apply (dget_nodup _ string_eqb_ok)|]. cbn [made it_sides In] in Hs. cbn. intuition. }
  assert (U : forall s t, side_of sp s -> side_of sp t -> is_id s = is_id t -> s = t).
  { intros s t Hs Ht E. destruct (L s Hs) as (k & it & s0 & s1 & D & S & NE & I0 & I1 & K0 & K1 & X0 & X1 & Cs).
    destruct (L t Ht) as (k' & it' & t0 & t1 & D' & S' & NE' & I0' & I1' & K0' & K1' & X0' & X1' & Ct).
    assert (KK : k' = k) by (destruct Cs as [->| ->], Ct as [->| ->]; congruence). rewrite KK, D in D'. injection D' as <-.
    rewrite S in S'. injection S' as <- <-. destruct Cs as [->| ->], Ct as [->| ->]; congruence. }
  assert (NN : NoDup (sp_intersides sp None)).
  { unfold sp_intersides. rewrite filter_all. unfold values.
    assert (G' : forall e, In e (sp_inters sp) -> exists s0 s1, it_sides (snd e) = [s0; s1] /\ s0 <> s1 /\ is_inter s0 = fst e /\ is_inter s1 = fst e).
    { intros (k & it) H. apply G in H as (a & b & f1 & f2 & B & _ & -> & ->). destruct (before_ids _ a b N B) as (NE & _).
      destruct f1 as (d1 & o1 & os1), f2 as (d2 & o2 & os2). cbn. eexists _, _. split; [reflexivity|]. split; auto.
      intros E. apply NE. apply (f_equal is_sheet) in E. exact E. }
    clear -ND G'. induction (sp_inters sp) as [|(k & it) m IH]; [constructor|]. unfold keys in *. cbn [map flat_map fst snd] in *.
    inversion ND as [|? ? N1 N2]; subst. apply nodup_app.
    - destruct (G' (k, it)) as (s0 & s1 & EE & NE & _); [left; auto|]. cbn [snd] in EE. rewrite EE. constructor; [|constructor; [|constructor]]; cbn; intuition.
    - apply IH; auto. intros e He. apply G'. right; auto.
    - intros s H1 H2. apply in_flat_map in H2 as (it' & H2 & H3). apply in_map_iff in H2 as ((k' & it'') & <- & H2). cbn in H3.
      assert (K : forall e, In e ((k, it) :: m) -> In s (it_sides (snd e)) -> is_inter s = fst e).
      { intros e He Hs. destruct (G' e He) as (s0 & s1 & E & _ & K0 & K1). rewrite E in Hs. destruct Hs as [<-|[<-|[]]]; auto. }
      assert (k' = k). { assert (Z1 : is_inter s = k) by (apply (K (k, it)); [left; auto|auto]). assert (Z2 : is_inter s = k') by (apply (K (k', it'')); [right; auto|auto]). congruence. }
      subst. apply N1. apply in_map_iff. exists (k, it''). auto. }
  assert (FS : forall i, sp_intersides sp (Some i) = filter (fun s => String.eqb (is_sheet s) i) (sp_intersides sp None)).
  { intros i. unfold sp_intersides. now rewrite filter_all. }
  split; [|split; [exact U|split; [exact NN|split; [intros s; symmetry; apply SD|split]]]].
  - intros s Hs. destruct (L s Hs) as (k & it & s0 & s1 & D & S & NE & I0 & I1 & K0 & K1 & X0 & X1 & Cs).
    assert (S01 : side_of sp s0 /\ side_of sp s1).
    { apply (dget_in _ string_eqb_ok) in D. split; exists k, it; split; auto; rewrite S; cbn; auto. }
    assert (Q1 : String.eqb (is_sheet s0) (is_sheet s1) = false) by now apply String.eqb_neq.
    assert (Q2 : String.eqb (is_sheet s1) (is_sheet s0) = false) by (apply String.eqb_neq; congruence).
    split.
    + unfold sp_interside, dgetr. destruct Cs as [-> | ->]; rewrite ?I0, ?I1; cbn [fst snd]; rewrite D; cbn [bind]; rewrite S; cbn [side_at nth_error bind].
      * now rewrite String.eqb_refl.
      * rewrite Q1, String.eqb_refl. reflexivity.
    + assert (O : opposite s0 sp = Ok s1 /\ opposite s1 sp = Ok s0).
      { unfold opposite, dgetr. rewrite K0, K1, D, X0, X1. cbn [bind]. rewrite S. cbn. auto. }
      assert (SB : side_by_sheet it (is_sheet s0) = Some s0 /\ side_by_sheet it (is_sheet s1) = Some s1 /\
        forall x, x <> is_sheet s0 -> x <> is_sheet s1 -> side_by_sheet it x = None).
      { unfold side_by_sheet. rewrite S. cbn [find]. rewrite !String.eqb_refl, Q1. repeat split; auto.
        intros x A B. rewrite (proj2 (String.eqb_neq (is_sheet s0) x)), (proj2 (String.eqb_neq (is_sheet s1) x)); auto. }
      destruct O as (O1 & O2), SB as (SB0 & SB1 & SBN), S01 as (A0 & A1). destruct Cs as [->| ->].
      * exists s1. repeat split; auto; try congruence. exists it. rewrite K0. repeat split; auto. left. rewrite S. reflexivity.
      * exists s0. repeat split; auto; try congruence. exists it. rewrite K1. repeat split; auto. right. rewrite S. reflexivity.
  - intros i. rewrite FS. now apply NoDup_filter.
  - intros i s. rewrite FS, filter_In, <- SD, String.eqb_eq. tauto.
Qed.
Print Assumptions interside_lookups.

(** ** C45 *)
(** what limit should return *)
Definition is_limit (sp : sheetplex) (ids : list string) (r : sheetplex) : Prop :=
  (forall k s, In (k, s) (sp_sheets r) <-> In (k, s) (sp_sheets sp) /\ In k ids) /\
  (forall k it, In (k, it) (sp_inters r) <-> In (k, it) (sp_inters sp) /\ Forall (fun s => In (is_sheet s) ids) (it_sides it)).
Lemma str_mem_in x l : str_mem x l = true <-> In x l.
Proof. unfold str_mem. apply existsb_eqb_in. apply string_eqb_ok. Qed.
(** limit is right when no intersection's first sheet is selected, and raises AttributeError (the
    builtin [iter] is used instead of [inter]) as soon as one is *)
Theorem limit_exact : forall sp ids, (forall k it, In (k, it) (sp_inters sp) -> it_sides it <> []) ->
  ((exists k it s0 r, In (k, it) (sp_inters sp) /\ it_sides it = s0 :: r /\ In (is_sheet s0) ids) -> sp_limit sp ids = Err AttributeError) /\
  ((forall k it s0 r, In (k, it) (sp_inters sp) -> it_sides it = s0 :: r -> ~ In (is_sheet s0) ids) ->
     exists res, sp_limit sp ids = Ok res /\ is_limit sp ids res /\ sp_inters res = []).
Proof.
  intros sp ids NE. unfold sp_limit. split.
  - intros (k & it & s0 & r & H & S & I). assert (E : limit_inters ids (sp_inters sp) = Err AttributeError); [|now rewrite E].
    induction (sp_inters sp) as [|(k' & it') m IH]; [destruct H|]. cbn [limit_inters].
    destruct (it_sides it') as [|t r'] eqn:S'; [exfalso; apply (NE k' it'); [left; auto|auto]|]. cbn [side_at nth_error bind].
    destruct (str_mem (is_sheet t) ids) eqn:M; auto. destruct H as [H|H].
    + injection H as -> ->. rewrite S in S'. injection S' as -> ->. exfalso. apply str_mem_in in I. congruence.
    + apply IH; auto. intros k1 it1 H1. apply (NE k1 it1). right. auto.
  - intros H. exists (mkPlex (filter (fun e => str_mem (fst e) ids) (sp_sheets sp)) []). split; [|split; [split|auto]]; cbn [sp_sheets sp_inters].
    + assert (E : limit_inters ids (sp_inters sp) = Ok []); [|now rewrite E].
      induction (sp_inters sp) as [|(k' & it') m IH]; [reflexivity|]. cbn [limit_inters].
      destruct (it_sides it') as [|t r'] eqn:S'; [exfalso; apply (NE k' it'); [left; auto|auto]|]. cbn [side_at nth_error bind].
      destruct (str_mem (is_sheet t) ids) eqn:M.
      * exfalso. apply (H k' it' t r'); auto; [left; auto|]. now apply str_mem_in.
      * apply IH; [intros k1 it1 H1; apply (NE k1 it1); right; auto|]. intros k1 it1 s1 r1 H1. apply (H k1 it1 s1 r1). right. auto.
    + intros k s. rewrite filter_In. cbn [fst]. rewrite str_mem_in. tauto.
    + intros k it. split; [intros []|]. intros (I & F). destruct (it_sides it) as [|s0 r] eqn:S; [exact (NE _ _ I S)|].
      inversion F; subst. exact (H _ _ _ _ I S H2).
Qed.
Print Assumptions limit_exact.
Section Ex.
Let sh i : sheet := mkSheet (sheet_name i) [] [] [].
(** all sheets meet, except s0 and s2, which are parallel *)
Let fr : frames := fun a b =>
  if (String.eqb (sh_id a) "s0" && String.eqb (sh_id b) "s2")%bool then Ok None
  else let f := ((1, 0), ((0, 0), [(0, 1); (1, 0); (1, 1)])) in Ok (Some (f, f)).
Let plex0 := mkPlex [("s0", sh 0); ("s1", sh 1); ("s2", sh 2)]%string [].
Let sp := match create_intersections fr plex0 with Ok s => s | Err _ => plex0 end.

Theorem limit_refuted : exists sp ids, ~ exists r, sp_limit sp ids = Ok r /\ is_limit sp ids r.
Proof.
  exists sp, ["s0"; "s1"]%string. intros (r & H & _).
  assert (E : sp_limit sp ["s0"; "s1"]%string = Err AttributeError) by (vm_compute; reflexivity). rewrite E in H. discriminate.
Qed.
Print Assumptions limit_refuted.
Example limit_ex : sp_limit sp ["s2"]%string = Ok (mkPlex [("s2", sh 2)]%string []) /\ sp_limit sp ["s1"]%string = Err AttributeError.
Proof. vm_compute. auto. Qed.

Example lookups_ex : fresh_plex plex0 /\ create_intersections fr plex0 = Ok sp /\
  map is_id (sp_intersides sp (Some "s1"%string)) = [("s0,s1", "s1"); ("s1,s2", "s1")]%string /\
  (s <- sp_interside sp ("s0,s1", "s0")%string ;; o <- opposite s sp ;; Ok (is_id o)) = Ok ("s0,s1", "s1")%string /\
  sp_interside sp ("s0,s2", "s0")%string = Err KeyError /\ sp_interside sp ("s0,s1", "s2")%string = Err AssertionError.
Proof.
  split; [|vm_compute; auto]. split; [reflexivity|]. split.
  - repeat constructor; cbn; intuition discriminate.
  - intros k s H. destruct H as [H|[H|[H|[]]]]; injection H as <- <-; (split; [reflexivity|]); intros K; vm_compute in K; intuition discriminate.
Qed.

(** ** C46 *)
Theorem intersection_ids_unordered : forall a b c d, no_comma a -> no_comma b -> no_comma c -> no_comma d ->
  (intersection_id a b = intersection_id c d <-> (a = c /\ b = d) \/ (a = d /\ b = c)).
Proof. exact intersection_id_iff. Qed.
Print Assumptions intersection_ids_unordered.
(** the hypothesis on commas is needed *)
Example intersection_ids_comma : intersection_id "a" "b,c" = intersection_id "a,b" "c" /\ intersection_id "s1" "s0" = "s0,s1"%string.
Proof. vm_compute. auto. Qed.
Theorem sheet_names_good : (forall n, no_comma (sheet_name n)) /\ (forall n m, sheet_name n = sheet_name m -> n = m).
Proof. split; [exact sheet_name_no_comma|exact sheet_name_inj]. Qed.
Print Assumptions sheet_names_good.
Example sheet_names_ex : sheet_name 0 = "s0"%string /\ sheet_name 120 = "s120"%string.
Proof. vm_compute. auto. Qed.

(** every two sheets that the float code does not find parallel get exactly one intersection, every
    other two get none, and there is no other intersection *)
Theorem one_intersection_per_pair : forall fr sp0 sp, fresh_plex sp0 -> create_intersections fr sp0 = Ok sp ->
  sp_sheets sp = sp_sheets sp0 /\ NoDup (keys (sp_inters sp)) /\
  (forall a b, before (values (sp_sheets sp0)) a b ->
     (fr a b = Ok None /\ forall k it, In (k, it) (sp_inters sp) -> ~ joins it (sh_id a) (sh_id b)) \/
     (exists f1 f2, fr a b = Ok (Some (f1, f2)) /\
        exists it, forall k it', In (k, it') (sp_inters sp) /\ joins it' (sh_id a) (sh_id b) <->
                     k = intersection_id (sh_id a) (sh_id b) /\ it' = it)) /\
  (forall k it, In (k, it) (sp_inters sp) -> it_id it = k /\
     exists a b, before (values (sp_sheets sp0)) a b /\ joins it (sh_id a) (sh_id b)).
Proof.
  intros fr0 sp0 sp1 F R. destruct (created fr0 sp0 sp1 F R) as (S0 & ND & Fr & G). destruct (fresh_ids _ F) as (N & C).
  split; auto. split; auto.
  assert (J : forall a b f1 f2 x y, joins (made (a, b) f1 f2) x y <-> (sh_id a = x /\ sh_id b = y) \/ (sh_id a = y /\ sh_id b = x)).
  { intros a b (d1 & o1 & os1) (d2 & o2 & os2) x y. unfold joins. cbn. split.
    - intros [E|E]; injection E as -> ->; auto.
    - intros [(-> & ->)|(-> & ->)]; auto. }
  assert (U : forall a b a' b', before (values (sp_sheets sp0)) a b -> before (values (sp_sheets sp0)) a' b' ->
     (sh_id a' = sh_id a /\ sh_id b' = sh_id b) \/ (sh_id a' = sh_id b /\ sh_id b' = sh_id a) -> (a', b') = (a, b)).
  { intros a b a' b' B B' E. pose proof (before_ids _ _ _ N B) as (NE & Ia & Ib). pose proof (before_ids _ _ _ N B') as (NE' & Ia' & Ib').
    apply in_pairs in B, B'. pose proof (nodup_pids _ N C) as NP.
    assert (P : pid (a', b') = pid (a, b)). { unfold pid. cbn [fst snd]. apply intersection_id_iff; auto. }
    clear -NP P B B'. induction (pairs_of (values (sp_sheets sp0))) as [|p ps IH]; [destruct B|]. cbn in NP. inversion NP as [|? ? N1 N2]; subst.
    destruct B as [->|B], B' as [B'|B']; auto.
    - exfalso. apply N1. rewrite <- P. now apply in_map.
    - subst. exfalso. apply N1. rewrite P. now apply in_map. }
  split.
  - intros a b B. destruct (Fr a b B) as ([(f1 & f2)|] & E); [right|left].
    + exists f1, f2. split; auto. exists (made (a, b) f1 f2). intros k it'. rewrite G. split.
      * intros ((a' & b' & g1 & g2 & B' & E' & -> & ->) & Jn). apply J in Jn. pose proof (U a b a' b' B B' Jn) as Q. injection Q as -> ->.
        rewrite E in E'. injection E' as <- <-. auto.
      * intros (-> & ->). split; [exists a, b, f1, f2; auto|]. apply J. auto.
    + split; auto. intros k it I Jn. apply G in I as (a' & b' & g1 & g2 & B' & E' & -> & ->). apply J in Jn.
      pose proof (U a b a' b' B B' Jn) as Q. injection Q as -> ->. congruence.
  - intros k it I. apply G in I as (a & b & f1 & f2 & B & _ & -> & ->). split; [reflexivity|]. exists a, b. split; auto. apply J. auto.
Qed.
Print Assumptions one_intersection_per_pair.
Example pairs_ex : keys (sp_inters sp) = ["s0,s1"; "s1,s2"]%string /\ before (values (sp_sheets plex0)) (sh 0) (sh 2).
Proof. split; [vm_compute; reflexivity|]. exists [], [sh 1], []. reflexivity. Qed.
End Ex.
