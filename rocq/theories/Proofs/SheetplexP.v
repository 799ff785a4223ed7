(** * Lemmas about sheetplexes: intersection ids and the construction of intersections. *)
From Verif.Model Require Import Sheetplex.
From Verif.Proofs Require Import PyP DictP.
From Coq Require Import String Ascii List DecimalString DecimalNat Decimal.
Import ListNotations.

(** ** strings as character lists *)
Definition chars := list_ascii_of_string.
Definition no_comma (s : string) : Prop := ~ In ","%char (chars s).
Lemma chars_app a b : chars (String.append a b) = (chars a ++ chars b)%list.
Proof. unfold chars. induction a as [|c a IH]; [reflexivity|]. cbn [String.append list_ascii_of_string app]. now rewrite IH. Qed.
Lemma chars_inj a b : chars a = chars b -> a = b.
Proof.
  intros H. rewrite <- (string_of_list_ascii_of_string a), <- (string_of_list_ascii_of_string b). unfold chars in H. now rewrite H.
Qed.
Lemma split_unique {X} (c : X) l1 l2 m1 m2 : ~ In c l1 -> ~ In c m1 -> l1 ++ c :: l2 = m1 ++ c :: m2 -> l1 = m1 /\ l2 = m2.
Proof.
  revert m1. induction l1 as [|x l1 IH]; intros [|y m1] H1 H2 E; cbn in *.
  - injection E as <-. auto.
  - injection E as <- _. tauto.
  - injection E as -> _. tauto.
  - injection E as <- E. destruct (IH m1) as (-> & ->); auto.
Qed.
Lemma join_inj a b c d : no_comma a -> no_comma c -> (a ++ "," ++ b = c ++ "," ++ d)%string -> a = c /\ b = d.
Proof.
  intros A C E. apply (f_equal chars) in E. rewrite !chars_app in E. cbn in E.
  apply (split_unique ","%char) in E as (E1 & E2); auto. split; now apply chars_inj.
Qed.
Lemma ltb_cases a b : (String.ltb a b = true /\ String.ltb b a = false /\ a <> b) \/ (String.ltb a b = false /\ String.ltb b a = true /\ a <> b) \/
  (a = b /\ String.ltb a b = false /\ String.ltb b a = false).
Proof.
  unfold String.ltb. rewrite (String.compare_antisym a b). destruct (String.compare b a) eqn:E; cbn.
  - apply String.compare_eq_iff in E. subst. right. right. auto.
  - right. left. repeat split; auto. intros ->. pose proof (String.compare_antisym b b) as H. rewrite E in H. discriminate.
  - left. repeat split; auto. intros ->. pose proof (String.compare_antisym b b) as H. rewrite E in H. discriminate.
Qed.
Lemma intersection_id_iff a b c d : no_comma a -> no_comma b -> no_comma c -> no_comma d ->
  (intersection_id a b = intersection_id c d <-> (a = c /\ b = d) \/ (a = d /\ b = c)).
Proof.
  intros A B C D. unfold intersection_id.
  destruct (ltb_cases a b) as [(H1 & H2 & H3)|[(H1 & H2 & H3)|(<- & H1 & H2)]], (ltb_cases c d) as [(G1 & G2 & G3)|[(G1 & G2 & G3)|(<- & G1 & G2)]];
    try rewrite H2; try rewrite G2; (split; [intros E; apply join_inj in E as (E1 & E2); [|assumption|assumption]; subst; auto|]);
    intros [(E1 & E2)|(E1 & E2)]; subst; congruence.
Qed.

(** ** generated names *)
Lemma uint_no_comma u : ~ In ","%char (chars (NilEmpty.string_of_uint u)).
Proof. induction u; cbn; [tauto|..]; intros [H|H]; try discriminate; exact (IHu H). Qed.
Lemma sheet_name_no_comma n : no_comma (sheet_name n).
Proof. unfold no_comma, sheet_name. rewrite chars_app. cbn. intros [H|H]; [discriminate|]. exact (uint_no_comma _ H). Qed.
Lemma sheet_name_inj n m : sheet_name n = sheet_name m -> n = m.
Proof.
  unfold sheet_name. intros H. injection H as H. apply (f_equal NilEmpty.uint_of_string) in H. rewrite !NilEmpty.usu in H.
  injection H as H. now apply Unsigned.to_uint_inj.
Qed.

(** ** all pairs *)
Fixpoint pairs_of {X} (l : list X) : list (X * X) :=
  match l with [] => [] | x :: r => map (fun y => (x, y)) r ++ pairs_of r end.
Lemma foldM_app {S X} (f : S -> X -> result S) l1 l2 s : foldM f (l1 ++ l2) s = (s' <- foldM f l1 s ;; foldM f l2 s').
Proof. revert s. induction l1 as [|x l1 IH]; intros s; cbn; [reflexivity|]. destruct (f s x); cbn; auto. Qed.
Lemma foldM_map {S X Y} (g : Y -> X) (f : S -> X -> result S) l s : foldM f (map g l) s = foldM (fun s y => f s (g y)) l s.
Proof. revert s. induction l as [|x l IH]; intros s; cbn; [reflexivity|]. destruct (f s (g x)); cbn; auto. Qed.
Lemma create_loop_pairs fr sp l :
  create_inters_loop fr sp l = foldM (fun sp ab => create_intersection fr sp (fst ab) (snd ab)) (pairs_of l) sp.
Proof.
  revert sp. induction l as [|x l IH]; intros sp; cbn [create_inters_loop pairs_of]; [reflexivity|].
  rewrite foldM_app, foldM_map. cbn [fst snd].
  destruct (foldM (fun sp s' => create_intersection fr sp x s') l sp); cbn [bind]; auto.
Qed.
Lemma in_pairs {X} (l : list X) a b : In (a, b) (pairs_of l) <-> exists l1 l2 l3, l = l1 ++ a :: l2 ++ b :: l3.
Proof.
  induction l as [|x l IH]; cbn.
  - split; [tauto|]. intros ([|? ?] & ? & ? & E); discriminate.
  - rewrite in_app_iff, in_map_iff, IH. split.
    + intros [(y & E & H)|(l1 & l2 & l3 & ->)].
      * injection E as -> ->. apply in_split in H as (l2 & l3 & ->). exists [], l2, l3. reflexivity.
      * exists (x :: l1), l2, l3. reflexivity.
    + intros ([|y l1] & l2 & l3 & E); injection E as <- ->.
      * left. exists b. split; auto. apply in_app_iff. cbn. auto.
      * right. eauto.
Qed.
Lemma pairs_in_l {X} (l : list X) a b : In (a, b) (pairs_of l) -> In a l /\ In b l.
Proof.
  intros H. apply in_pairs in H as (l1 & l2 & l3 & ->). split; apply in_app_iff; right; [left; auto|right; apply in_app_iff; right; left; auto].
Qed.
Lemma nodup_app {X} (l1 l2 : list X) : NoDup l1 -> NoDup l2 -> (forall x, In x l1 -> ~ In x l2) -> NoDup (l1 ++ l2).
Proof.
  induction 1 as [|x l1 H N IH]; cbn; intros N2 D; auto. constructor; auto.
  rewrite in_app_iff. intros [A|A]; [auto|]. apply (D x); auto.
Qed.
Definition pid (ab : sheet * sheet) : string := intersection_id (sh_id (fst ab)) (sh_id (snd ab)).
Lemma nodup_pids l : NoDup (map sh_id l) -> (forall s, In s l -> no_comma (sh_id s)) -> NoDup (map pid (pairs_of l)).
Proof.
  induction l as [|x l IH]; cbn; intros N C; [constructor|]. inversion N as [|? ? N1 N2]; subst.
  rewrite map_app, map_map. apply nodup_app; [| |].
  - cbn. clear IH N. revert N1 N2 C. induction l as [|y l IH]; cbn; intros N1 N2 C; [constructor|]. inversion N2; subst. constructor.
    + intros H. apply in_map_iff in H as (z & E & Hz). unfold pid in E. cbn in E. apply intersection_id_iff in E; auto.
      destruct E as [(_ & E)|(E1 & E2)]; [apply H1; rewrite <- E; now apply in_map|]. apply N1. left. auto.
    + apply IH; auto. intros s [<-|Hs]; apply C; auto. 
  - apply IH; auto.
  - intros i H1 H2. apply in_map_iff in H1 as (y & <- & Hy). apply in_map_iff in H2 as ((a & b) & E & Hab).
    apply pairs_in_l in Hab as (Ha & Hb). unfold pid in E. cbn in E. apply intersection_id_iff in E; auto.
    apply N1. destruct E as [(E & _)|(_ & E)]; rewrite <- E; now apply in_map.
Qed.

Definition made (ab : sheet * sheet) (f1 f2 : frame) : intersection :=
  mkInter (pid ab) [create_inter_side (pid ab) (sh_id (fst ab)) 0 f1; create_inter_side (pid ab) (sh_id (snd ab)) 1 f2].
Lemma create_pairs_ok fr ps : forall sp sp', NoDup (map pid ps) -> NoDup (keys (sp_inters sp)) ->
  (forall p, In p ps -> ~ In (pid p) (keys (sp_inters sp))) ->
  foldM (fun sp ab => create_intersection fr sp (fst ab) (snd ab)) ps sp = Ok sp' ->
  sp_sheets sp' = sp_sheets sp /\ NoDup (keys (sp_inters sp')) /\ (forall p, In p ps -> exists o, fr (fst p) (snd p) = Ok o) /\
  forall k it, In (k, it) (sp_inters sp') <->
    In (k, it) (sp_inters sp) \/ exists p f1 f2, In p ps /\ fr (fst p) (snd p) = Ok (Some (f1, f2)) /\ k = pid p /\ it = made p f1 f2.
Proof.
  induction ps as [|[a b] ps IH]; intros sp sp' N ND D R; cbn [foldM] in R.
  - injection R as <-. split; auto. split; auto. split; [intros ? []|]. intros k it. split; auto. intros [H|(p & ? & ? & [] & _)]; auto.
  - destruct (create_intersection fr sp (fst (a, b)) (snd (a, b))) as [sp1|] eqn:C; cbn [bind] in R; [|discriminate].
    cbn [map] in N. inversion N as [|? ? N1 N2]; subst. unfold create_intersection in C. cbn [fst snd] in C.
    destruct (fr a b) as [o|] eqn:F; cbn [bind] in C; [|discriminate].
    assert (I1 : sp_sheets sp1 = sp_sheets sp /\ NoDup (keys (sp_inters sp1)) /\
      (forall j, In j (keys (sp_inters sp1)) -> In j (keys (sp_inters sp)) \/ j = pid (a, b)) /\
      forall k it, In (k, it) (sp_inters sp1) <-> In (k, it) (sp_inters sp) \/ exists f1 f2, o = Some (f1, f2) /\ k = pid (a, b) /\ it = made (a, b) f1 f2).
    { destruct o as [(f1 & f2)|]; injection C as <-; cbn [sp_sheets sp_inters].
      - split; auto. split; [apply nodup_dset; auto; apply string_eqb_ok|]. split.
        + intros j Hj. apply (in_keys_dset _ string_eqb_ok) in Hj as [->|Hj]; auto.
        + intros k it. split.
          * intros H. apply (in_dset _ string_eqb_ok) in H as [H|(H & _)]; auto. right. exists f1, f2. injection H as -> ->. auto.
          * change (intersection_id (sh_id a) (sh_id b)) with (pid (a, b)).
            intros H. apply (dget_nodup _ string_eqb_ok); [apply nodup_dset; auto; apply string_eqb_ok|].
            rewrite (dget_dset _ string_eqb_ok). destruct H as [H|(g1 & g2 & E & -> & ->)].
            -- destruct (eqb_case _ string_eqb_ok k (pid (a, b))) as [(-> & ->)|(-> & NE)].
               ++ exfalso. apply (D (a, b)); [left; auto|]. apply in_map_iff. exists (pid (a, b), it). auto.
               ++ now apply (dget_nodup _ string_eqb_ok).
            -- injection E as <- <-. rewrite (DictP.eqb_refl _ string_eqb_ok). reflexivity.
      - split; auto. split; auto. split; auto. intros k it. split; auto. intros [H|(f1 & f2 & E & _)]; [auto|discriminate]. }
    destruct I1 as (S1 & ND1 & K1 & In1). destruct (IH sp1 sp') as (S2 & ND2 & Fr & In2); auto.
    { intros p Hp Hk. apply K1 in Hk as [Hk|Hk]; [apply (D p); auto; right; auto|]. apply N1. rewrite <- Hk. now apply in_map. }
    split; [congruence|]. split; auto. split.
    { intros p [<-|Hp]; [exists o; exact F|now apply Fr]. }
    intros k it. rewrite In2, In1. split.
    + intros [[H|(f1 & f2 & -> & -> & ->)]|(p & f1 & f2 & Hp & E & -> & ->)]; auto.
      * right. exists (a, b), f1, f2. cbn. auto.
      * right. exists p, f1, f2. cbn. auto.
    + intros [H|(p & f1 & f2 & [<-|Hp] & E & -> & ->)]; auto.
      * left. right. exists f1, f2. cbn [fst snd] in E. rewrite F in E. injection E as ->. auto.
      * right. exists p, f1, f2. auto.
Qed.
