(** * Cut lines of the results of the operators *)
From Verif.Model Require Import SegmentTree CellMerger Arrangement2d Geom2d.
From Verif.Spec Require Import Plane Region Crisp Cut.
From Verif.Proofs Require Import PyP PolyP WindingP WindingQ WindingR NearP Geom2dP Geom2dOps MergerQ PlanarP ArrGraphP ArrSoundP CrispP.
From Coq Require Import Permutation.

(** ** lists whose members do not cross *)
Definition apart (e f : segment) : Prop := forall x, (inner e x -> ~ on_seg f x) /\ (inner f x -> ~ on_seg e x).
Lemma apart_sym e f : apart e f -> apart f e.
Proof. intros H x. destruct (H x). auto. Qed.
Lemma apart_rev e f : apart e f -> apart (rev_e e) f.
Proof. intros H x. destruct (H x) as (A & B). split; [intros I; apply A; now apply inner_rev in I|]. intros I O. apply (B I). now apply on_rev. Qed.
Fixpoint pairwise (l : list segment) : Prop := match l with [] => True | e :: r => Forall (apart e) r /\ pairwise r end.
Lemma pairwise_perm l l' : Permutation l l' -> pairwise l -> pairwise l'.
Proof.
  intros P. induction P as [|x l l' P IH|x y l|]; cbn; auto.
  - intros (F & H). split; auto. now rewrite <- P.
  - intros (F & G & H). inversion F; subst. split; [constructor; auto using apart_sym|]. auto.
Qed.
Lemma pairwise_map f l : (forall e g, apart e g -> apart (f e) (f g)) -> pairwise l -> pairwise (map f l).
Proof.
  intros K. induction l as [|e l IH]; cbn; auto. intros (F & H). split; auto. apply Forall_forall. intros g G. apply in_map_iff in G as (h & <- & G). rewrite Forall_forall in F. auto.
Qed.
Lemma pairwise_app l m : pairwise (l ++ m) <-> pairwise l /\ pairwise m /\ forall e f, In e l -> In f m -> apart e f.
Proof.
  induction l as [|e l IH]; cbn; [intuition|]. rewrite Forall_app, IH. split.
  - intros ((F1 & F2) & H1 & H2 & H3). split; [auto|]. split; [auto|]. intros a f [<-|I] J; auto. rewrite Forall_forall in F2. auto.
  - intros ((F1 & H1) & H2 & H3). split; [split; auto; apply Forall_forall; auto|auto].
Qed.
Lemma pairwise_nth l : pairwise l -> forall i j e f x, nth_error l i = Some e -> nth_error l j = Some f -> inner e x -> on_seg f x -> i = j.
Proof.
  induction l as [|a l IH]; intros P i j e f x E1 E2 I O; [destruct i; discriminate|]. destruct P as (F & P). rewrite Forall_forall in F. destruct i as [|i], j as [|j]; auto; cbn in E1, E2.
  - apply some_inv in E1 as ->. exfalso. apply (proj1 (F f (nth_error_In _ _ E2) x)); auto.
  - apply some_inv in E2 as ->. exfalso. apply (proj2 (F e (nth_error_In _ _ E1) x)); auto.
  - f_equal. eapply IH; eauto.
Qed.
(** positions in a concatenation *)
Lemma flat_pos {X} (f : X -> list segment) l k a i e : nth_error l k = Some a -> nth_error (f a) i = Some e ->
  nth_error (flat_map f l) (length (flat_map f (firstn k l)) + i) = Some e.
Proof.
  revert k. induction l as [|b l IH]; intros k E1 E2; [destruct k; discriminate|]. destruct k as [|k]; cbn [firstn flat_map nth_error] in *.
  - apply some_inv in E1 as ->. cbn [length]. rewrite nth_error_app1; auto. apply nth_error_Some. cbn. congruence.
  - rewrite app_length, <- Nat.add_assoc, nth_error_app2 by lia. replace (_ + _ - _)%nat with (length (flat_map f (firstn k l)) + i)%nat by lia. auto.
Qed.
Lemma flat_pos_inj {X} (f : X -> list segment) l k k' a a' i i' : nth_error l k = Some a -> nth_error l k' = Some a' -> (i < length (f a))%nat -> (i' < length (f a'))%nat ->
  (length (flat_map f (firstn k l)) + i = length (flat_map f (firstn k' l)) + i')%nat -> k = k' /\ i = i'.
Proof.
  revert k k'. induction l as [|b l IH]; intros [|k] [|k'] E1 E2 L1 L2 E; try discriminate; cbn [firstn flat_map nth_error] in *.
  - cbn in E. auto.
  - apply some_inv in E1 as ->. rewrite app_length in E. cbn [length] in E. lia.
  - apply some_inv in E2 as ->. rewrite app_length in E. cbn [length] in E. lia.
  - rewrite !app_length in E. destruct (IH k k' E1 E2 L1 L2); [lia|]. auto.
Qed.
Definition cutlist (g : geom2d) : list segment := flat_map edges_iter (outlines g).
Lemma pairwise_cuts g : pairwise (cutlist g) -> no_crossing g.
Proof.
  intros P k i e k' i' e' x (r & R & E) (r' & R' & E') I O. change cyclic_pairs with edges_iter in E, E'.
  pose proof (flat_pos edges_iter _ _ _ _ _ R E) as P1. pose proof (flat_pos edges_iter _ _ _ _ _ R' E') as P2.
  pose proof (pairwise_nth _ P _ _ _ _ x P1 P2 I O) as Q. eapply flat_pos_inj; [exact R|exact R'| | |exact Q]; apply nth_error_Some; congruence.
Qed.
Lemma cuts_pairwise g : no_crossing g -> pairwise (cutlist g).
Proof.
  intros N.
  assert (G : forall l, (forall i j e f x, nth_error l i = Some e -> nth_error l j = Some f -> inner e x -> on_seg f x -> i = j) -> pairwise l).
  { induction l as [|e l IH]; intros H; cbn; auto. split.
    - apply Forall_forall. intros f F. apply In_nth_error in F as (j & F). intros x. split; intros I O.
      + discriminate (H 0%nat (S j) e f x eq_refl F I O).
      + discriminate (H (S j) 0%nat f e x F eq_refl I O).
    - apply IH. intros i j a b x A B I O. specialize (H (S i) (S j) a b x A B I O). lia. }
  apply G.
  assert (U : forall (l : list (list point)) j e, nth_error (flat_map edges_iter l) j = Some e ->
    exists k r i, nth_error l k = Some r /\ nth_error (edges_iter r) i = Some e /\ j = (length (flat_map edges_iter (firstn k l)) + i)%nat).
  { clear. induction l as [|r l IH]; intros j e H; [destruct j; discriminate|]. cbn [flat_map] in H. destruct (Nat.lt_ge_cases j (length (edges_iter r))) as [L|L].
    - rewrite nth_error_app1 in H by auto. exists 0%nat, r, j. auto.
    - rewrite nth_error_app2 in H by auto. apply IH in H as (k & r' & i & E1 & E2 & E3). exists (S k), r', i. split; auto. split; auto. cbn [firstn flat_map]. rewrite app_length. lia. }
  intros i j e f x E F I O. apply U in E as (k & r & i0 & R & E & ->). apply U in F as (k' & r' & i0' & R' & F & ->).
  destruct (N k i0 e k' i0' f x) as (-> & ->); auto; [exists r; auto|exists r'; auto].
Qed.

(** ** the result of an operation *)
Lemma redges_cutlist r : exists X Y, Permutation (cutlist r) (X ++ Y) /\ Permutation (redges r) (X ++ map rev_e Y).
Proof.
  exists (flat_map edges_iter (map outer r)), (flat_map edges_iter (flat_map holes r)). split.
  - unfold cutlist, outlines. induction r as [|s r IH]; cbn [flat_map map]; auto. rewrite flat_map_app. cbn [flat_map]. rewrite IH. rewrite <- !app_assoc. apply Permutation_app_head.
    rewrite flat_map_app, !app_assoc. apply Permutation_app_tail. apply Permutation_app_comm.
  - unfold redges. apply Permutation_app_head. generalize (flat_map holes r). intros l. induction l as [|h l IH]; cbn [flat_map map]; auto. rewrite map_app. apply Permutation_app; auto. apply edges_iter_rev.
Qed.
Lemma rev_rev_e e : rev_e (rev_e e) = e.
Proof. now destruct e. Qed.
Lemma planar_pairwise E l : planar E -> incl l E -> NoDup l -> noopp l l -> pairwise l.
Proof.
  intros P. induction l as [|e l IH]; intros IE ND NO; cbn; auto. inversion ND; subst. split.
  - apply Forall_forall. intros f F x. split; intros I O.
    + destruct (P e f x (IE e (or_introl eq_refl)) (IE f (or_intror F)) I O) as [->| ->]; [contradiction|]. exact (NO e (or_introl eq_refl) (or_intror F)).
    + destruct (P f e x (IE f (or_intror F)) (IE e (or_introl eq_refl)) I O) as [->| ->]; [contradiction|]. apply (NO f (or_intror F)). left. reflexivity.
  - apply IH; auto; [intros f F; apply IE; now right|]. intros f F G. exact (NO f (or_intror F) (or_intror G)).
Qed.
Theorem arrangement_cut orc geoms op r : Forall is_geom2d geoms -> Forall clean_geom geoms -> op (map (fun _ => false) geoms) = false ->
  arrangement_op (segment_arrangement orc) geoms op = Ok r -> cuttable r.
Proof.
  intros F C OP H. destruct (arrangement_edges orc geoms op r F OP H) as (E & ES & EN & EP & EO & ER & RE & RN & RI & RX).
  pose proof (arrangement_sound orc geoms op r F OP H) as (GR & BD & _).
  assert (RB : forall p, off E p -> ~ on_bd r p) by (intros p O B; apply (BD p B); now apply EO).
  destruct RX as (RO & RX); [intros e c I; exact (no_bridge E geoms EN EP EO ER F e c C I)|]. split.
  - apply pairwise_cuts. pose proof (planar_pairwise E _ EP RE RN RO) as P. destruct (redges_cutlist r) as (X & Y & P1 & P2). apply (pairwise_perm _ _ (Permutation_sym P1)). apply (pairwise_perm _ _ P2) in P.
    apply pairwise_app in P as (A & B & D). apply pairwise_app. split; auto. split.
    + apply (pairwise_map rev_e) in B; [|intros; now apply apart_rev, apart_sym, apart_rev, apart_sym]. rewrite map_map in B. erewrite map_ext, map_id in B; [auto|]. intros a. apply rev_rev_e.
    + intros e f I J. apply apart_sym. rewrite <- (rev_rev_e f). apply apart_rev, apart_sym, D; auto. now apply in_map.
  - assert (K1 : forall e, In e (redges r) -> on_right e (material r) /\ on_left e (waste r)).
    { intros e I. split; intros x d IX S.
      - destruct (RI e I x d IX S) as (k & K & T). exists k. split; auto. intros t T0 T1. destruct (T t T0 T1) as (A & B). split; auto.
      - destruct (RX e I x d) as (k & K & T); [now apply inner_rev| |].
        + unfold right_of. replace (cross (dir (rev_e e)) d) with (- cross (vsub (snd e) (fst e)) d) by (unfold rev_e; vec; ring). clear -S. qlra.
        + exists k. split; auto. intros t T0 T1. destruct (T t T0 T1) as (A & B). split; auto. }
    split.
    + intros s e Hs He. apply K1. apply is_edge_iter in He. unfold redges. apply in_or_app. left. apply in_flat_map. exists (outer s). split; auto. now apply in_map.
    + intros s h e Hs Hh He. apply is_edge_iter in He. assert (I : In (rev_e e) (redges r)).
      { unfold redges. apply in_or_app. right. apply in_flat_map. exists (rev h). split; [apply in_map, in_flat_map; eauto|]. apply (Permutation_in _ (Permutation_sym (edges_iter_rev h))). apply in_map_iff. exists e. auto. }
      destruct (K1 _ I) as (A & B). assert (EQ : forall d, cross (vsub (snd (rev_e e)) (fst (rev_e e))) d = - cross (vsub (snd e) (fst e)) d) by (intros d; unfold rev_e; vec; ring).
      split; intros x d IX S; [apply (A x d)|apply (B x d)]; try (now apply inner_rev); rewrite EQ; clear -S; qlra.
Qed.
Lemma cuttable_nil : cuttable [].
Proof.
  split; [intros k i e k' i' e' x (r & R & _); destruct k; discriminate|]. split; intros s; [intros e []|intros h e []].
Qed.
