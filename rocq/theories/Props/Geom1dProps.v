(** * Properties C01-C11 (Geom1D) and C65 (exact conversion). *)
From Verif.Proofs Require Import Geom1dM.

(** Every value the public API can produce: expression trees over the constructor and all
    operators.  [EPiece n] is the n-th element of disjoint_pieces(). *)
Inductive gexpr :=
| ENew (l : list (list pynum)) | EEmpty | EFull
| EOr (a b : gexpr) | EAnd (a b : gexpr) | ESub (a b : gexpr) | EXor (a b : gexpr) | EInv (a : gexpr)
| EBuffer (a : gexpr) (amount : pynum) | EFilter (f : ext -> ext -> bool) (a : gexpr)
| EPiece (n : nat) (a : gexpr).
Fixpoint eval (e : gexpr) : result geom1d :=
  match e with
  | ENew l => Geom1D l | EEmpty => g_empty | EFull => g_full
  | EOr a b => x <- eval a ;; y <- eval b ;; g_or x y
  | EAnd a b => x <- eval a ;; y <- eval b ;; g_and x y
  | ESub a b => x <- eval a ;; y <- eval b ;; g_sub x y
  | EXor a b => x <- eval a ;; y <- eval b ;; g_xor x y
  | EInv a => x <- eval a ;; g_invert x
  | EBuffer a q => x <- eval a ;; buffer x q
  | EFilter f a => x <- eval a ;; g_filter f x
  | EPiece n a => x <- eval a ;; l <- disjoint_pieces x ;;
                  match nth_error l n with Some p => Ok p | None => Err IndexError end
  end.
(** A Geom1D value is any result of such an expression. *)
Definition is_geom1d (g : geom1d) : Prop := exists e, eval e = Ok g.

Lemma eval_normal e g : eval e = Ok g -> normal g.
Proof.
  revert g. induction e; simpl; intros g H; minv.
  - destruct (Geom1D_ok l) as [E V]. { eapply Geom1D_inv; eauto. }
    rewrite E in H. minv. now apply normalize_normal.
  - change (Ok (@nil iv) = Ok g) in H. minv. exact I.
  - change (Ok [(NInf, PInf)] = Ok g) in H. minv. repeat split.
  - rewrite g_or_ok in H; auto. minv. apply or_normal; auto.
  - rewrite g_and_ok in H; auto. minv. apply and_normal; auto.
  - rewrite g_sub_ok in H; auto. minv. apply sub_normal; auto.
  - rewrite g_xor_ok in H; auto. minv. apply xor_normal; auto.
  - rewrite g_invert_ok in H; auto. minv. apply inv_normal; auto.
  - unfold buffer in H. minv. rewrite buffer_q_ok in H. minv. apply buffer_normal.
  - rewrite g_filter_ok in H; auto. minv. apply normal_filter; auto.
  - specialize (IHe _ E). rewrite disjoint_pieces_ok in E0; auto. minv.
    rewrite nth_error_map in H. unfold geom1d, iv in *. destruct (nth_error r n) eqn:En; simpl in H; [|discriminate H].
    minv. apply nth_error_In in En. apply normal_single. eapply normal_In; eauto.
Qed.

Lemma is_geom1d_normal g : is_geom1d g -> normal g.
Proof. intros (e & H). eapply eval_normal; eauto. Qed.

(** ** C01 *)
Theorem geom1d_normal_form : forall e g, eval e = Ok g -> normal g.
Proof. exact eval_normal. Qed.
Print Assumptions geom1d_normal_form.

Definition ivz (a b : Z) : list pynum := [NInt a; NInt b].
Example geom1d_normal_form_ex :
  eval (EXor (ENew [ivz 4 5; ivz 0 2; ivz 1 3; ivz 3 3]) (EBuffer (ENew [ivz 2 2; ivz 2 6]) (NInt 1)))
  = Ok [(Fin (zq 0), Fin (zq 1)); (Fin (zq 3), Fin (zq 4)); (Fin (zq 5), Fin (zq 7))].
Proof. reflexivity. Qed.

(** Exact types: the input values that denote a rational or an infinity exactly. *)
Definition exact_val (v : pynum) : option ext :=
  match v with
  | NInt z | NMpz z => Some (Fin (zq z))
  | NFrac q | NMpq q => Some (Fin q)
  | NPosInf => Some PInf | NNegInf => Some NInf
  | NFloat _ | NNan => None
  end.
(** An acceptable interval denotes an extended-rational pair a <= b. *)
Definition denotes (i : list pynum) (p : ext * ext) : Prop :=
  exists a b, i = [a; b] /\ exact_val a = Some (fst p) /\ exact_val b = Some (snd p) /\ ele (fst p) (snd p).

Lemma ffeoi_exact v e : FractionFromExactOrInf v = Ok e <-> exact_val v = Some e.
Proof. destruct v; simpl; split; intros H; congruence. Qed.
Lemma denotes_conv i p : denotes i p <-> conv_interval i = Ok p.
Proof.
  split.
  - intros (a & b & -> & A & B & L). simpl. apply ffeoi_exact in A, B.
    assert (py_leb a b = true) as ->.
    { unfold py_leb. rewrite (FFEOI_val _ _ A), (FFEOI_val _ _ B). now apply eleb_le. }
    simpl. rewrite A, B. simpl. now destruct p.
  - intros H. apply conv_val in H. destruct H as (a & b & -> & A & B & L).
    exists a, b. repeat split; auto; now apply ffeoi_exact.
Qed.

(** ** C02 *)
Theorem geom1d_construction_union : forall l g x,
  Geom1D l = Ok g -> (pts g x <-> exists i p, In i l /\ denotes i p /\ in_iv x p).
Proof.
  intros l g x H. pose proof (Geom1D_inv _ _ H) as C. destruct (Geom1D_ok l C) as [E V].
  rewrite E in H. minv. rewrite pts_epts, normalize_epts by auto. split.
  - intros (p & Hp & Hx). apply in_map_iff in Hp. destruct Hp as (i & <- & Hi).
    exists i, (conv_pure i). split; auto. split; auto. apply denotes_conv.
    unfold conv_pure. destruct (C i Hi) as (q & ->). auto.
  - intros (i & p & Hi & D & Hx). exists p. split; auto. apply in_map_iff. exists i. split; auto.
    unfold conv_pure. apply denotes_conv in D. now rewrite D.
Qed.
Print Assumptions geom1d_construction_union.
Example geom1d_construction_union_ex :
  exists g, Geom1D [ivz 4 6; ivz 0 2; ivz 1 3; [NNegInf; NFrac (qq (-1) 2)]] = Ok g
            /\ pts g (qq 5 2) /\ ~ pts g (zq 3).
Proof.
  eexists. split; [reflexivity|]. split.
  - exists (Fin (zq 0), Fin (zq 3)). split; [right; left; reflexivity|]. split; reflexivity || (cbv; discriminate).
  - intros (i & Hi & E1 & E2). simpl in Hi.
    destruct Hi as [<-|[<-|[<-|[]]]]; simpl in *; cbv in E1, E2; try discriminate; congruence || tauto.
Qed.

(** ** C03: a maximal interval of the set is one that cannot be extended *)
Definition maximal (g : geom1d) (a b : ext) : Prop :=
  elt a b /\ (forall x, in_iv x (a, b) -> pts g x) /\
  (forall c d, ele c a -> ele b d -> (forall x, in_iv x (c, d) -> pts g x) -> c = a /\ d = b).
Lemma maximal_in g a b : normal g -> (maximal g a b <-> In (a, b) g).
Proof.
  intros N. assert (C : forall c d, elt c d -> (forall x, in_iv x (c, d) -> pts g x) ->
      exists i, In i g /\ ele (fst i) c /\ ele d (snd i)).
  { intros c d L H. clear -N L H.
    assert (G : forall x, in_iv x (c, d) -> exists i, In i g /\ in_iv x i) by exact H.
    destruct (edense _ _ L) as (x0 & X1 & X2).
    destruct (G x0) as (i & Hi & E1 & E2); [split; auto|].
    exists i. split; auto.
    assert (Sep : forall j, In j g -> j = i \/ elt (snd j) (fst i) \/ elt (snd i) (fst j)).
    { clear -N Hi. revert i Hi. induction g as [|k g IH]; simpl; [tauto|]. intros i Hi j Hj.
      pose proof (normal_after _ _ N) as A. rewrite Forall_forall in A. apply normal_cons in N as (? & ? & ?).
      destruct Hi as [<-|Hi], Hj as [<-|Hj]; auto. }
    split.
    - destruct (elt_or_le c (fst i)) as [L2|]; auto. exfalso.
      (* a point of [c, fst i) just below fst i must be in another interval *)
      assert (P : exists x, ele c (Fin x) /\ elt (Fin x) (fst i) /\
                (forall j, In j g -> elt (snd j) (fst i) -> ele (snd j) (Fin x))).
      { clear -N Hi L2. induction g as [|k g IH].
        - destruct (edense _ _ L2) as (x & ? & ?). exists x. simpl. tauto.
        - pose proof (normal_after _ _ N) as A. rewrite Forall_forall in A.
          apply normal_cons in N as (N1 & N2 & N3).
          destruct Hi as [<-|Hi].
          + destruct (edense _ _ L2) as (x & ? & ?). exists x. repeat split; auto.
            intros j [<-|Hj] Lj; [exfalso; eord|]. specialize (A _ Hj). simpl in A.
            apply normal_In in Hj; auto. exfalso; eord.
          + destruct IH as (x & Y1 & Y2 & Y3); auto.
            destruct (elt_or_le (snd k) (Fin x)).
            * exists x. repeat split; auto. intros j [<-|Hj] Lj; auto. now apply elt_le.
            * specialize (A _ Hi). simpl in A.
              destruct (edense _ _ A) as (y & Z1 & Z2). exists y. repeat split; auto; try eord.
              intros j [<-|Hj] Lj; auto. specialize (Y3 _ Hj Lj). eord. }
      destruct P as (x & P1 & P2 & P3).
      destruct (G x) as (j & Hj & F1 & F2). { split; simpl; auto. eord. }
      destruct (Sep _ Hj) as [->|[S|S]].
      + eord.
      + specialize (P3 _ Hj S). eord.
      + assert (elt (fst i) (snd i)) by (eapply normal_In; eauto). eord.
    - destruct (elt_or_le (snd i) d) as [L2|]; auto. exfalso.
      destruct (snd i) as [|b'|] eqn:Ei; [unfold elt in E2; tauto| |].
      + destruct (G b') as (j & Hj & F1 & F2). { split; simpl; auto. eord. }
        destruct (Sep _ Hj) as [->|[S|S]].
        * rewrite Ei in F2. eord.
        * eord.
        * eord.
      + unfold elt in L2. destruct d; tauto. }
  split.
  - intros (L & H & M). destruct (C a b L H) as ((c, d) & Hi & E1 & E2). simpl in *.
    assert (K : forall x, in_iv x (c, d) -> pts g x) by (intros x Hx; exists (c, d); auto).
    destruct (M c d E1 E2 K). congruence.
  - intros Hi. pose proof (normal_In _ _ N Hi) as L. simpl in L. refine (conj L (conj _ _)).
    + intros x Hx. exists (a, b). auto.
    + intros c d H H0 H1. assert (H2 : elt c d) by eord.
      destruct (C c d H2 H1) as ((p, q) & Hj & F1 & F2). simpl in *.
      assert ((p, q) = (a, b)).
      { clear -N Hi Hj F1 F2 L H H0 H2. induction g as [|k g IH]; [destruct Hi|].
        pose proof (normal_after _ _ N) as A. rewrite Forall_forall in A.
        apply normal_cons in N as (N1 & N2 & N3).
        destruct Hi as [->|Hi], Hj as [->|Hj]; auto.
        - specialize (A _ Hj). simpl in A. exfalso; eord.
        - specialize (A _ Hi). simpl in A. exfalso; eord. }
      assert (p = a) as -> by congruence. assert (q = b) as -> by congruence. split; eord.
Qed.

Theorem geom1d_locate_exact : forall g p, is_geom1d g ->
  (locate g p = 0%Z <-> exists a b, maximal g a b /\ (a = Fin p \/ b = Fin p)) /\
  (locate g p = 1%Z <-> exists a b, maximal g a b /\ elt a (Fin p) /\ elt (Fin p) b) /\
  (locate g p = 0%Z \/ locate g p = 1%Z \/ locate g p = (-1)%Z).
Proof.
  intros g p G. apply is_geom1d_normal in G. repeat split.
  - intros H. apply locate_boundary in H; auto. destruct H as ((a, b) & Hi & H). exists a, b.
    split; auto. now apply maximal_in.
  - intros (a & b & M & H). apply locate_boundary; auto. exists (a, b). split; auto. now apply maximal_in.
  - intros H. apply locate_inside in H; auto. destruct H as ((a, b) & Hi & H). exists a, b.
    split; auto. now apply maximal_in.
  - intros (a & b & M & H). apply locate_inside; auto. exists (a, b). split; auto. now apply maximal_in.
  - apply locate_range.
Qed.
Print Assumptions geom1d_locate_exact.
Example geom1d_locate_exact_ex :
  exists g, eval (ENew [ivz 0 1; ivz 2 3]) = Ok g /\
    map (locate g) [zq (-1); zq 0; qq 1 2; zq 1; qq 3 2; zq 2; qq 5 2; zq 3; zq 4]
    = [-1; 0; 1; 0; -1; 0; 1; 0; -1]%Z.
Proof. eexists; split; reflexivity. Qed.

(** The docstring example "g.locate(1.5) --> 0" (geom1d.py:53) is wrong: the code gives -1. *)
Example geom1d_locate_docstring_refuted :
  exists g, Geom1D [ivz 0 1; ivz 2 3] = Ok g /\ locate g (qq 3 2) = (-1)%Z.
Proof. eexists; split; reflexivity. Qed.
(** Likewise "g ^ h" of the docstring (geom1d.py:60: equivalent to Geom1D([[0, 2]])) : it is. *)
Example geom1d_docstring_ops :
  exists g h, Geom1D [ivz 0 1; ivz 2 3] = Ok g /\ Geom1D [ivz 1 3] = Ok h /\
    g_and g h = Geom1D [ivz 2 3] /\ g_or g h = Geom1D [ivz 0 3] /\ g_sub g h = Geom1D [ivz 0 1] /\
    g_xor g h = Geom1D [ivz 0 2] /\ g_invert h = Geom1D [[NNegInf; NInt 1]; [NInt 3; NPosInf]].
Proof. do 2 eexists; repeat split; reflexivity. Qed.

(** ** C04 *)
Theorem geom1d_ops_pointwise : forall a b, is_geom1d a -> is_geom1d b ->
  exists o n s x i, g_or a b = Ok o /\ g_and a b = Ok n /\ g_sub a b = Ok s /\ g_xor a b = Ok x /\ g_invert a = Ok i /\
  forall p, (pts o p <-> pts a p \/ pts b p) /\
            (pts n p <-> pts a p /\ pts b p) /\
            (pts s p <-> pts a p /\ ~ pts b p) /\
            (pts x p <-> (pts a p /\ ~ pts b p) \/ (~ pts a p /\ pts b p)) /\
            (pts i p <-> ~ pts a p).
Proof.
  intros a b Ha Hb. apply is_geom1d_normal in Ha, Hb.
  exists (or_pure a b), (and_pure a b), (sub_pure a b), (xor_pure a b), (inv_pure a).
  do 5 (split; [auto using g_or_ok, g_and_ok, g_sub_ok, g_xor_ok, g_invert_ok|]). intros p.
  assert (F : elt (Fin p) PInf) by exact I.
  rewrite !pts_epts, or_epts, and_epts, sub_epts, xor_epts, inv_epts by auto. tauto.
Qed.
Print Assumptions geom1d_ops_pointwise.
Example geom1d_ops_pointwise_ex :
  exists a b, eval (ENew [ivz 0 2; [NInt 5; NPosInf]]) = Ok a /\ eval (ENew [ivz 1 6]) = Ok b /\
   g_or a b = Ok [(Fin (zq 0), PInf)] /\
   g_and a b = Ok [(Fin (zq 1), Fin (zq 2)); (Fin (zq 5), Fin (zq 6))] /\
   g_sub a b = Ok [(Fin (zq 0), Fin (zq 1)); (Fin (zq 6), PInf)].
Proof. do 2 eexists; repeat split; reflexivity. Qed.

(** ** C05 *)
Theorem geom1d_canonical : forall a b, is_geom1d a -> is_geom1d b ->
  (forall x, pts a x <-> pts b x) -> a = b.
Proof. intros. apply normal_canonical; auto using is_geom1d_normal. Qed.
Print Assumptions geom1d_canonical.

(** Any Boolean identity holds as equality of interval lists. *)
Inductive bexp := BVar (n : nat) | BEmpty | BFull | BOr (a b : bexp) | BAnd (a b : bexp)
                | BSub (a b : bexp) | BXor (a b : bexp) | BInv (a : bexp).
Fixpoint beval (e : nat -> geom1d) (t : bexp) : result geom1d :=
  match t with
  | BVar n => Ok (e n) | BEmpty => g_empty | BFull => g_full
  | BOr a b => x <- beval e a ;; y <- beval e b ;; g_or x y
  | BAnd a b => x <- beval e a ;; y <- beval e b ;; g_and x y
  | BSub a b => x <- beval e a ;; y <- beval e b ;; g_sub x y
  | BXor a b => x <- beval e a ;; y <- beval e b ;; g_xor x y
  | BInv a => x <- beval e a ;; g_invert x
  end.
Fixpoint bprop (e : nat -> bool) (t : bexp) : bool :=
  match t with
  | BVar n => e n | BEmpty => false | BFull => true
  | BOr a b => bprop e a || bprop e b | BAnd a b => bprop e a && bprop e b
  | BSub a b => bprop e a && negb (bprop e b) | BXor a b => xorb (bprop e a) (bprop e b)
  | BInv a => negb (bprop e a)
  end.
Lemma beval_sem e t : (forall n, normal (e n)) ->
  exists g, beval e t = Ok g /\ normal g /\ forall x, memb g (Fin x) = bprop (fun n => memb (e n) (Fin x)) t.
Proof.
  intros He.
  assert (R : forall g h x, (epts g x <-> epts h x) -> memb g x = memb h x).
  { intros g h x H. destruct (memb_spec g x), (memb_spec h x); tauto. }
  assert (F : forall x, elt (Fin x) PInf) by (intros; exact I).
  induction t; simpl.
  - exists (e n). auto.
  - exists []. repeat split.
  - exists [(NInf, PInf)]. repeat split.
  - destruct IHt1 as (g & -> & Ng & Eg), IHt2 as (h & -> & Nh & Eh). simpl.
    exists (or_pure g h). rewrite g_or_ok by auto. repeat split; auto using or_normal.
    intros x. rewrite <- Eg, <- Eh. pose proof (or_epts g h (Fin x) Ng Nh).
    destruct (memb_spec (or_pure g h) (Fin x)), (memb_spec g (Fin x)), (memb_spec h (Fin x)); simpl; tauto.
  - destruct IHt1 as (g & -> & Ng & Eg), IHt2 as (h & -> & Nh & Eh). simpl.
    exists (and_pure g h). rewrite g_and_ok by auto. repeat split; auto using and_normal.
    intros x. rewrite <- Eg, <- Eh. pose proof (and_epts g h (Fin x) Ng Nh (F x)).
    destruct (memb_spec (and_pure g h) (Fin x)), (memb_spec g (Fin x)), (memb_spec h (Fin x)); simpl; tauto.
  - destruct IHt1 as (g & -> & Ng & Eg), IHt2 as (h & -> & Nh & Eh). simpl.
    exists (sub_pure g h). rewrite g_sub_ok by auto. repeat split; auto using sub_normal.
    intros x. rewrite <- Eg, <- Eh. pose proof (sub_epts g h (Fin x) Ng Nh (F x)).
    destruct (memb_spec (sub_pure g h) (Fin x)), (memb_spec g (Fin x)), (memb_spec h (Fin x)); simpl; tauto.
  - destruct IHt1 as (g & -> & Ng & Eg), IHt2 as (h & -> & Nh & Eh). simpl.
    exists (xor_pure g h). rewrite g_xor_ok by auto. repeat split; auto using xor_normal.
    intros x. rewrite <- Eg, <- Eh. pose proof (xor_epts g h (Fin x) Ng Nh (F x)).
    destruct (memb_spec (xor_pure g h) (Fin x)), (memb_spec g (Fin x)), (memb_spec h (Fin x)); simpl; tauto.
  - destruct IHt as (g & -> & Ng & Eg). simpl.
    exists (inv_pure g). rewrite g_invert_ok by auto. repeat split; auto using inv_normal.
    intros x. rewrite <- Eg. pose proof (inv_epts g (Fin x) Ng (F x)).
    destruct (memb_spec (inv_pure g) (Fin x)), (memb_spec g (Fin x)); simpl; tauto.
Qed.
Theorem geom1d_boolean_laws : forall s t : bexp,
  (forall v, bprop v s = bprop v t) ->
  forall e, (forall n, is_geom1d (e n)) -> beval e s = beval e t /\ exists g, beval e s = Ok g.
Proof.
  intros s t H e He. assert (He' : forall n, normal (e n)) by auto using is_geom1d_normal.
  destruct (beval_sem e s He') as (g & E1 & N1 & S1), (beval_sem e t He') as (h & E2 & N2 & S2).
  rewrite E1, E2. split; [|eauto]. f_equal. apply normal_canonical; auto.
  intros x. rewrite !pts_epts. specialize (S1 x). specialize (S2 x). rewrite H, <- S2 in S1.
  destruct (memb_spec g (Fin x)), (memb_spec h (Fin x)); tauto || discriminate.
Qed.
Print Assumptions geom1d_boolean_laws.
(** The named laws are instances (all variables arbitrary): *)
Corollary geom1d_named_laws : forall e, (forall n, is_geom1d (e n)) ->
  let a := BVar 0 in let b := BVar 1 in let c := BVar 2 in
  beval e (BOr a b) = beval e (BOr b a) /\
  beval e (BAnd a b) = beval e (BAnd b a) /\
  beval e (BOr a (BOr b c)) = beval e (BOr (BOr a b) c) /\
  beval e (BAnd a (BAnd b c)) = beval e (BAnd (BAnd a b) c) /\
  beval e (BAnd a (BOr b c)) = beval e (BOr (BAnd a b) (BAnd a c)) /\
  beval e (BOr a (BAnd b c)) = beval e (BAnd (BOr a b) (BOr a c)) /\
  beval e (BInv (BOr a b)) = beval e (BAnd (BInv a) (BInv b)) /\
  beval e (BInv (BInv a)) = Ok (e 0%nat) /\
  beval e (BOr a (BAnd a b)) = Ok (e 0%nat) /\
  beval e (BXor a b) = beval e (BSub (BOr a b) (BAnd a b)) /\
  beval e (BOr a BEmpty) = Ok (e 0%nat) /\ beval e (BAnd a BFull) = Ok (e 0%nat) /\
  beval e (BOr a (BInv a)) = beval e BFull /\ beval e (BAnd a (BInv a)) = beval e BEmpty.
Proof.
  intros e He a b c.
  assert (L : forall s t, (forall v, bprop v s = bprop v t) -> beval e s = beval e t).
  { intros s t H. now apply geom1d_boolean_laws. }
  change (Ok (e 0%nat)) with (beval e a).
  repeat split; apply L; intros v; simpl; destruct (v 0%nat), (v 1%nat), (v 2%nat); reflexivity.
Qed.
Example geom1d_boolean_laws_ex : is_geom1d [(NInf, Fin (zq 1)); (Fin (zq 2), Fin (zq 3))].
Proof. exists (ENew [ivz 2 3; [NNegInf; NInt 1]]). reflexivity. Qed.

(** ** C06 *)
Theorem geom1d_buffer_minkowski : forall g v q, is_geom1d g -> exact_val v = Some (Fin q) -> 0 <= q ->
  exists h, buffer g v = Ok h /\
  forall x, pts h x <-> exists y, pts g y /\ x - q <= y /\ y <= x + q.
Proof.
  intros g v q G E Hq. apply is_geom1d_normal in G.
  assert (FractionFromExact v = Ok q) as F.
  { destruct v; simpl in *; congruence. }
  unfold buffer. rewrite F. simpl. rewrite buffer_q_ok. eexists; split; auto.
  intros. now apply buffer_minkowski.
Qed.
Print Assumptions geom1d_buffer_minkowski.
Example geom1d_buffer_minkowski_ex :
  exists g, eval (ENew [ivz 0 1; ivz 2 3; ivz 10 11]) = Ok g /\
  buffer g (NFrac (qq 1 2)) = Ok [(Fin (qq (-1) 2), Fin (qq 7 2)); (Fin (qq 19 2), Fin (qq 23 2))].
Proof. eexists; split; reflexivity. Qed.

(** ** C07 *)
Theorem geom1d_buffer_erosion : forall g v q, is_geom1d g -> exact_val v = Some (Fin (- q)) -> 0 <= q ->
  exists h, buffer g v = Ok h /\
  forall x, pts h x <-> forall y, x - q <= y -> y <= x + q -> pts g y.
Proof.
  intros g v q G E Hq. apply is_geom1d_normal in G.
  assert (FractionFromExact v = Ok (- q)) as F.
  { destruct v; simpl in *; congruence. }
  unfold buffer. rewrite F. simpl. rewrite buffer_q_ok. eexists; split; auto.
  intros. now apply buffer_erosion.
Qed.
Print Assumptions geom1d_buffer_erosion.
(** length of a piece exceeds 2e (an unbounded piece always does) *)
Definition longer_than (e : Qc) (i : ext * ext) : Prop :=
  match i with (Fin p, Fin q) => e + e < q - p | _ => True end.
Theorem geom1d_opening : forall g e, is_geom1d g -> 0 < e ->
  exists h k, buffer g (NMpq (- e)) = Ok h /\ buffer h (NMpq e) = Ok k /\
  (forall i, In i k <-> In i g /\ longer_than e i) /\ normal k.
Proof.
  intros g e G He. apply is_geom1d_normal in G. unfold buffer. simpl. rewrite buffer_q_ok.
  exists (buffer_pure g (- e)), (buffer_pure (buffer_pure g (- e)) e). rewrite buffer_q_ok.
  repeat split; auto using buffer_normal.
  - rewrite opening in H by auto. apply filter_In in H. tauto.
  - rewrite opening in H by auto. apply filter_In in H. destruct H as [Hi H]. apply longer_spec in H.
    destruct i as [[] []]; simpl in *; tauto.
  - intros [Hi H]. rewrite opening by auto. apply filter_In. split; auto. apply longer_spec.
    pose proof (normal_In _ _ G Hi) as L. destruct i as [[] []]; simpl in *; auto; unfold elt in L; tauto.
Qed.
Print Assumptions geom1d_opening.
Example geom1d_opening_ex :
  exists g h, eval (ENew [ivz 0 1; ivz 2 4; ivz 5 8]) = Ok g /\ buffer g (NInt (-1)) = Ok h /\
              buffer h (NInt 1) = Ok [(Fin (zq 5), Fin (zq 8))].
Proof. do 2 eexists; repeat split; reflexivity. Qed.

(** ** C08 *)
Theorem geom1d_measure_laws : forall a b, is_geom1d a -> is_geom1d b ->
  exists o n ma mb, g_or a b = Ok o /\ g_and a b = Ok n /\ measure1d a = Some ma /\ measure1d b = Some mb /\
  ele (Fin 0) ma /\ (ma = Fin 0 <-> forall x, ~ pts a x) /\
  ((forall x, pts a x -> pts b x) -> ele ma mb) /\
  oadd (measure1d o) (measure1d n) = oadd (Some ma) (Some mb).
Proof.
  intros a b Ha Hb. apply is_geom1d_normal in Ha, Hb.
  exists (or_pure a b), (and_pure a b), (mes a), (mes b).
  rewrite !measure_mes by auto using or_normal, and_normal.
  rewrite !oadd_eplus by apply mes_nneg.
  repeat split; auto using g_or_ok, g_and_ok.
  - apply mes_nneg.
  - intros E x Hx. apply mes_zero in E; auto. subst. now apply (epts_nil (Fin x)).
  - intros H. apply mes_zero; auto. apply normal_canonical; simpl; auto. intros x; split; intros K.
    + elim (H _ K).
    + exfalso. now apply (epts_nil (Fin x)).
  - apply mes_mono; auto.
  - f_equal. now apply mes_additive.
Qed.
Print Assumptions geom1d_measure_laws.
(** normalisation: a single interval measures its length *)
Theorem geom1d_measure_interval : forall a b : Qc, a < b ->
  exists g, Geom1D [[NMpq a; NMpq b]] = Ok g /\ measure1d g = Some (Fin (b - a)).
Proof.
  intros a b H. exists [(Fin a, Fin b)]. split.
  - unfold Geom1D. simpl. unfold py_leb, pval, eleb. destruct (qleb_spec a b); [|exfalso; qlra]. simpl.
    unfold eeqb. destruct (qeqb_spec a b); [exfalso; subst; qlra|]. auto.
  - cbv [measure1d fold_left oadd esub snd fst eadd]. do 2 f_equal. ring.
Qed.
Print Assumptions geom1d_measure_interval.
Example geom1d_measure_ex :
  exists a b, eval (ENew [ivz 0 2; ivz 3 4]) = Ok a /\ eval (ENew [[NInt 1; NPosInf]]) = Ok b /\
    measure1d a = Some (Fin (zq 3)) /\ measure1d b = Some PInf.
Proof. do 2 eexists; repeat split; reflexivity. Qed.

(** ** C09 *)
Theorem geom1d_empty_bounded_exact : forall g, is_geom1d g ->
  (is_empty g = true <-> forall x, ~ pts g x) /\
  (is_bounded g = true <-> exists lo hi : Qc, forall x, pts g x -> lo <= x /\ x <= hi).
Proof.
  intros g G. apply is_geom1d_normal in G. split.
  - split.
    + destruct g; [|discriminate]. intros _ x H. now apply (epts_nil (Fin x)).
    + intros H. destruct g as [|i g]; auto. exfalso. apply normal_cons in G as (L & _).
      destruct (edense _ _ L) as (x & H1 & H2). apply (H x). exists i. split; [simpl; auto|split; auto].
  - unfold is_bounded. rewrite measure_mes by auto. rewrite <- mes_bounded by auto.
    destruct (mes g); split; intros H; try discriminate; eauto; destruct H; discriminate.
Qed.
Print Assumptions geom1d_empty_bounded_exact.
Example geom1d_empty_bounded_ex :
  exists g h, eval (EInv (ENew [ivz 0 1])) = Ok g /\ is_bounded g = false /\ is_empty g = false /\
              eval (EAnd (ENew [ivz 0 1]) (ENew [ivz 1 2])) = Ok h /\ is_empty h = true /\ is_bounded h = true.
Proof. do 2 eexists; repeat split; reflexivity. Qed.

(** ** C10 *)
Theorem geom1d_pieces_filter : forall g f, is_geom1d g ->
  exists ps h, disjoint_pieces g = Ok ps /\ g_filter f g = Ok h /\
  (forall p, In p ps <-> exists a b, p = [(a, b)] /\ maximal g a b) /\
  (forall x, pts g x <-> exists p, In p ps /\ pts p x) /\
  (forall i j p q x, nth_error ps i = Some p -> nth_error ps j = Some q -> pts p x -> pts q x -> i = j) /\
  (forall x, pts h x <-> exists a b, maximal g a b /\ f a b = true /\ in_iv x (a, b)).
Proof.
  intros g f G. apply is_geom1d_normal in G.
  exists (map (fun i => [i]) g), (filter (fun i => f (fst i) (snd i)) g).
  do 2 (split; [auto using disjoint_pieces_ok, g_filter_ok|]).
  split; [intros p; split | split; [intros x; split | split; [|intros x; split]]].
  - intros H. apply in_map_iff in H. destruct H as ((a, b) & <- & H). exists a, b. split; auto.
    now apply maximal_in.
  - intros (a & b & -> & M). apply in_map_iff. exists (a, b). split; auto. now apply maximal_in.
  - intros (i & Hi & Hx). exists [i]. split; [apply in_map_iff; eauto|]. exists i. simpl; auto.
  - intros (p & Hp & i & Hi & Hx). apply in_map_iff in Hp. destruct Hp as (j & <- & Hj).
    destruct Hi as [<-|[]]. exists j; auto.
  - intros i j p q x Hi Hj Hp Hq. rewrite nth_error_map in Hi, Hj. unfold geom1d, iv in *.
    destruct (nth_error g i) as [u|] eqn:Ei; simpl in Hi; [|discriminate Hi].
    destruct (nth_error g j) as [v|] eqn:Ej; simpl in Hj; [|discriminate Hj].
    injection Hi as <-. injection Hj as <-. destruct Hp as (u' & [<-|[]] & U1 & U2), Hq as (v' & [<-|[]] & V1 & V2).
    clear -G Ei Ej U1 U2 V1 V2. revert i j Ei Ej.
    induction g as [|k g IH]; intros [|i] [|j] Ei Ej; simpl in *; try discriminate; auto.
    + minv. pose proof (normal_after _ _ G) as A. rewrite Forall_forall in A.
      apply nth_error_In in Ej. specialize (A _ Ej). inversion Ei; subst. exfalso; eord.
    + minv. pose proof (normal_after _ _ G) as A. rewrite Forall_forall in A.
      apply nth_error_In in Ei. specialize (A _ Ei). inversion Ej; subst. exfalso; eord.
    + apply normal_cons in G as (? & ? & ?). f_equal. eapply IH; eauto.
  - intros ((a, b) & Hi & Hx). apply filter_In in Hi. exists a, b. simpl in Hi. destruct Hi as [Hi Hf].
    split; [now apply maximal_in | auto].
  - intros (a & b & M & Hf & Hx). exists (a, b). split; auto. apply filter_In. split; auto.
    now apply maximal_in.
Qed.
Print Assumptions geom1d_pieces_filter.
Example geom1d_pieces_filter_ex :
  exists g, eval (ENew [ivz 0 1; ivz 2 5; [NInt 7; NPosInf]]) = Ok g /\
    disjoint_pieces g = Ok [[(Fin (zq 0), Fin (zq 1))]; [(Fin (zq 2), Fin (zq 5))]; [(Fin (zq 7), PInf)]] /\
    g_filter (fun a b => match esub b a with Some (Fin d) => qltb 1 d | _ => false end) g
    = Ok [(Fin (zq 2), Fin (zq 5))].
Proof. eexists; repeat split; reflexivity. Qed.

(** ** C11 *)
Theorem geom1d_rejects_exactly : forall l,
  ((exists g, Geom1D l = Ok g) <-> forall i, In i l -> exists p, denotes i p) /\
  (forall g, Geom1D l = Ok g ->
     forall j e, In j g -> e = fst j \/ e = snd j ->
       exists i v, In i l /\ In v i /\ exact_val v = Some e).
Proof.
  intros l. split; [split|].
  - intros (g & H) i Hi. destruct (Geom1D_inv _ _ H i Hi) as (p & Hp). exists p. now apply denotes_conv.
  - intros H. destruct (Geom1D_ok l) as [E _]; [|eauto].
    intros i Hi. destruct (H i Hi) as (p & Hp). exists p. now apply denotes_conv.
  - intros g H j e Hj He. pose proof (Geom1D_inv _ _ H) as C. destruct (Geom1D_ok l C) as [E V].
    rewrite E in H. minv.
    assert (Hin : In e (ends (map conv_pure l))).
    { apply normalize_ends. apply in_flat_map. exists j. split; auto. simpl. destruct He; auto. }
    apply in_flat_map in Hin. destruct Hin as (p & Hp & Hin). apply in_map_iff in Hp.
    destruct Hp as (i & <- & Hi). destruct (C i Hi) as (q & Hq). unfold conv_pure in Hin. rewrite Hq in Hin.
    apply denotes_conv in Hq. destruct Hq as (a & b & -> & A & B & _).
    simpl in Hin. destruct Hin as [<-|[<-|[]]].
    + exists [a; b], a. simpl; auto.
    + exists [a; b], b. simpl; auto.
Qed.
Print Assumptions geom1d_rejects_exactly.
Example geom1d_rejects_ex :
  Geom1D [ivz 0 1; [NFloat (qq 1 2); NInt 3]] = Err PlainException /\
  Geom1D [ivz 1 0] = Err AssertionError /\ Geom1D [[NInt 1]] = Err AssertionError /\
  Geom1D [[NNan; NInt 1]] = Err AssertionError /\
  exists g, Geom1D [[NMpz 3; NPosInf]; [NFrac (qq 1 2); NMpq (zq 1)]] = Ok g.
Proof. repeat split; try reflexivity. eexists; reflexivity. Qed.

(** ** C65 *)
Theorem exact_conversion : forall v,
  (forall q, FractionFromExact v = Ok q <-> exact_val v = Some (Fin q)) /\
  (forall e, FractionFromExactOrInf v = Ok e <-> exact_val v = Some e) /\
  (forall e, FractionFromExactOrInf v = Ok e -> pval v = Some e) /\
  (forall q, FractionFromExact (NFloat q) = Err PlainException) /\
  (FractionFromExact NPosInf = Err PlainException) /\ FractionFromExactOrInf NNan = Err PlainException.
Proof.
  intros v. split; [|split; [|split; [|repeat split]]].
  - intros q. destruct v; simpl; split; intros H; congruence.
  - apply ffeoi_exact.
  - apply FFEOI_val.
Qed.
Print Assumptions exact_conversion.
Example exact_conversion_ex : FractionFromExact (NMpz 7) = Ok (zq 7) /\ FractionFromExactOrInf NNegInf = Ok NInf
  /\ FractionFromExactOrInf (NFloat (qq 1 2)) = Err PlainException.
Proof. repeat split. Qed.
