(** * C139: when fstr and fastr give a string *)
From Verif.Base Require Import Py.
From Verif.Model Require Import Fstr Geom1d FstrFull.
From Verif.Proofs Require Import PyP ExtOrd Geom1dP.
From Verif.Props Require Import FstrProps.
From Coq Require Import String Qround.
Open Scope Qc_scope.

(** an element of a container *)
Inductive elem : fobj -> fobj -> Prop :=
| el_tuple x l : In x l -> elem x (FTuple l)
| el_list x l : In x l -> elem x (FList l)
| el_set x l : In x l -> elem x (FSet l)
| el_key k v l : In (k, v) l -> elem k (FDict l)
| el_value k v l : In (k, v) l -> elem v (FDict l).
(** [o] is or contains a Geom1D that is not empty *)
Inductive has_geom : fobj -> Prop :=
| hg_here i g : has_geom (FGeom1 (i :: g))
| hg_in x o : elem x o -> has_geom x -> has_geom o.

Fixpoint size (o : fobj) : nat :=
  S match o with
    | FTuple l | FList l | FSet l => list_sum (map size l)
    | FDict l => list_sum (map (fun e => size (fst e) + size (snd e))%nat l)
    | _ => O
    end.
Lemma sum_in {X} (f : X -> nat) l x : In x l -> (f x <= list_sum (map f l))%nat.
Proof. induction l as [|a l IH]; intros []; cbn [map list_sum fold_right]; [subst; lia|specialize (IH H); unfold list_sum in IH; lia]. Qed.
Lemma elem_size x o : elem x o -> (size x < size o)%nat.
Proof.
  intros []; cbn [size]; try (pose proof (sum_in size l _ H); lia).
  - pose proof (sum_in (fun e => size (fst e) + size (snd e))%nat l _ H). cbn [fst snd] in *. lia.
  - pose proof (sum_in (fun e => size (fst e) + size (snd e))%nat l _ H). cbn [fst snd] in *. lia.
Qed.

Lemma elem_dict x l : elem x (FDict l) -> exists k v, In (k, v) l /\ (x = k \/ x = v).
Proof. intros E. inversion E; subst; eauto. Qed.

Lemma strs_ok {X} (f : X -> result string) l : (forall x, In x l -> exists s, f x = Ok s) -> exists r, strs f l = Ok r /\ List.length r = List.length l.
Proof.
  induction l as [|a l IH]; intros H; [exists []; auto|]. destruct (H a (or_introl eq_refl)) as (s & E). destruct IH as (r & R & L); [intros x I; apply H; now right|].
  exists (s :: r). cbn [strs]. rewrite E. cbn [bind]. fold (strs f). rewrite R. cbn [bind List.length]. auto.
Qed.
Lemma strs_err {X} (f : X -> result string) (bad : X -> Prop) l : (forall x, In x l -> (exists s, f x = Ok s) /\ ~ bad x \/ f x = Err TypeError /\ bad x) ->
  (exists r, strs f l = Ok r) /\ (forall x, In x l -> ~ bad x) \/ strs f l = Err TypeError /\ exists x, In x l /\ bad x.
Proof.
  induction l as [|a l IH]; intros H; [left; split; [exists []; auto|intros x []]|]. cbn [strs]. fold (strs f).
  destruct (H a (or_introl eq_refl)) as [((s & E) & B)|(E & B)]; rewrite E; cbn [bind]; [|right; split; auto; exists a; split; [now left|auto]].
  destruct IH as [((r & R) & NB)|(R & x & I & Bx)]; [intros x I; apply H; now right| |].
  - left. split; [exists (s :: r); now rewrite R|]. intros x [<-|I]; auto.
  - right. rewrite R. split; auto. exists x. split; [now right|auto].
Qed.
Section F.
Variable flt : Qc -> result Qc.
Variable sflt : Qc -> string.
Variable approx : bool.
(** every rational in sight is small enough for float() *)
Hypothesis FIN : approx = true -> forall q, exists f, flt q = Ok f.
Lemma frac_ok q : exists s, frac_form flt sflt approx q = Ok s.
Proof. unfold frac_form. destruct approx; [|eauto]. destruct (FIN eq_refl q) as (f & ->). cbn [bind]. eauto. Qed.
Lemma recurse_outcome : forall n o, (size o < n)%nat ->
  (exists s, recurse_full flt sflt approx o = Ok s) /\ ~ has_geom o \/ recurse_full flt sflt approx o = Err TypeError /\ has_geom o.
Proof.
  induction n as [|n IH]; intros o L; [lia|].
  assert (SUB : forall x, elem x o -> (exists s, recurse_full flt sflt approx x = Ok s) /\ ~ has_geom x \/ recurse_full flt sflt approx x = Err TypeError /\ has_geom x) by (intros x E; apply IH; apply elem_size in E; lia).
  assert (LST : forall l w (o' : fobj), (forall x, In x l <-> elem x o) -> (forall i g, o <> FGeom1 (i :: g)) -> recurse_full flt sflt approx o = (r <- strs (recurse_full flt sflt approx) l ;; Ok (w r)) ->
    (exists s, recurse_full flt sflt approx o = Ok s) /\ ~ has_geom o \/ recurse_full flt sflt approx o = Err TypeError /\ has_geom o).
  { intros l w _ EL NG ->. destruct (strs_err (recurse_full flt sflt approx) has_geom l) as [((r & R) & NB)|(R & x & I & B)]; [intros x I; apply SUB; now apply EL| |]; rewrite R; cbn [bind].
    - left. split; [eauto|]. intros HG. inversion HG as [i g E|x o' E B]; subst; [now apply (NG i g)|]. apply (NB x); [now apply EL|auto].
    - right. split; auto. apply (hg_in x); [now apply EL|auto]. }
  destruct o as [q|l|l|l|l|g|s].
  - destruct (frac_ok q) as (s & E). left. split; [exists s; exact E|]. intros H. inversion H; subst. inversion H0.
  - apply (LST l (fun r => ("(" ++ String.concat ", " r ++ ")")%string) (FTuple l)); [intros x; split; [constructor; auto|intros E; inversion E; auto]|discriminate|reflexivity].
  - apply (LST l (fun r => ("[" ++ String.concat ", " r ++ "]")%string) (FList l)); [intros x; split; [constructor; auto|intros E; inversion E; auto]|discriminate|reflexivity].
  - apply (LST l (fun r => ("{" ++ String.concat ", " r ++ "}")%string) (FSet l)); [intros x; split; [constructor; auto|intros E; inversion E; auto]|discriminate|reflexivity].
  - cbn [recurse_full]. set (f := fun e : fobj * fobj => _).
    destruct (strs_err f (fun e => has_geom (fst e) \/ has_geom (snd e)) l) as [((r & R) & NB)|(R & (k & v) & I & B)].
    + intros (k & v) I. unfold f. cbn [fst snd]. destruct (SUB k (el_key k v l I)) as [((s & E) & B)|(E & B)]; rewrite E; cbn [bind]; [|right; auto].
      destruct (SUB v (el_value k v l I)) as [((s' & E') & B')|(E' & B')]; rewrite E'; cbn [bind]; [left; split; [eauto|tauto]|right; auto].
    + rewrite R. cbn [bind]. left. split; [eauto|]. intros H. inversion H as [|x o' E B]; subst. apply elem_dict in E as (k & v & I & E). apply (NB (k, v) I). cbn [fst snd]. destruct E as [<-|<-]; auto.
    + rewrite R. cbn [bind]. right. split; auto. cbn [fst snd] in B. destruct B as [B|B]; [exact (hg_in k _ (el_key k v l I) B)|exact (hg_in v _ (el_value k v l I) B)].
  - cbn [recurse_full]. destruct g as [|i g]; cbn [strs bind]; [left; split; [eauto|]|right; split; [auto|constructor]]. intros H. inversion H; subst. inversion H0.
  - left. split; [cbn; eauto|]. intros H. inversion H; subst. inversion H0.
Qed.
(** a string, unless a Geom1D that is not empty occurs: then TypeError *)
Theorem fstr_outcome : forall objs, (exists s, fstr_full flt sflt approx objs = Ok s) /\ (forall o, In o objs -> ~ has_geom o) \/
  fstr_full flt sflt approx objs = Err TypeError /\ exists o, In o objs /\ has_geom o.
Proof.
  intros objs. unfold fstr_full. destruct (strs_err (recurse_full flt sflt approx) has_geom objs) as [((r & R) & NB)|(R & X)]; [intros x _; exact (recurse_outcome (S (size x)) x ltac:(lia))| |]; rewrite R; cbn [bind]; [left|right]; eauto.
Qed.
End F.
Print Assumptions fstr_outcome.
(** The property "fstr gives a string for every object it can be called with" is false *)
Theorem fstr_total_refuted : exists g, forall flt sflt approx, fstr_full flt sflt approx [FGeom1 g] = Err TypeError.
Proof. exists [(Fin 0, Fin 1)]. intros. reflexivity. Qed.
(** repr of a Geom1D works *)
Theorem geom1d_repr_total : forall flt sflt g, (forall q, exists f, flt q = Ok f) -> exists s, geom1d_repr flt sflt g = Ok s.
Proof.
  intros flt sflt g FIN. unfold geom1d_repr. destruct (strs_ok (fun i : ext * ext => fastr flt sflt [FTuple [end_obj (fst i); end_obj (snd i)]]) g) as (r & -> & _); [|cbn [bind]; eauto].
  intros i _. destruct (fstr_outcome flt sflt true (fun _ => FIN) [FTuple [end_obj (fst i); end_obj (snd i)]]) as [(H & _)|(_ & o & [<-|[]] & H)]; [exact H|exfalso].
  assert (NE : forall e, ~ has_geom (end_obj e)) by (intros [|q|] K; inversion K; subst; inversion H0).
  inversion H; subst. inversion H0; subst. destruct H4 as [<-|[<-|[]]]; now apply NE in H1.
Qed.
Print Assumptions geom1d_repr_total.

(** fstr is the exact model (C66) on exact objects *)
Fixpoint obj (o : pyobj) : fobj :=
  match o with OFrac q => FFrac q | OTuple l => FTuple (map obj l) | OList l => FList (map obj l) | OSet l => FSet (map obj l) | ODict l => FDict (map (fun e => (obj (fst e), obj (snd e))) l) end.
Lemma strs_map {X Y} (f : Y -> result string) (g : X -> Y) (h : X -> string) l : (forall x, In x l -> f (g x) = Ok (h x)) -> strs f (map g l) = Ok (map h l).
Proof. induction l as [|a l IH]; intros H; [reflexivity|]. cbn [map strs]. fold (strs f). rewrite (H a (or_introl eq_refl)). cbn [bind]. rewrite IH by (intros x I; apply H; now right). reflexivity. Qed.
Lemma recurse_exact flt sflt : forall n o, (osize o < n)%nat -> recurse_full flt sflt false (obj o) = Ok (recurse o).
Proof.
  induction n as [|n IH]; intros o L; [lia|].
  assert (SUB : forall l, (forall x, In x l -> (osize x < n)%nat) -> strs (recurse_full flt sflt false) (map obj l) = Ok (map recurse l)) by (intros l H; apply strs_map; intros x I; apply IH; auto).
  assert (SZ : forall l : list pyobj, (S (list_sum (map osize l)) < S n)%nat -> forall x, In x l -> (osize x < n)%nat) by (intros l H x I; pose proof (sum_in osize l x I); lia).
  destruct o as [q|l|l|l|l]; cbn [obj recurse_full recurse osize] in *; [reflexivity| | | |]; try (rewrite (SUB l (SZ l L)); reflexivity).
  rewrite (strs_map _ (fun e => (obj (fst e), obj (snd e))) (fun e => recurse (fst e) ++ ": " ++ recurse (snd e))%string); [reflexivity|].
  intros (k, v) I. cbn [fst snd]. pose proof (sum_in (fun e => osize (fst e) + osize (snd e))%nat l _ I) as LE. cbn [fst snd] in LE. rewrite !IH by lia. reflexivity.
Qed.
Theorem fstr_exact : forall flt sflt objs, fstr_full flt sflt false (map obj objs) = Ok (fstr objs).
Proof. intros. unfold fstr_full, fstr. rewrite (strs_map _ obj recurse); [reflexivity|]. intros x _. apply (recurse_exact flt sflt (S (osize x))). lia. Qed.
Print Assumptions fstr_exact.
(** and fastr shows integers that float() leaves alone as fstr does *)
Theorem fastr_integer : forall flt sflt z, flt (zq z) = Ok (zq z) -> frac_form flt sflt true (zq z) = frac_form flt sflt false (zq z).
Proof.
  intros flt sflt z H. unfold frac_form. rewrite H. cbn [bind].
  assert (FL : forall n, Qfloor (this (zq n)) = n). { intros n. unfold zq. cbn [this Q2Qc]. rewrite Qred_correct. apply Qfloor_Z. }
  assert (T : trunc (zq z) = z). { unfold trunc. destruct (qleb 0 (zq z)); [apply FL|]. assert (O : - zq z = zq (- z)) by (apply Qc_is_canon; unfold zq, Qcopp; cbn [this Q2Qc]; rewrite !Qred_correct; reflexivity). rewrite O, FL. lia. }
  rewrite T. destruct (qeqb_spec (zq z) (zq z)) as [_|N]; [|now destruct N]. f_equal. unfold frac_str.
  assert (D : this (zq z) = inject_Z z). { unfold zq. cbn [this Q2Qc]. apply Qred_iff. cbn [inject_Z Qnum Qden]. apply Z.gcd_1_r. }
  rewrite D. reflexivity.
Qed.
Print Assumptions fastr_integer.

(** ** Non-vacuity: fastr((1, 1/3)) with float() exact and str() "0.3"; an empty Geom1D; repr of [0, oo) *)
Example fstr_full_ex : fastr (fun q => Ok q) (fun _ => "0.3"%string) [FTuple [FFrac 1; FFrac (qq 1 3)]] = Ok "FS/(1, 0.3)/"%string /\
  fastr (fun q => Ok q) (fun _ => "0.3"%string) [FList [FGeom1 []]; FText "a"] = Ok "FS/[Geom1D()],a/"%string /\
  geom1d_repr (fun q => Ok q) (fun _ => ""%string) [(Fin 0, PInf)] = Ok "Geom1D(FS/(0, inf)/)"%string /\
  fstr_full (fun q => Ok q) (fun _ => ""%string) false [FDict [(FText "k", FGeom1 [(Fin 0, PInf)])]] = Err TypeError.
Proof. vm_compute. auto. Qed.
