(** The polygons made of merged cells: every positive cell is the outer ring of one polygon, every
    negative cell, reversed, is a hole of exactly one. *)
From Verif.Model Require Import CellMerger Arrangement2d Geom2d.
From Verif.Spec Require Import Plane Region.
From Verif.Proofs Require Import PyP PolyP DictP MergerKeepP ArrGraphP ArrSoundP Geom2dP.

Lemma flat_map_split {A B} (f g : A -> list B) l : Permutation (flat_map (fun x => f x ++ g x) l) (flat_map f l ++ flat_map g l).
Proof.
  induction l as [|x l IH]; cbn; auto. rewrite IH, <- !app_assoc. apply Permutation_app_head.
  rewrite !app_assoc. apply Permutation_app_tail, Permutation_app_comm.
Qed.
Lemma flat_map_nil {A B} (f : A -> list B) l : (forall x, In x l -> f x = []) -> flat_map f l = [].
Proof. induction l as [|x l IH]; cbn; auto. intros H. rewrite H, IH; auto. Qed.
Lemma assign {K V} (eqb : K -> K -> bool) (sp : forall a b, reflect (a = b) (eqb a b)) (keys : list K) (pairs : list (K * V)) :
  NoDup keys -> (forall p, In p pairs -> In (fst p) keys) ->
  Permutation (flat_map (fun k => map snd (filter (fun p => eqb k (fst p)) pairs)) keys) (map snd pairs).
Proof.
  intros ND. induction pairs as [|[a v] pairs IH]; intros H; cbn [map].
  - cbn. rewrite flat_map_nil; auto.
  - rewrite (flat_map_ext _ (fun k => (if eqb k a then [v] else []) ++ map snd (filter (fun p => eqb k (fst p)) pairs))).
    2:{ intros k. cbn [filter fst]. destruct (eqb k a); reflexivity. }
    rewrite flat_map_split, IH by (intros p Hp; apply H; now right). cbn [snd]. change (v :: map snd pairs) with ([v] ++ map snd pairs).
    apply Permutation_app_tail. assert (A : In a keys) by (apply (H (a, v)); now left). clear -ND A sp.
    induction ND as [|k keys N ND IH]; [destruct A|]. cbn. destruct (sp k a) as [->|NE].
    + rewrite flat_map_nil; auto. intros x Hx. destruct (sp x a) as [->|]; auto. contradiction.
    + destruct A as [->|A]; [congruence|]. now apply IH.
Qed.
Lemma filter_parts {A} (f : A -> bool) l : Permutation l (filter f l ++ filter (fun x => negb (f x)) l).
Proof.
  induction l as [|x l IH]; cbn; auto. destruct (f x); cbn.
  - now constructor.
  - rewrite <- Permutation_middle. now constructor.
Qed.
Lemma cell_eqb_spec (a b : list point) : reflect (a = b) (cell_eqb a b).
Proof. apply list_eqb_spec. apply pt_eqb_spec. Qed.

Lemma cell_eq (a b : list point) : cell_eqb a b = true <-> a = b.
Proof. destruct (cell_eqb_spec a b); split; congruence. Qed.

(** everything in the dictionary of the originals is a positive cell *)
Definition vals_in (K : list (list point)) (d : list (list point * list point)) : Prop := forall k v, In (k, v) d -> In v K.
Lemma dset_vals K d k v : vals_in K d -> In v K -> vals_in K (dset cell_eqb k v d).
Proof.
  intros D I k' v' H. apply (in_dset cell_eqb cell_eq) in H as [H|(H & _)]; [injection H as <- <-; auto|eapply D; eauto].
Qed.
Lemma dget_vals K d k v : vals_in K d -> dget cell_eqb k d = Some v -> In v K.
Proof. intros D H. apply (dget_in cell_eqb cell_eq) in H. eapply D; eauto. Qed.
Lemma add_pos_vals K c d o d' : In c K -> vals_in K d -> add_pos_original c d o = Ok d' -> vals_in K d'.
Proof. unfold add_pos_original. intros C D H. destruct (dget cell_eqb o d); [discriminate|]. injection H as <-. now apply dset_vals. Qed.
Lemma foldM_inv {A B} (P : A -> Prop) (f : A -> B -> result A) l : (forall a b a', In b l -> P a -> f a b = Ok a' -> P a') ->
  forall a a', P a -> foldM f l a = Ok a' -> P a'.
Proof.
  induction l as [|b l IH]; intros H a a' PA E; cbn in E; [now injection E as <-|]. apply bind_ok in E as (a1 & E1 & E).
  apply (IH (fun a b a' I => H a b a' (or_intror I)) a1); auto. apply (H a b); auto. now left.
Qed.
Lemma go_out_vals K fuel conts po cur v : vals_in K po -> go_out fuel conts po cur = Ok (Some v) -> In v K.
Proof.
  intros D. revert cur. induction fuel as [|f IH]; intros cur H; cbn in H; [discriminate|]. apply bind_ok in H as (c & _ & H).
  destruct c as [c|]; [|discriminate]. destruct (dget cell_eqb c po) as [x|] eqn:G; [|eauto]. injection H as <-. eapply dget_vals; eauto.
Qed.
Lemma find_outer_vals K fuel conts po os o v : vals_in K po -> (forall w, o = Some w -> In w K) ->
  foldM (find_outer fuel conts po) os o = Ok (Some v) -> In v K.
Proof.
  intros D O H. refine (foldM_inv (fun o => forall w, o = Some w -> In w K) _ _ _ _ _ O H v eq_refl).
  intros a b a' _ A E w ->. unfold find_outer in E. apply bind_ok in E as (op & E1 & E).
  destruct op as [x|].
  - assert (X : In x K). { destruct (dget cell_eqb b po) as [y|] eqn:G; [injection E1 as <-; eapply dget_vals; eauto|eapply go_out_vals; eauto]. }
    destruct a as [q|]; [|injection E as <-; auto]. apply bind_ok in E as (? & _ & E). injection E as <-. auto.
  - injection E as ->. auto.
Qed.

Theorem poly_cells_keep a cells polys : NoDup (flat_map edges_iter cells) -> Forall (fun c => c <> []) cells ->
  poly_cells a cells = Ok polys ->
  let F := flat_map edges_iter (map outer polys) ++ flat_map edges_iter (map (@rev point) (flat_map holes polys)) in
  (exists X, Permutation (flat_map edges_iter cells) (X ++ map rev_seg X ++ F)) /\
  ((forall c, In c cells -> noopp (edges_iter c) (edges_iter c)) -> noopp F F).
Proof.
  intros ND NE H. unfold poly_cells in H. apply bind_ok in H as ((m & k) & AC & H). apply bind_ok in H as (os & GO & H).
  apply bind_ok in H as (areas & AR & H). apply bind_ok in H as (u1 & _ & H). apply bind_ok in H as (po & PO & H). apply bind_ok in H as (pairs & PR & H).
  set (cells' := permuted (a_orc a 3%nat) cells) in *.
  assert (PC : Permutation cells' cells) by apply permuted_perm.
  assert (INS : forall l, inserted_edges l = flat_map edges_iter l) by (intros l; apply flat_map_ext; apply cyc_iter).
  pose proof (fun A B => merger_keep pt_eqb pt_eqb_spec _ _ _ cells' m k A B AC) as MK. destruct MK as ((X & PX) & MN).
  { rewrite INS. eapply Permutation_NoDup; [|exact ND]. apply Permutation_flat_map. now symmetry. }
  { eapply Permutation_Forall; [symmetry; exact PC|exact NE]. }
  rewrite !INS in PX.
  assert (OM : map fst os = map vertices (CellMerger.cells m)).
  { unfold get_cells_originals in GO. apply bind_ok in GO as (? & _ & GO). injection GO as <-. rewrite map_map. reflexivity. }
  set (n := (4 + length (a_cells a))%nat) in *. set (os' := permuted (a_orc a n) os) in *.
  assert (PO' : Permutation os' os) by apply permuted_perm.
  set (signed := combine areas os') in *.
  assert (SS : map snd signed = os').
  { unfold signed. apply mapM_ok in AR. clear -AR. induction AR as [|x y l r H F IH]; cbn; auto. now rewrite IH. }
  set (positives := map snd (filter (fun x => qltb 0 (fst x)) signed)) in *. set (negatives := map snd (filter (fun x => negb (qltb 0 (fst x))) signed)) in *.
  assert (PN : Permutation (map vertices (CellMerger.cells m)) (map fst positives ++ map fst negatives)).
  { rewrite <- OM. rewrite <- PO', <- SS. rewrite <- map_app. unfold positives, negatives. rewrite <- map_app. do 2 apply Permutation_map. apply filter_parts. }
  assert (NDM : NoDup (map vertices (CellMerger.cells m))).
  { assert (D : NoDup (flat_map edges_iter (map vertices (CellMerger.cells m)))).
    { eapply (NoDup_app_r (X ++ map swap X)). rewrite <- app_assoc. eapply Permutation_NoDup; [exact PX|]. eapply Permutation_NoDup; [|exact ND]. apply Permutation_flat_map. now symmetry. }
    clear -D MN. induction (map vertices (CellMerger.cells m)) as [|c l IH]; constructor.
    - intros I. cbn in D. inversion MN as [|? ? Nc _]; subst. destruct (edges_iter c) as [|e es] eqn:E.
      + rewrite <- cyc_iter in E. destruct c as [|v c]; [congruence|]. rewrite cyc_steps in E. discriminate E.
      + apply (NoDup_app_disj _ _ e D); [now left|]. apply in_flat_map. exists c. split; auto. rewrite E. now left.
    - inversion MN; subst. apply IH; auto. eapply NoDup_app_r; eauto. }
  assert (NDP : NoDup (map fst positives)).
  { eapply NoDup_app_l. eapply Permutation_NoDup; [exact PN|exact NDM]. }
  assert (VP : vals_in (map fst positives) po).
  { refine (foldM_inv (vals_in (map fst positives)) _ positives _ [] po _ PO); [|intros ? ? []].
    intros d co d' CO D E. refine (foldM_inv (vals_in (map fst positives)) _ _ _ _ _ D E).
    intros x b x' _ X1 X2. eapply add_pos_vals; [|exact X1|exact X2]. now apply in_map. }
  assert (SP : map snd pairs = map fst negatives /\ forall p, In p pairs -> In (fst p) (map fst positives)).
  { apply mapM_ok in PR. clear -PR VP. induction PR as [|no p l r H F (IH1 & IH2)]; [split; [reflexivity|intros ? []]|].
    unfold negative_outer in H. apply bind_ok in H as (o & O & H). destruct o as [o|]; [|discriminate]. injection H as <-. split.
    - cbn [map snd]. now rewrite IH1.
    - intros q [<-|Q]; auto. cbn [fst]. refine (find_outer_vals _ _ _ _ _ _ _ VP _ O). discriminate. }
  destruct SP as (SP & FP).
  assert (RES : map outer polys = map fst positives /\
    Permutation (flat_map holes polys) (map (@rev point) (flat_map (fun k0 => map snd (filter (fun p => cell_eqb k0 (fst p)) pairs)) (map fst positives)))).
  { apply mapM_ok in H. assert (LL : length (seq 0 (length positives)) = length positives) by apply seq_length.
    revert LL H. generalize (seq 0 (length positives)). clear -positives.
    intros L. revert L polys. induction positives as [|co ps IH]; intros [|i L] polys LL H; try discriminate LL; cbn [combine] in H; inversion H as [|? s ? r H1 H2]; subst; [split; reflexivity|].
    apply SPWH_ok in H1 as (_ & _ & ->). destruct (IH L r) as (I1 & I2); auto. split; [cbn; now rewrite I1|].
    cbn [flat_map holes map fst]. rewrite map_app. rewrite I2. apply Permutation_app_tail. apply Permutation_map, permuted_perm. }
  destruct RES as (RO & RH).
  assert (FF : Permutation (flat_map edges_iter (map vertices (CellMerger.cells m)))
    (flat_map edges_iter (map outer polys) ++ flat_map edges_iter (map (@rev point) (flat_map holes polys)))).
  { rewrite <- flat_map_app. transitivity (flat_map edges_iter (map fst positives ++ map fst negatives)); [now apply Permutation_flat_map|].
    apply Permutation_flat_map. rewrite RO. apply Permutation_app_head. rewrite RH. rewrite map_map. rewrite (map_ext _ (fun x => x)) by apply rev_involutive. rewrite map_id.
    rewrite (assign cell_eqb cell_eqb_spec); auto. now rewrite SP. }
  split.
  - exists X. transitivity (flat_map edges_iter cells'); [apply Permutation_flat_map; now symmetry|]. rewrite PX. do 2 apply Permutation_app_head. exact FF.
  - intros NO. eapply noopp_perm; [exact FF|].
    destruct (add_cells_ok pt_eqb pt_eqb_spec (fun i => a_orc a 3%nat (i + length cells')%nat) (merger_fuel cells') 0 CellMergerSlow [] cells') as [Q|(m' & k' & Q & MI)].
    + exists []. split; [reflexivity|]. split; [constructor|]. split; [intros ? []|]. split; [reflexivity|]. cbn. tauto.
    + cbn [app]. rewrite INS. eapply Permutation_NoDup; [|exact ND]. apply Permutation_flat_map. now symmetry.
    + apply Forall_forall. intros c Hc. assert (Hc' : In c cells) by (rewrite <- PC; auto). split; [rewrite Forall_forall in NE; auto|]. rewrite cyc_iter. auto.
    + unfold merger_fuel. cbn [app]. rewrite INS. lia.
    + exfalso. congruence.
    + assert (m' = m) by congruence. subst m'. destruct MI as (_ & _ & WF & NN & _). rewrite <- INS.
      assert (EE : edges_of (CellMerger.cells m) = inserted_edges (map vertices (CellMerger.cells m))); [|now rewrite <- EE].
      clear -WF. induction WF as [|c cs (_ & E & _) W IH]; cbn; auto. unfold edges_of, inserted_edges in *. now rewrite IH, E.
Qed.
