(** * Properties C17-C20: point location in a polygon. *)
From Verif.Model Require Import Primitive2d.
From Verif.Spec Require Import Plane.
From Verif.Proofs Require Import PyP PolyP WindingP WindingQ WindingR.
From Coq Require Import Permutation.

(** ** C17 *)
Theorem locate_zero_iff_boundary : forall poly p, poly <> [] ->
  (locate_point_polygon_winding_number poly p = Ok 0%Z <-> on_boundary poly p) /\
  (exists r, locate_point_polygon_winding_number poly p = Ok r /\ (r = 0 \/ r = 1 \/ r = -1)%Z).
Proof.
  intros poly p Hne. destruct (locate_spec poly p Hne) as (r & -> & [[B ->]|[(B & W & ->)|(B & W & ->)]]);
    (split; [split; [intros E; try discriminate; auto | intros; try tauto; reflexivity]|eauto]).
Qed.
Print Assumptions locate_zero_iff_boundary.

Definition sq4 : list point := [(zq 0, zq 0); (zq 0, zq 4); (zq 4, zq 4); (zq 4, zq 0)].
Example locate_zero_ex :
  locate_point_polygon_winding_number sq4 (zq 0, zq 2) = Ok 0%Z /\
  locate_point_polygon_winding_number sq4 (zq 4, zq 4) = Ok 0%Z /\
  locate_point_polygon_winding_number sq4 (zq 2, zq 4) = Ok 0%Z /\
  locate_point_polygon_winding_number sq4 (zq 2, zq 2) = Ok 1%Z /\
  locate_point_polygon_winding_number sq4 (zq 5, zq 4) = Ok (-1)%Z.
Proof. vm_compute. auto. Qed.

(** ** C18 *)
Theorem locate_winding : forall poly p, poly <> [] -> ~ on_boundary poly p ->
  exists w, winding_number poly p w /\ (forall w', winding_number poly p w' -> w' = w) /\
    locate_point_polygon_winding_number poly p = Ok (if (w =? 0)%Z then (-1)%Z else 1%Z).
Proof.
  intros poly p Hne NB.
  destruct (generic_apex_exists poly p) as (o & G).
  { intros H. apply NB. now apply vertex_on_boundary. }
  exists (fan_winding o poly p). split; [exists o; auto|]. split.
  - intros w' (o' & G' & ->). pose proof (wsum_fan o poly p NB G). pose proof (wsum_fan o' poly p NB G'). lia.
  - destruct (locate_spec poly p Hne) as (r & -> & [[B ->]|[(B & W & ->)|(B & W & ->)]]); [tauto| |];
      rewrite (wsum_fan o poly p NB G) in W; destruct (Z.eqb_spec (fan_winding o poly p) 0); auto; lia.
Qed.
Print Assumptions locate_winding.

Theorem locate_order_independent : forall poly p,
  (forall l1 l2, poly = l1 ++ l2 ->
     locate_point_polygon_winding_number (l2 ++ l1) p = locate_point_polygon_winding_number poly p) /\
  locate_point_polygon_winding_number (rev poly) p = locate_point_polygon_winding_number poly p.
Proof.
  assert (K : forall l l' p, l <> [] -> l' <> [] -> (on_boundary l p <-> on_boundary l' p) ->
     (wsum p l = wsum p l' \/ wsum p l = - wsum p l')%Z ->
     locate_point_polygon_winding_number l p = locate_point_polygon_winding_number l' p).
  { intros l l' p H H' B W.
    destruct (locate_spec l p H) as (r & -> & [[B1 ->]|[(B1 & W1 & ->)|(B1 & W1 & ->)]]),
             (locate_spec l' p H') as (r' & -> & [[B2 ->]|[(B2 & W2 & ->)|(B2 & W2 & ->)]]);
      try reflexivity; exfalso; try tauto; lia. }
  intros poly p. split.
  - intros l1 l2 ->. destruct (l1 ++ l2) as [|a l] eqn:E.
    { apply app_eq_nil in E as [-> ->]. reflexivity. }
    rewrite <- E. assert (P := edges_iter_rot l2 l1). apply K.
    + intros C. apply app_eq_nil in C as [-> ->]. discriminate.
    + congruence.
    + rewrite !on_boundary_iff. split; intros (s & Hs & S); exists s; (split; [|auto]);
        [apply (Permutation_in _ P)|apply (Permutation_in _ (Permutation_sym P))]; exact Hs.
    + left. unfold wsum. now apply zsum_perm.
  - destruct poly as [|a l]; [reflexivity|]. set (L := a :: l) in *. assert (P := edges_iter_rev L). apply K.
    + intros C. apply (f_equal (@rev _)) in C. rewrite rev_involutive in C. discriminate.
    + discriminate.
    + rewrite !on_boundary_iff. split.
      * intros (s & Hs & S). apply (Permutation_in _ P) in Hs. apply in_map_iff in Hs as ([x y] & <- & Hx).
        exists (x, y). split; auto. apply on_seg_sym. exact S.
      * intros ([x y] & Hs & S). exists (y, x). split.
        -- apply (Permutation_in _ (Permutation_sym P)). apply in_map_iff. exists (x, y). auto.
        -- apply on_seg_sym. exact S.
    + right. unfold wsum. rewrite (zsum_perm _ _ _ P), zsum_map.
      replace (- zsum (delta p) (edges_iter L))%Z with (-1 * zsum (delta p) (edges_iter L))%Z by lia.
      rewrite <- zsum_scale. apply zsum_ext. intros [x y] _. unfold sswap; cbn [fst snd]. rewrite delta_rev. lia.
Qed.
Print Assumptions locate_order_independent.
(** a bow-tie: winding numbers +1 and -1, both counted as inside *)
Definition bowtie : list point := [(zq 0, zq 0); (zq 4, zq 4); (zq 4, zq 0); (zq 0, zq 4)].
Example locate_winding_ex :
  locate_point_polygon_winding_number bowtie (zq 1, zq 2) = Ok 1%Z /\
  locate_point_polygon_winding_number bowtie (zq 3, zq 2) = Ok 1%Z /\
  fan_winding (zq 100, zq 1) bowtie (zq 1, zq 2) = 1%Z /\
  fan_winding (zq 100, zq 1) bowtie (zq 3, zq 2) = (-1)%Z /\
  fan_winding (zq 100, zq 1) bowtie (zq 2, zq 3) = 0%Z /\
  locate_point_polygon_winding_number bowtie (zq 2, zq 3) = Ok (-1)%Z.
Proof. vm_compute. auto 10. Qed.

(** ** C19 *)
(** consecutive pairs of a path *)
Fixpoint path_segments (path : list point) : list segment :=
  match path with a :: (b :: _) as r => (a, b) :: path_segments r | _ => [] end.
Theorem locate_constant_on_paths : forall poly path p q, poly <> [] ->
  hd_error path = Some p -> last path p = q ->
  (forall s x, In s (path_segments path) -> on_seg s x -> ~ on_boundary poly x) ->
  locate_point_polygon_winding_number poly p = locate_point_polygon_winding_number poly q.
Proof.
  intros poly path p q Hne. revert p. induction path as [|a path IH]; intros p Hh Hl D; [discriminate|].
  simpl in Hh. injection Hh as ->.
  destruct path as [|b path]; [simpl in Hl; now subst|].
  transitivity (locate_point_polygon_winding_number poly b).
  - assert (M : forall x, on_seg (p, b) x -> ~ on_boundary poly x) by (intros; eapply D; eauto; left; reflexivity).
    pose proof (wsum_move poly p b M) as W. destruct (on_seg_end p b) as [E1 E2].
    pose proof (M _ E1) as N1. pose proof (M _ E2) as N2.
    destruct (locate_spec poly p Hne) as (r & -> & [[B1 ->]|[(B1 & W1 & ->)|(B1 & W1 & ->)]]),
             (locate_spec poly b Hne) as (r' & -> & [[B2 ->]|[(B2 & W2 & ->)|(B2 & W2 & ->)]]);
      try reflexivity; exfalso; try tauto; lia.
  - apply IH; auto.
    + rewrite <- Hl. change (last (p :: b :: path) p) with (last (b :: path) p). apply last_dep.
    + intros s x Hs. apply D. right. exact Hs.
Qed.
Print Assumptions locate_constant_on_paths.
Example locate_constant_ex :
  let path := [(zq 1, zq 1); (zq 3, zq 1); (zq 3, zq 3)] in
  forall s x, In s (path_segments path) -> on_seg s x -> ~ on_boundary sq4 x.
Proof.
  intros path s x Hs S B. apply on_boundary_iff in B as (e & He & T).
  cbn in Hs. unfold sq4 in He. cbn in He.
  intuition (subst; apply on_seg_iff in S as (S1 & S2 & S3); apply on_seg_iff in T as (T1 & T2 & T3);
    destruct x as [x y]; unfold between in *; cbn [fst snd] in *;
    destruct S2 as [[? ?]|[? ?]], S3 as [[? ?]|[? ?]], T2 as [[? ?]|[? ?]], T3 as [[? ?]|[? ?]]; qlra).
Qed.

(** ** C20 *)
Definition cw_convex_ring (poly : list point) : Prop :=
  (forall s v, is_edge poly s -> In v poly -> orient (fst s) (snd s) v <= 0) /\
  (forall s, is_edge poly s -> fst s <> snd s).
Theorem locate_convex : forall poly p, poly <> [] -> cw_convex_ring poly ->
  (locate_point_polygon_winding_number poly p = Ok 1%Z <->
   forall s, is_edge poly s -> orient (fst s) (snd s) p < 0).
Proof.
  intros poly p Hne [C N].
  destruct (locate_spec poly p Hne) as (r & -> & [[B ->]|[(B & W & ->)|(B & W & ->)]]).
  - split; [intros E; discriminate|]. intros H. destruct B as (s & Hs & S). specialize (H _ Hs).
    destruct s as [a b]. apply on_seg_iff in S as (O & _). cbn [fst snd] in H. exfalso; qlra.
  - split; [|reflexivity]. intros _ s Hs. destruct (qltb_spec (orient (fst s) (snd s) p) 0) as [|G]; auto.
    exfalso. apply W. apply (wsum_convex_outside poly p (fst s) (snd s)); auto; qlra.
  - split; [intros E; discriminate|]. intros H. exfalso.
    assert (0 < wsum p poly)%Z; [|lia]. apply wsum_strict_right; auto. intros s Hs. apply H. now apply is_edge_pedges.
Qed.
Print Assumptions locate_convex.
Example locate_convex_ex : cw_convex_ring sq4.
Proof.
  split.
  - intros s v Hs Hv. apply is_edge_iter in Hs. unfold sq4 in Hs, Hv. simpl in Hs, Hv.
    intuition (subst; vm_compute; congruence).
  - intros s Hs. apply is_edge_iter in Hs. unfold sq4 in Hs. simpl in Hs.
    intuition (subst; vm_compute in *; congruence).
Qed.
