(** * The result of a buffer is a Geom2D value *)
From Verif.Model Require Import Geom2d.
From Verif.Spec Require Import Plane Region.
From Verif.Proofs Require Import PyP PolyP NearP SimplifyP Geom2dP Geom2dOps.

Lemma mink_parts shift (g : geom2d) cpoly sign parts :
  mapM (fun s => t <- spwh_transformed_with shift s ;; p <- single (outer t) ;;
                 simples <- minkowski_ribbon_simple_convex (outer s) cpoly sign ;;
                 ext <- mapM (fun e => e' <- reorient e ;; single (shift e')) simples ;; Ok (p, ext)) g = Ok parts ->
  Forall (fun pe => is_geom2d (fst pe) /\ Forall is_geom2d (snd pe)) parts.
Proof.
  intros H. apply mapM_ok in H. induction H as [|s pe g parts R H IH]; constructor; auto.
  apply bind_ok in R as (t & _ & R). apply bind_ok in R as (p & P1 & R). apply bind_ok in R as (simples & _ & R). apply bind_ok in R as (ext & E & R).
  injection R as <-. cbn [fst snd]. split; [now apply single_geom in P1|]. apply mapM_ok in E. clear -E. induction E as [|e x l l' R E IH]; constructor; auto.
  apply bind_ok in R as (e' & _ & R). now apply single_geom in R.
Qed.
Lemma parts_geoms (parts : list (geom2d * list geom2d)) : Forall (fun pe => is_geom2d (fst pe) /\ Forall is_geom2d (snd pe)) parts ->
  Forall is_geom2d (flat_map snd parts) /\ Forall is_geom2d (map fst parts) /\ Forall is_geom2d (flat_map (fun pe => fst pe :: snd pe) parts).
Proof.
  induction 1 as [|pe parts (A & B) F (I1 & I2 & I3)]; cbn; [repeat split; constructor|]. split; [now apply Forall_app|].
  split; constructor; auto. now apply Forall_app.
Qed.
Lemma mink_geom A depth : arr_sound A -> forall g cpoly sign r, minkowski_convex_op A depth g cpoly sign = Ok r -> is_geom2d r.
Proof.
  intros SA. induction depth as [|depth IH]; intros g cpoly sign r H; [discriminate|]. cbn [minkowski_convex_op] in H.
  apply bind_ok in H as (u & _ & H). apply bind_ok in H as (l & _ & H). apply bind_ok in H as ((off & cp) & _ & H). apply bind_ok in H as (parts & P1 & H).
  apply mink_parts, parts_geoms in P1 as (F1 & F2 & F3). apply bind_ok in H as (hneg & HN & H). apply bind_ok in H as (gpos & U1 & H). apply bind_ok in H as (gneg & U2 & H).
  assert (FH : Forall is_geom2d hneg).
  { apply mapM_ok in HN. clear -HN IH. induction HN as [|h x l l' R HN IHH]; constructor; auto. apply bind_ok in R as (y & _ & R). eapply IH; eauto. }
  apply (union_tree_ok A) in U1; auto; [|destruct (qltb 0 sign); auto]. apply (union_tree_ok A) in U2; auto; [|apply Forall_app; split; auto; destruct (qltb 0 sign); auto].
  apply (g2_sub_ok A) in H; [apply H|auto|apply U1|apply U2].
Qed.
Lemma buffer_geom A fsqrt g a r : arr_sound A -> is_geom2d g -> g2_buffer A fsqrt g a = Ok r -> is_geom2d r.
Proof.
  intros SA G H. unfold g2_buffer in H. match type of H with (if ?b then _ else _) = _ => destruct b end; [injection H as <-; exact G|].
  apply bind_ok in H as (q & _ & H). eapply mink_geom; eauto.
Qed.
Lemma buffer_zero A fsqrt g r : g2_buffer A fsqrt g (NInt 0) = Ok r -> r = g.
Proof. intros H. injection H as <-. reflexivity. Qed.
