(** * Non-vacuity of the end-to-end theorems: two 20 x 20 sheets joined along an edge, the whole of
    canned_1 on the real arrangement code. *)
From Verif.Model Require Import Arrangement2d Canned.
From Verif.Spec Require Import Plane Region Fingers.
From Verif.Proofs Require Import PyP ExtOrd DictP SheetplexP SheetbuildP CreateP.
From Verif.Props Require Import SheetplexProps SheetbuildProps CannedProps JointProps.
From Coq Require Import String Permutation.
Open Scope Qc_scope.

Section Ex.
Let orc : list segment -> nat -> nat -> nat := fun _ _ _ => O.
Let A := segment_arrangement orc.
Let id' := fun q : Qc => q.
Let R : rng := mkRng (fun _ l => rev l) (fun _ lo hi => (lo + hi) / zq 2) (fun _ lo _ => lo).
Let sq : geom2d := [mkSpwh [(0, 0); (0, zq 20); (zq 20, zq 20); (zq 20, 0)] []].
Let sh n := mkSheet n sq sq sq.
Let sp0 := mkPlex [("s0", sh "s0"); ("s1", sh "s1")]%string [].
Let fr : frames := fun _ _ => Ok (Some (((1, 0), ((0, 0), [(0, zq 4)])), ((1, 0), ((0, 0), [(0, zq 4)])))).
Let sp := match create_intersections fr sp0 with Ok sp => sp | Err _ => sp0 end.
(** FractionFromFloat(math.sqrt(x), -10) for x = 1, 2 *)
Let fs (q : Qc) : Qc := if qeqb q 1 then 1 else qq 41 29.
Let run sp := canned_1 A fs id' R (zq 3) (zq 5) (fun c => c) (fun l => l) None (Some true) sp (NInt 12) 0.

Lemma ex_plex : plex_made sp /\ plex_geoms sp /\ (forall c : dict string geom1d, Permutation c ((fun c => c) c)).
Proof.
  split; [|split; [|intros; reflexivity]].
  - exists fr, sp0. split; [|reflexivity]. split; [reflexivity|]. split; [repeat constructor; cbn; intuition discriminate|].
    intros k s [E|[E|[]]]; apply pair_inv in E as (<- & <-); (split; [reflexivity|]); intros K; vm_compute in K; intuition discriminate.
  - intros k s [E|[E|[]]]; apply pair_inv in E as (<- & <-); cbn [sh_face0 sh_face1 sh_slices_max sh]; repeat split; repeat constructor; vm_compute; reflexivity.
Qed.
Definition has_length (m : dict id2 geom1d) (k : id2) (q : Qc) : bool :=
  match dget id2_eqb k m with Some g => match measure1d g with Some (Fin x) => qeqb x q | _ => false end | None => false end.
Definition spot (m : dict string geom2d) (k : string) (p : point) : result Z := g2_locate (geom_at m k) p.
(** One sheet without joints, as a checked theorem: everything is chosen. *)
Let sp1 := mkPlex [("s0", sh "s0")]%string [].
Example one_sheet_ex :
  match run sp1 with
  | Ok r => (cn_ok r, List.length (cn_history r), mapM (spot (sb_schosen (cn_sb r)) "s0"%string) [(zq 6, zq 2); (zq 21, zq 2)])
  | Err _ => (false, O, Ok [])
  end = (true, 14%nat, Ok [1; -1]%Z).
Proof. vm_compute. reflexivity. Qed.

(** The two joined sheets.  This is only evaluated (about a minute), not stored as a theorem, because
    coqchk has no virtual machine and would need an hour for it.  Expected output:
    (true, 14, true, true, Ok [1; -1; -1; 1; 1; 1]): the run succeeds and the fingers share the joint
    of length 19.998 between the two sides; at the position 6 of the joint only s0 has material, at 2
    only s1, and both keep the rest. *)
Eval vm_compute in
  match run sp with
  | Ok r => let c := sb_ichosen (cn_sb r) in
            (cn_ok r, List.length (cn_history r), has_length c ("s0,s1", "s0")%string (qq 7999 1000), has_length c ("s0,s1", "s1")%string (qq 11999 1000),
             mapM (fun e => spot (sb_schosen (cn_sb r)) (fst e) (snd e))
               [("s0", (zq 6, zq 2)); ("s1", (zq 6, zq 2)); ("s0", (zq 2, zq 2)); ("s1", (zq 2, zq 2)); ("s0", (zq 6, zq 9)); ("s1", (zq 6, zq 9))]%string)
  | Err _ => (false, O, false, false, Ok [])
  end.
End Ex.
