(** * Lemmas about dictionaries. *)
From Verif.Base Require Import PyDict.
From Coq Require Import String List.
Import ListNotations.

Definition eq_dec_b {K} (eqb : K -> K -> bool) : Prop := forall a b, eqb a b = true <-> a = b.
Lemma string_eqb_ok : eq_dec_b String.eqb.
Proof. intros a b. apply String.eqb_eq. Qed.
Lemma id2_eqb_ok : eq_dec_b id2_eqb.
Proof.
  intros [a b] [c d]. unfold id2_eqb, pair_eqb. cbn. rewrite Bool.andb_true_iff, !String.eqb_eq. split.
  - intros (-> & ->). reflexivity.
  - intros E. inversion E. auto.
Qed.
Section D.
Context {K V : Type} (eqb : K -> K -> bool) (E : eq_dec_b eqb).
Lemma eqb_refl k : eqb k k = true.
Proof. now apply E. Qed.
Lemma eqb_case a b : (eqb a b = true /\ a = b) \/ (eqb a b = false /\ a <> b).
Proof.
  destruct (eqb a b) eqn:H; [left|right]; split; auto; [now apply E|]. intros ->. rewrite eqb_refl in H. discriminate.
Qed.
Lemma dget_dset k v j (m : dict K V) : dget eqb j (dset eqb k v m) = if eqb j k then Some v else dget eqb j m.
Proof.
  induction m as [|[k' v'] m IH]; cbn; [reflexivity|].
  destruct (eqb_case k k') as [(-> & <-)|(-> & N)]; cbn.
  - destruct (eqb j k); reflexivity.
  - rewrite IH. destruct (eqb_case j k') as [(-> & ->)|(-> & N')]; auto.
    destruct (eqb_case k' k) as [(-> & ->)|(-> & _)]; congruence.
Qed.
Lemma dget_same k v (m : dict K V) : dget eqb k (dset eqb k v m) = Some v.
Proof. now rewrite dget_dset, eqb_refl. Qed.
Lemma dget_other k v j (m : dict K V) : j <> k -> dget eqb j (dset eqb k v m) = dget eqb j m.
Proof. intros N. rewrite dget_dset. destruct (eqb_case j k) as [(-> & ->)|(-> & _)]; congruence. Qed.
Lemma dget_in k v (m : dict K V) : dget eqb k m = Some v -> In (k, v) m.
Proof.
  induction m as [|[k' v'] m IH]; cbn; [discriminate|].
  destruct (eqb_case k k') as [(-> & <-)|(-> & N)]; [injection 1 as <-; auto|auto].
Qed.
Lemma dget_none k (m : dict K V) : dget eqb k m = None <-> ~ In k (keys m).
Proof.
  induction m as [|[k' v'] m IH]; cbn; [tauto|].
  destruct (eqb_case k k') as [(-> & <-)|(-> & N)]; [split; [discriminate|tauto]|]. rewrite IH. intuition congruence.
Qed.
Lemma dget_nodup k v (m : dict K V) : NoDup (keys m) -> (dget eqb k m = Some v <-> In (k, v) m).
Proof.
  intros N. split; [apply dget_in|]. induction m as [|[k' v'] m IH]; cbn; [tauto|].
  cbn in N. inversion N as [|? ? N1 N2]; subst. intros [H|H].
  - injection H as -> ->. now rewrite eqb_refl.
  - destruct (eqb_case k k') as [(-> & <-)|(-> & _)]; auto. exfalso. apply N1. apply in_map_iff. exists (k, v). auto.
Qed.
Lemma keys_dset k v (m : dict K V) : keys (dset eqb k v m) = if existsb (eqb k) (keys m) then keys m else keys m ++ [k].
Proof.
  induction m as [|[k' v'] m IH]; cbn; [reflexivity|].
  destruct (eqb_case k k') as [(-> & <-)|(-> & N)]; cbn; [reflexivity|]. unfold keys in IH; rewrite IH. destruct (existsb _ _); reflexivity.
Qed.
Lemma existsb_eqb_in k l : existsb (eqb k) l = true <-> In k l.
Proof.
  rewrite existsb_exists. split.
  - intros (x & Hx & H). apply E in H. congruence.
  - intros H. exists k. split; auto. apply eqb_refl.
Qed.
Lemma in_keys_dset k v j (m : dict K V) : In j (keys (dset eqb k v m)) <-> j = k \/ In j (keys m).
Proof.
  rewrite keys_dset. destruct (existsb (eqb k) (keys m)) eqn:X.
  - apply existsb_eqb_in in X. split; [auto|]. intros [->|H]; auto.
  - rewrite in_app_iff. cbn. intuition.
Qed.
Lemma nodup_snoc {X} (l : list X) x : NoDup l -> ~ In x l -> NoDup (l ++ [x]).
Proof.
  induction 1 as [|y l H N IH]; cbn; intros NI; constructor; cbn; auto; try constructor; try tauto.
  - rewrite in_app_iff. cbn. intuition.
Qed.
Lemma nodup_dset k v (m : dict K V) : NoDup (keys m) -> NoDup (keys (dset eqb k v m)).
Proof.
  intros N. rewrite keys_dset. destruct (existsb (eqb k) (keys m)) eqn:X; auto.
  apply nodup_snoc; auto. intros H. apply existsb_eqb_in in H. congruence.
Qed.
Lemma keys_dset_old k v (m : dict K V) : In k (keys m) -> keys (dset eqb k v m) = keys m.
Proof. intros H. rewrite keys_dset. apply existsb_eqb_in in H. now rewrite H. Qed.
Lemma in_dset k v e (m : dict K V) : In e (dset eqb k v m) -> e = (k, v) \/ (In e m /\ (NoDup (keys m) -> fst e <> k)).
Proof.
  induction m as [|[k' v'] m IH]; cbn; [intuition|].
  destruct (eqb_case k k') as [(-> & <-)|(-> & N)]; cbn.
  - intros [<-|H]; auto. right. split; auto. intros ND. inversion ND as [|? ? N1 N2]; subst.
    intros <-. apply N1. apply in_map_iff. eauto.
  - intros [<-|H]; [right; split; auto; intros _ <-; congruence|]. destruct (IH H) as [->|(A & B)]; auto. right. split; auto.
    intros ND. inversion ND; subst. auto.
Qed.
Lemma dgetr_ok k v (m : dict K V) : dgetr eqb k m = Ok v <-> dget eqb k m = Some v.
Proof. unfold dgetr. destruct (dget eqb k m); split; congruence. Qed.
Lemma dget_some k (m : dict K V) : In k (keys m) <-> exists v, dget eqb k m = Some v.
Proof.
  pose proof (dget_none k m) as N. destruct (dget eqb k m) as [v|] eqn:X.
  - split; [eauto|]. intros _. apply dget_in in X. apply in_map_iff. exists (k, v). auto.
  - split; [intros H; exfalso; apply N; auto|intros (v & H); discriminate].
Qed.
End D.
