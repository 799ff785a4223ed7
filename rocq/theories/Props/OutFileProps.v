(** * C147: where the result is written. *)
From Verif.Model Require Import OutFile.
From Verif.Proofs Require Import PyP FingerP.
From Coq Require Import Bool Lia.

(** ** Specification *)
(** the name without its extension: what is before the last dot, if there is something before and after it *)
Definition stem_of (n s : str) : Prop :=
  (s <> [] /\ exists e, e <> [] /\ ~ In dot e /\ n = s ++ dot :: e) \/
  (s = n /\ ~ exists a e, a <> [] /\ e <> [] /\ ~ In dot e /\ n = a ++ dot :: e).
(** nothing but slashes and single dots between them *)
Definition nameless (s : str) : Prop := forall a p b, s = a ++ p ++ b -> (a = [] \/ exists a', a = a' ++ [slash]) -> (b = [] \/ exists b', b = slash :: b') -> ~ In slash p -> p = [] \/ p = [dot].

(** a part of a path, and a path written with single slashes *)
Definition good_part (p : str) : Prop := p <> [] /\ p <> [dot] /\ ~ In slash p.
Definition written (ds : list str) (n : str) : str := List.concat (map (fun d => d ++ [slash]) ds) ++ n.

Lemma last_dot_some s a b : last_dot s = Some (a, b) -> s = a ++ dot :: b /\ ~ In dot b.
Proof.
  revert a b. induction s as [|c s IH]; intros a b H; cbn [last_dot] in H; [discriminate|]. destruct (last_dot s) as [(a0, b0)|] eqn:E.
  - injection H as <- <-. destruct (IH _ _ eq_refl) as (-> & N). auto.
  - destruct (Ascii.eqb_spec c dot) as [->|]; [|discriminate]. injection H as <- <-. split; [reflexivity|]. clear IH. induction s as [|d s IH]; cbn [last_dot] in E; [auto|]. destruct (last_dot s) as [(?, ?)|]; [discriminate|].
    destruct (Ascii.eqb_spec d dot); [discriminate|]. intros [K|K]; [congruence|now apply IH].
Qed.
Lemma last_dot_none s : ~ In dot s -> last_dot s = None.
Proof. induction s as [|c s IH]; intros N; cbn [last_dot]; [reflexivity|]. rewrite IH by (intros K; apply N; now right). destruct (Ascii.eqb_spec c dot); [destruct N; now left|reflexivity]. Qed.
Lemma last_dot_app a b : ~ In dot b -> last_dot (a ++ dot :: b) = Some (a, b).
Proof. intros N. induction a as [|c a IH]; cbn [app last_dot]; [rewrite last_dot_none by auto; reflexivity|]. now rewrite IH. Qed.
Lemma suffix_some n a b : suffix_split n = Some (a, b) <-> a <> [] /\ b <> [] /\ ~ In dot b /\ n = a ++ dot :: b.
Proof.
  unfold suffix_split. split.
  - destruct (last_dot n) as [([|x a0], [|y b0])|] eqn:E; try discriminate. intros H. injection H as <- <-. destruct (last_dot_some _ _ _ E) as (-> & N). repeat split; auto; discriminate.
  - intros (A & B & N & ->). rewrite last_dot_app by auto. destruct a, b; congruence.
Qed.
Definition stem (n : str) : str := match suffix_split n with Some (a, _) => a | None => n end.
Lemma stem_iff n s : stem_of n s <-> stem n = s.
Proof.
  unfold stem_of, stem. destruct (suffix_split n) as [(a, b)|] eqn:E; split.
  - apply suffix_some in E as (A & B & N & ->). intros [(S & e & E1 & E2 & K)|(_ & K)]; [|destruct K; eauto 8].
    pose proof (last_dot_app a b N) as L. rewrite K, last_dot_app in L by auto. congruence.
  - intros <-. apply suffix_some in E as (A & B & N & ->). left. split; [auto|]. eauto 8.
  - intros [(S & e & E1 & E2 & K)|(-> & _)]; [|reflexivity]. assert (X : suffix_split n = Some (s, e)) by (apply suffix_some; auto). congruence.
  - intros <-. right. split; [reflexivity|]. intros (a & e & A & B & N & K). assert (X : suffix_split n = Some (a, e)) by (apply suffix_some; auto). congruence.
Qed.
Lemma with_suffix_stem r d n : with_suffix (mkPath r d (Some n)) = Ok (mkPath r d (Some (stem n ++ dxf))).
Proof. unfold with_suffix, stem. cbn [p_name p_root p_dirs]. destruct (suffix_split n) as [(a, b)|]; reflexivity. Qed.

(** with -o the name given *)
Theorem out_given : forall infile o, out_file infile (Some o) = Ok (inr o).
Proof. reflexivity. Qed.
(** without it: in the directory of the input, its name with the extension replaced by .dxf, or .dxf
    added if it has none *)
Theorem out_beside : forall infile r d n s, parse infile = mkPath r d (Some n) -> stem_of n s ->
  out_file infile None = Ok (inl (mkPath r d (Some (s ++ dxf)))).
Proof. intros infile r d n s E S. unfold out_file. rewrite E, with_suffix_stem. apply stem_iff in S as <-. reflexivity. Qed.
(** every name has exactly one such stem *)
Theorem stem_unique : forall n, exists! s, stem_of n s.
Proof. intros n. exists (stem n). split; [now apply stem_iff|]. intros s S. now apply stem_iff in S. Qed.
(** the input is overwritten exactly if it is called something.dxf *)
Theorem out_overwrites : forall infile r d n, parse infile = mkPath r d (Some n) ->
  (out_file infile None = Ok (inl (parse infile)) <-> exists s, s <> [] /\ n = s ++ dxf).
Proof.
  intros infile r d n E. unfold out_file. rewrite E, with_suffix_stem. cbn [bind]. split.
  - intros H. assert (K : stem n ++ dxf = n) by congruence. exists (stem n). split; [|auto]. intros Z. rewrite Z in K. cbn [app] in K. subst n. vm_compute in Z. discriminate.
  - intros (s & S & ->). assert (X : stem (s ++ dxf) = s) by (apply stem_iff; left; split; [auto|]; exists (list_ascii_of_string "dxf"); repeat split; [discriminate|vm_compute; intuition discriminate]). rewrite X. reflexivity.
Qed.
(** two inputs have the same output exactly if they differ in the extension only *)
Theorem out_clash : forall i1 i2 r1 r2 d1 d2 n1 n2, parse i1 = mkPath r1 d1 (Some n1) -> parse i2 = mkPath r2 d2 (Some n2) ->
  (out_file i1 None = out_file i2 None <-> r1 = r2 /\ d1 = d2 /\ exists s, stem_of n1 s /\ stem_of n2 s).
Proof.
  intros i1 i2 r1 r2 d1 d2 n1 n2 E1 E2. unfold out_file. rewrite E1, E2, !with_suffix_stem. cbn [bind]. split.
  - intros H. assert (K : stem n1 ++ dxf = stem n2 ++ dxf) by congruence. apply app_inv_tail in K. split; [congruence|]. split; [congruence|]. exists (stem n1). split; apply stem_iff; auto.
  - intros (-> & -> & s & S1 & S2). apply stem_iff in S1, S2. congruence.
Qed.
Lemma split_no_slash s p : In p (split_slash s) -> ~ In slash p.
Proof.
  revert p. induction s as [|c s IH]; intros p H; cbn [split_slash] in H; [destruct H as [<-|[]]; auto|]. destruct (Ascii.eqb_spec c slash) as [->|N]; [destruct H as [<-|H]; auto|].
  destruct (split_slash s) as [|h t]; [destruct H as [<-|[]]; intros [K|[]]; congruence|]. destruct H as [<-|H]; [intros [K|K]; [congruence|apply (IH h); [now left|auto]]|apply IH; now right].
Qed.
(** the parts of a path: not empty, no slash in them, none a single dot *)
Theorem parse_parts : forall s p, In p (p_dirs (parse s)) \/ p_name (parse s) = Some p -> good_part p.
Proof.
  intros s p H. assert (I : In p (filter is_part (split_slash s))). { unfold parse in H. rewrite in_rev. destruct (rev (filter is_part (split_slash s))) as [|n d]; cbn [p_dirs p_name] in H; [destruct H as [[]|H]; discriminate|]. destruct H as [H|H]; [right; now apply in_rev in H|left; congruence]. }
  apply filter_In in I as (I & P). split; [intros ->; discriminate|]. split; [intros ->; discriminate|]. eapply split_no_slash; eauto.
Qed.
Lemma split_cons p s : ~ In slash p -> split_slash (p ++ slash :: s) = p :: split_slash s.
Proof. induction p as [|c p IH]; intros N; cbn [app split_slash]; [reflexivity|]. destruct (Ascii.eqb_spec c slash) as [->|]; [destruct N; now left|]. rewrite IH by (intros K; apply N; now right). reflexivity. Qed.
Lemma split_one p : ~ In slash p -> split_slash p = [p].
Proof. induction p as [|c p IH]; intros N; cbn [split_slash]; [reflexivity|]. destruct (Ascii.eqb_spec c slash) as [->|]; [destruct N; now left|]. rewrite IH by (intros K; apply N; now right). reflexivity. Qed.
Lemma part_ok p : good_part p -> is_part p = true.
Proof. intros (A & B & _). destruct p as [|c [|c' p]]; cbn [is_part]; [congruence| |reflexivity]. destruct (Ascii.eqb_spec c dot); [congruence|reflexivity]. Qed.
(** the path of a written name: the root, the directories in order and the name *)
Theorem parse_written : forall r ds n, r = [] \/ r = [slash] \/ r = [slash; slash] -> Forall good_part ds -> good_part n -> parse (r ++ written ds n) = mkPath r ds (Some n).
Proof.
  intros r ds n R D N. assert (S : split_slash (written ds n) = ds ++ [n]). { unfold written. induction D as [|d ds (_ & _ & G) D IH]; cbn [map List.concat app]; [apply split_one; apply N|]. rewrite <- app_assoc, <- app_assoc. cbn [app]. rewrite split_cons by auto. now rewrite IH. }
  assert (FS : forall r', r' = [] \/ r' = [slash] \/ r' = [slash; slash] -> filter is_part (split_slash (r' ++ written ds n)) = ds ++ [n]).
  { assert (X : filter is_part (ds ++ [n]) = ds ++ [n]). { clear S. induction D as [|d ds G D IH]; cbn [app filter]; [now rewrite (part_ok n N)|]. rewrite (part_ok d G). now rewrite IH. }
    intros r' [->|[->| ->]]; cbn [app split_slash Ascii.eqb]; change (Ascii.eqb slash slash) with true; cbv iota; cbn [filter is_part]; rewrite S; exact X. }
  assert (H : exists c w, written ds n = c :: w /\ c <> slash). { unfold written. destruct D as [|d ds (A & _ & G) D]; [destruct N as (A & _ & G); destruct n as [|c n]; [congruence|]; exists c, n; split; [reflexivity|intros ->; apply G; now left]|]. destruct d as [|c d]; [congruence|]. cbn [map List.concat app]. eexists c, _. split; [reflexivity|]. intros ->. apply G. now left. }
  unfold parse. rewrite (FS r R), rev_app_distr. cbn [rev app]. rewrite rev_involutive. f_equal. destruct H as (c & w & -> & C). apply Ascii.eqb_neq in C. destruct R as [->|[->| ->]]; cbn [app root]; change (Ascii.eqb slash slash) with true; rewrite ?C; destruct w as [|? [|? ?]]; cbn [root]; rewrite ?C; reflexivity.
Qed.
Lemma split_cut s p : In p (split_slash s) <-> exists a b, s = a ++ p ++ b /\ (a = [] \/ exists a', a = a' ++ [slash]) /\ (b = [] \/ exists b', b = slash :: b') /\ ~ In slash p.
Proof.
  split.
  - assert (G : forall s, (forall h t, split_slash s = h :: t -> exists b, s = h ++ b /\ (b = [] \/ exists b', b = slash :: b')) /\ forall h t p, split_slash s = h :: t -> In p t -> exists a b, s = a ++ slash :: p ++ b /\ (b = [] \/ exists b', b = slash :: b')).
    { clear. induction s as [|c s (IH1 & IH2)]; cbn [split_slash]; [split; [intros h t H; injection H as <- <-; exists []; auto|intros h t p H I; injection H as <- <-; destruct I]|]. destruct (split_slash s) as [|h0 t0] eqn:E.
      { exfalso. clear -E. destruct s as [|c s]; cbn [split_slash] in E; [discriminate|]. destruct (Ascii.eqb c slash); [discriminate|]. destruct (split_slash s); discriminate. }
      destruct (IH1 _ _ eq_refl) as (b0 & E0 & B0). destruct (Ascii.eqb_spec c slash) as [->|N]; split.
      - intros h t H. injection H as <- <-. exists (slash :: s). split; [reflexivity|]. right. eauto.
      - intros h t p H I. injection H as <- <-. destruct I as [<-|I]; [exists [], b0; split; [cbn; congruence|auto]|]. destruct (IH2 _ _ p eq_refl I) as (a & b & -> & B). exists (slash :: a), b. auto.
      - intros h t H. injection H as <- <-. exists b0. split; [cbn; congruence|auto].
      - intros h t p H I. injection H as <- <-. destruct (IH2 _ _ p eq_refl I) as (a & b & -> & B). exists (c :: a), b. auto. }
    intros I. pose proof (split_no_slash _ _ I) as NS. destruct (split_slash s) as [|h t] eqn:E; [destruct I|]. destruct (G s) as (G1 & G2). destruct I as [<-|I].
    + destruct (G1 _ _ E) as (b & -> & B). exists [], b. auto.
    + destruct (G2 _ _ p E I) as (a & b & -> & B). exists (a ++ [slash]), b. split; [now rewrite <- app_assoc|]. eauto.
  - intros (a & b & -> & A & B & NS).
    assert (X : exists t, split_slash (p ++ b) = p :: t). { induction p as [|c p IH]; [destruct B as [->|(b' & ->)]; cbn; eauto|]. cbn [app split_slash]. destruct (Ascii.eqb_spec c slash) as [->|]; [destruct NS; now left|]. destruct IH as (t & ->); [intros K; apply NS; now right|]. eauto. }
    destruct X as (t & X). destruct A as [->|(a' & ->)]; [cbn [app]; rewrite X; now left|]. rewrite <- app_assoc. cbn [app].
    assert (Y : exists h u, split_slash (a' ++ slash :: p ++ b) = h :: u /\ In p u). { induction a' as [|c a' IHa]; cbn [app split_slash]; [change (Ascii.eqb slash slash) with true; cbv iota; rewrite X; exists [], (p :: t); split; [reflexivity|now left]|]. destruct IHa as (h & u & -> & I). destruct (Ascii.eqb c slash); [exists [], (h :: u); split; [reflexivity|now right]|eauto]. }
    destruct Y as (h & u & -> & I). now right.
Qed.
(** ValueError exactly if the input has no name, such as '', '.' or '/' *)
Theorem out_error : forall infile e, out_file infile None = Err e <-> e = ValueError /\ nameless infile.
Proof.
  intros infile e. assert (N : p_name (parse infile) = None <-> nameless infile).
  { assert (F : p_name (parse infile) = None <-> filter is_part (split_slash infile) = []). { unfold parse. destruct (filter is_part (split_slash infile)) as [|x l] eqn:E; [cbn; tauto|]. destruct (rev (x :: l)) as [|y m] eqn:R; [|cbn; split; discriminate]. apply (f_equal (@List.length _)) in R. rewrite rev_length in R. discriminate. }
    rewrite F. unfold nameless. split.
    - intros H a p b E A B NS. assert (I : In p (split_slash infile)) by (apply split_cut; eauto 8). destruct (is_part p) eqn:P; [assert (K : In p (filter is_part (split_slash infile))) by (apply filter_In; auto); rewrite H in K; destruct K|].
      destruct p as [|c [|c' p]]; [auto| |discriminate]. cbn [is_part] in P. destruct (Ascii.eqb_spec c dot) as [->|]; [auto|discriminate].
    - intros H. destruct (filter is_part (split_slash infile)) as [|x l] eqn:E; [reflexivity|]. assert (K : In x (filter is_part (split_slash infile))) by (rewrite E; now left). apply filter_In in K as (K & P). apply split_cut in K as (a & b & E1 & A & B & NS). destruct (H a x b E1 A B NS) as [->| ->]; discriminate. }
  rewrite <- N. unfold out_file, with_suffix. destruct (p_name (parse infile)); cbn [bind]; split.
  - discriminate.
  - intros (_ & K). discriminate.
  - intros K. injection K as <-. auto.
  - intros (-> & _). reflexivity.
Qed.
Lemma join_written ds n : join (ds ++ [n]) = written ds n.
Proof. unfold written. induction ds as [|d ds IH]; [reflexivity|]. cbn [app map List.concat]. rewrite <- app_assoc, <- app_assoc. cbn [app]. rewrite <- IH. destruct (ds ++ [n]) eqn:E; [destruct ds; discriminate|reflexivity]. Qed.
Lemma written_cons ds n : good_part n -> exists c w, written ds n = c :: w.
Proof. intros (A & _). unfold written. destruct (List.concat _); [destruct n; [congruence|]|]; cbn; eauto. Qed.
Lemma str_named r ds n : good_part n -> path_str (mkPath r ds (Some n)) = r ++ written ds n.
Proof. intros G. unfold path_str. cbn [p_root p_dirs p_name]. rewrite join_written. destruct (written_cons ds n G) as (c & w & ->). destruct r; reflexivity. Qed.
Lemma root_cases s : root s = [] \/ root s = [slash] \/ root s = [slash; slash].
Proof. unfold root. destruct s as [|a [|b [|c s]]]; auto; repeat (destruct (Ascii.eqb _ _); cbn [andb negb]; auto). Qed.
Lemma good_dxf n s : good_part n -> stem_of n s -> good_part (s ++ dxf).
Proof.
  intros (A & B & C) S. assert (NS : ~ In slash s) by (destruct S as [(_ & e & _ & _ & ->)|(-> & _)]; [intros K; apply C; apply in_or_app; now left|auto]).
  split; [destruct s; discriminate|]. split; [destruct s as [|? [|? ?]]; discriminate|]. intros K. apply in_app_or in K as [K|K]; [auto|]. vm_compute in K. intuition discriminate.
Qed.
(** the name written to is the name read with the extension replaced: same text up to the last part *)
Theorem write_beside : forall infile w, write_name infile None = Ok w ->
  exists r ds n s, read_name infile = r ++ written ds n /\ good_part n /\ Forall good_part ds /\ stem_of n s /\ w = r ++ written ds (s ++ dxf).
Proof.
  intros infile w H. unfold write_name in H. apply bind_ok in H as (o & H & E). unfold out_file in H. apply bind_ok in H as (p & H & E'). apply Ok_inv in E' as <-. apply Ok_inv in E as <-. pose proof (parse_parts infile) as G. unfold read_name. destruct (parse infile) as [r ds [n|]] eqn:EP; [|discriminate].
  rewrite with_suffix_stem in H. apply Ok_inv in H as <-. cbn [p_dirs p_name] in G. assert (Gn : good_part n) by (apply G; auto). assert (S : stem_of n (stem n)) by now apply stem_iff.
  exists r, ds, n, (stem n). rewrite !str_named by (auto; eapply good_dxf; eauto). split; [auto|]. split; [auto|]. split; [apply Forall_forall; intros d D; apply G; auto|]. auto.
Qed.
(** the file read is overwritten exactly if the names are the same text *)
Theorem write_over : forall infile, write_name infile None = Ok (read_name infile) <-> exists r ds s, s <> [] /\ r = root infile /\ read_name infile = r ++ written ds (s ++ dxf) /\ parse infile = mkPath r ds (Some (s ++ dxf)).
Proof.
  intros infile. pose proof (parse_parts infile) as G. destruct (parse infile) as [r ds [n|]] eqn:EP.
  - assert (ER : r = root infile). { unfold parse in EP. destruct (rev _); congruence. } cbn [p_dirs p_name] in G. assert (Gn : good_part n) by (apply G; auto). assert (S : stem_of n (stem n)) by now apply stem_iff.
    unfold write_name, out_file, read_name. rewrite EP, with_suffix_stem. cbn [bind]. rewrite !str_named by (auto; eapply good_dxf; eauto). split.
    + intros H. apply Ok_inv in H. apply app_inv_head in H. unfold written in H. apply app_inv_head in H. exists r, ds, (stem n). assert (Z : stem n <> []). { intros Z. rewrite Z in H. cbn [app] in H. rewrite <- H in Z. vm_compute in Z. discriminate. } rewrite H. auto.
    + intros (r' & ds' & s & Z & _ & _ & K). injection K as <- <- ->. assert (X : stem (s ++ dxf) = s) by (apply stem_iff; left; split; [auto|]; exists (list_ascii_of_string "dxf"); repeat split; [discriminate|vm_compute; intuition discriminate]). now rewrite X.
  - unfold write_name, out_file. rewrite EP. cbn [with_suffix p_name bind]. split; [discriminate|]. intros (r' & ds' & s & _ & _ & _ & K). discriminate.
Qed.
(** the text of a path denotes the same path *)
Theorem read_same : forall infile n, p_name (parse infile) = Some n -> parse (read_name infile) = parse infile.
Proof.
  intros infile n H. pose proof (parse_parts infile) as G. assert (R : p_root (parse infile) = root infile) by (unfold parse; destruct (rev _); reflexivity). pose proof (root_cases infile) as RC. rewrite <- R in RC. unfold read_name. destruct (parse infile) as [r ds [m|]]; [|discriminate]. cbn [p_name p_root p_dirs] in *. assert (Gm : good_part m) by auto.
  rewrite str_named by auto. apply parse_written; auto. apply Forall_forall. auto.
Qed.
(** with -o the text given, unchanged *)
Theorem write_given : forall infile o, write_name infile (Some o) = Ok o.
Proof. reflexivity. Qed.
(** an input without a name is read as its root, or as '.' *)
Theorem read_nameless : forall infile, p_name (parse infile) = None -> read_name infile = match infile with c :: _ => if Ascii.eqb c slash then root infile else [dot] | [] => [dot] end.
Proof.
  intros s H. unfold read_name. assert (E : parse s = mkPath (root s) [] None) by (unfold parse in *; destruct (rev _); [reflexivity|discriminate]). rewrite E. unfold path_str. cbn [p_root p_dirs p_name app join]. rewrite app_nil_r.
  destruct s as [|a [|b [|c s]]]; cbn [root]; try reflexivity; destruct (Ascii.eqb a slash); try reflexivity; destruct (Ascii.eqb b slash); try reflexivity; cbn [andb]; destruct (negb (Ascii.eqb c slash)); reflexivity.
Qed.
Print Assumptions write_given.
Print Assumptions read_nameless.
Print Assumptions write_beside.
Print Assumptions write_over.
Print Assumptions read_same.
Print Assumptions out_given.
Print Assumptions out_beside.
Print Assumptions stem_unique.
Print Assumptions out_overwrites.
Print Assumptions out_clash.
Print Assumptions parse_parts.
Print Assumptions parse_written.
Print Assumptions out_error.
(** ** Non-vacuity *)
Section Ex.
Let l := list_ascii_of_string.
Let name (s : string) : result string := r <- out_file (l s) None ;; match r with inl p => match p_name p with Some n => Ok (string_of_list_ascii n) | None => Err KeyError end | inr _ => Err KeyError end.
Example out_ex :
  (parse (l "/a//./b/box.v2.stl") = mkPath (l "/") [l "a"; l "b"] (Some (l "box.v2.stl")) /\ name "/a//./b/box.v2.stl" = Ok "box.v2.dxf" /\ name "box" = Ok "box.dxf" /\ name ".stl" = Ok ".stl.dxf" /\ name "box." = Ok "box..dxf" /\
  name "box.dxf" = Ok "box.dxf" /\ name "box.obj" = name "box.stl" /\ name "/" = Err ValueError /\ name ".//." = Err ValueError /\ p_root (parse (l "//x/y")) = l "//" /\ p_root (parse (l "///x")) = l "/")%string.
Proof. vm_compute. repeat split; reflexivity. Qed.
Example write_ex : (write_name (l "a//b/./c.stl") None = Ok (l "a/b/c.dxf") /\ read_name (l "a//b/./c.stl") = l "a/b/c.stl" /\ write_name (l "./x.dxf") None = Ok (read_name (l "./x.dxf")) /\ read_name (l "./x.dxf") = l "x.dxf" /\
  write_name (l "c.stl") (Some (l "o")) = Ok (l "o") /\ read_name [] = l ".")%string.
Proof. vm_compute. repeat split; reflexivity. Qed.
End Ex.
