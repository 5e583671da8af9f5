(** C34 and C35: paths. *)
From Verif Require Import Base Path_Model Path_Spec Path_Proofs.
From Verif Require Substring_Spec.

(** The list functions used in the model are what C33 proves of String.fields and Substring.splitr. *)
Theorem C34_fields_are_fields : forall s, Substring_Spec.fields_of isslash s (fields s).
Proof.
  intros s. split.
  - intros f c If Ic. destruct (isslash c) eqn:E; [|reflexivity]. apply isslash_spec in E as ->. pose proof (fields_no_slash s) as F. rewrite Forall_forall in F. destruct (F f If Ic).
  - exists (repeat 47 (pred (length (fields s)))). split; [intros d H; apply repeat_spec in H as ->; reflexivity|]. rewrite repeat_length. destruct (fields_cons s) as (f & fs & E). split; [rewrite E; reflexivity|].
    rewrite <- (join_fields s) at 3. rewrite E. cbn [length pred]. clear. revert f. induction fs as [|g fs IH]; intros f; [reflexivity|].
    change (Substring_Spec.interleave (f :: g :: fs) (repeat 47 (length (g :: fs)))) with (f ++ 47 :: Substring_Spec.interleave (g :: fs) (repeat 47 (length fs))). rewrite IH. reflexivity.
Qed.
Theorem C34_splitr_is_splitr : forall s a b, splitr_dot s = (a, b) -> s = a ++ b /\ Substring_Spec.longest_suffix (fun c => negb (c =? 46)) a b.
Proof.
  intros s a b E. destruct (splitr_dot_ok s a b E) as (-> & N & H). split; [reflexivity|]. split.
  - intros c I. destruct (Z.eqb_spec c 46) as [->|]; [destruct (N I)|reflexivity].
  - intros c a' ->. destruct H as [H|(a2 & H)]; [destruct a'; discriminate|]. apply app_inj_tail in H as (_ & ->). reflexivity.
Qed.
(** ** Arcs *)
(** every string is a path with exactly one decomposition, and fromString finds it *)
Theorem C34_fromString : forall p, exists abs arcs, fromString p = (abs, [], arcs) /\ parts abs arcs p /\
  forall abs' arcs', parts abs' arcs' p -> abs' = abs /\ arcs' = arcs.
Proof.
  intros p. destruct (parts_fromString p) as (abs & arcs & E & P). exists abs, arcs. split; [exact E|]. split; [exact P|]. intros abs' arcs' P'. exact (parts_unique _ _ _ _ _ P' P).
Qed.
Theorem C34_toString_fromString : forall p, toString (fromString p) = Ret p.
Proof. intros p. destruct (parts_fromString p) as (abs & arcs & -> & P). now apply toString_parts. Qed.
Example toString_fromString_ex : fromString [47; 97; 47; 47; 98] = (true, [], [[97]; []; [98]]).
Proof. reflexivity. Qed.
Theorem C34_fromString_toString : forall abs arcs p, parts abs arcs p -> toString (abs, [], arcs) = Ret p /\ fromString p = (abs, [], arcs).
Proof. intros abs arcs p P. split; [now apply toString_parts|now apply fromString_parts]. Qed.
(** an empty first arc of a relative path is refused *)
Theorem C34_toString_relative_empty : forall arcs, toString (false, [], [] :: arcs) = Raise PathExn.
Proof. reflexivity. Qed.
(** Finding: Path.sig 164 says that fromString (toString p) = p when no exception is raised *)
Theorem C34_fromString_toString_refuted : exists path p, toString path = Ret p /\ fromString p <> path.
Proof. exists (true, [], []), [47]. split; [reflexivity|]. discriminate. Qed.
Theorem C34_isAbsolute : forall p, (isAbsolute p = true <-> absolute p) /\ (isRelative p = true <-> ~ absolute p) /\ (isRoot p = true <-> p = [47]).
Proof.
  intros p. split; [apply isAbsolute_spec|]. split.
  - unfold isRelative. rewrite negb_true_iff, <- not_true_iff_false. now rewrite isAbsolute_spec.
  - unfold isRoot, splitabsvolrest. destruct p as [|c [|d p]]; [split; discriminate| |]; destruct (isslash c) eqn:E; split; intros H; try discriminate.
    + now apply isslash_spec in E as ->.
    + reflexivity.
    + now injection H as ->.
Qed.

(** ** Canonical paths *)
(** mkCanonical never fails; the result is canonical, relative exactly if p is, and leads to the same
    place from everywhere *)
Theorem C34_mkCanonical : forall p, exists c, mkCanonical p = Ret c /\ canonical c /\ (absolute c <-> absolute p) /\ same_place p c.
Proof. exact mkCanonical_ok. Qed.
Example mkCanonical_ex : mkCanonical [97; 47; 46; 47; 47; 98; 47; 46; 46; 47; 46; 46; 47; 46; 46; 47; 99] = Ret [46; 46; 47; 99].
Proof. reflexivity. Qed.
Theorem C34_mkCanonical_idempotent : forall p c, mkCanonical p = Ret c -> mkCanonical c = Ret c.
Proof. intros p c E. destruct (mkCanonical_ok p) as (d & E' & C & _). rewrite E' in E. injection E as <-. now apply mkCanonical_id. Qed.
(** canonical paths are canonical representatives: equal exactly if they lead to the same places *)
Theorem C34_mkCanonical_complete : forall p q, mkCanonical p = mkCanonical q <-> same_place p q.
Proof.
  intros p q. destruct (mkCanonical_ok p) as (c & -> & C & _ & S). destruct (mkCanonical_ok q) as (d & -> & D & _ & S'). split.
  - intros [= <-]. exact (same_place_trans _ _ _ S (same_place_sym _ _ S')).
  - intros H. f_equal. apply canonical_unique; auto. exact (same_place_trans _ _ _ (same_place_sym _ _ S) (same_place_trans _ _ _ H S')).
Qed.
Theorem C34_isCanonical : forall p, exists b, isCanonical p = Ret b /\ (b = true <-> canonical p).
Proof.
  intros p. unfold isCanonical. destruct (mkCanonical_ok p) as (c & E & C & _). rewrite E. cbn [bind]. eexists. split; [reflexivity|]. rewrite eqs_spec. split; [now intros <-|]. intros H.
  rewrite (mkCanonical_id p H) in E. congruence.
Qed.
Example canonical_ex : canonical [46; 46; 47; 99].
Proof. exists false, 1%nat, [[99]]. split; [|split; [discriminate|reflexivity]]. constructor; [|constructor]. repeat split; try discriminate. intros H; cbn in H; lia. Qed.

(** ** Directory and file *)
Theorem C34_splitDirFile : forall p, exists d f, splitDirFile p = Ret (d, f) /\ no_slash f /\
  ((d = [] /\ p = f) \/ (d = [47] /\ p = 47 :: f) \/ (d <> [] /\ p = d ++ 47 :: f)).
Proof.
  intros p. destruct (last_arc p) as [H|(a & f & -> & H)].
  - exists [], p. split; [now apply split_word|]. auto.
  - rewrite split_slash by exact H. destruct a as [|c a]; eexists; eexists; (split; [reflexivity|]); (split; [exact H|]); [right; left; now split|right; right; now split].
Qed.
Theorem C34_concat : forall d f,
  (absolute f -> concat d f = Raise PathExn) /\
  (~ absolute f ->
    (d = [] -> concat d f = Ret f) /\ (forall a, d = a ++ [47] -> concat d f = Ret (a ++ 47 :: f)) /\
    (d <> [] -> (forall a, d <> a ++ [47]) -> concat d f = Ret (d ++ 47 :: f))).
Proof.
  intros d f. split; intros H.
  - unfold concat. now rewrite (proj2 (isAbsolute_spec f) H).
  - apply concat_ok. apply not_true_is_false. now rewrite isAbsolute_spec.
Qed.
(** concat leads where the two paths lead one after the other *)
Theorem C34_concat_place : forall d f p, concat d f = Ret p -> forall a b c, leads d a b -> leads f b c -> leads p a c.
Proof.
  intros d f p E a b c H1 H2. assert (Hf : isAbsolute f = false) by (unfold concat in E; destruct (isAbsolute f); [discriminate|reflexivity]).
  apply leads_dest in H1, H2. subst. apply leads_dest. now rewrite (proj2 (dest_concat d f p Hf E)).
Qed.
(** joining what was split gives the path back, unless an empty arc precedes the last one; then one
    slash is lost *)
Theorem C34_join_split : forall p d f, splitDirFile p = Ret (d, f) -> ~ doubled p -> joinDirFile d f = Ret p.
Proof.
  intros p d f E N. unfold joinDirFile. destruct (last_arc p) as [H|(a & g & -> & H)].
  - rewrite split_word in E by exact H. injection E as <- <-. destruct (concat_ok [] p (no_slash_rel p H)) as (C & _). now apply C.
  - rewrite split_slash in E by exact H. injection E as <- <-. destruct (concat_ok (match a with [] => [47] | _ => a end) g (no_slash_rel g H)) as (_ & C2 & C3). destruct a as [|c a].
    + now rewrite (C2 [] eq_refl).
    + apply C3; [discriminate|]. intros b Eb. apply N. exists b, g. rewrite Eb, <- app_assoc. now split.
Qed.
Theorem C34_join_split_doubled : forall a f, no_slash f -> exists d, splitDirFile (a ++ 47 :: 47 :: f) = Ret (d, f) /\ joinDirFile d f = Ret (a ++ 47 :: f).
Proof.
  intros a f H. replace (a ++ 47 :: 47 :: f) with ((a ++ [47]) ++ 47 :: f) by now rewrite <- app_assoc. rewrite split_slash by exact H. eexists. split; [reflexivity|].
  destruct (concat_ok (a ++ [47]) f (no_slash_rel f H)) as (_ & C2 & _). unfold joinDirFile. rewrite <- (C2 a eq_refl). now destruct a.
Qed.
Theorem C34_join_split_refuted : exists p d f, splitDirFile p = Ret (d, f) /\ joinDirFile d f <> Ret p.
Proof. exists [97; 47; 47; 98], [97; 47], [98]. split; [reflexivity|discriminate]. Qed.
Theorem C34_split_join : forall d f p, no_slash f -> (d = [47] \/ forall a, d <> a ++ [47]) -> joinDirFile d f = Ret p -> splitDirFile p = Ret (d, f).
Proof.
  intros d f p H D E. unfold joinDirFile in E. destruct (concat_ok d f (no_slash_rel f H)) as (C1 & C2 & C3). destruct D as [->|D].
  - rewrite (C2 [] eq_refl) in E. injection E as <-. now apply (split_slash []).
  - destruct d as [|c d].
    + rewrite C1 in E by reflexivity. injection E as <-. now apply split_word.
    + rewrite C3 in E by (auto; discriminate). injection E as <-. change (c :: d ++ 47 :: f) with ((c :: d) ++ 47 :: f). now rewrite split_slash.
Qed.
Theorem C34_join_split_canonical : forall p, canonical p -> exists d f, splitDirFile p = Ret (d, f) /\ joinDirFile d f = Ret p.
Proof.
  intros p C. destruct (C34_splitDirFile p) as (d & f & E & _). exists d, f. split; [exact E|]. apply C34_join_split; [exact E|]. clear d f E.
  intros (a & f & -> & Hf). destruct C as (abs & ups & names & F & U & E). pose proof (cpath_parts abs ups names F U) as P. rewrite <- E in P. apply fromString_parts in P.
  assert (Bad : In [] (repeat parentArc ups ++ names) -> False).
  { intros I. apply in_app_or in I as [I|I]; [apply repeat_spec in I; discriminate|]. rewrite Forall_forall in F. destruct (F _ I) as (_ & Q & _). congruence. }
  assert (K : forall l, In [] l -> (2 <= length l)%nat -> l = (match ups, names with O, [] => if abs then [[]] else [currentArc] | _, _ => repeat parentArc ups ++ names end) -> False).
  { intros l I L ->. destruct ups; [destruct names; [destruct abs; cbn in L; lia|]|]; exact (Bad I). }
  destruct a as [|c a].
  - cbn [app] in P. rewrite fromString_abs in P. injection P as _ P. refine (K _ _ _ P); cbn [fields]; change (isslash 47) with true; cbn match; [now left|]. rewrite (fields_word f Hf). cbn [length]. lia.
  - assert (L : exists b : bool, fromString ((c :: a) ++ 47 :: 47 :: f) = (b, [], fields (if b then a ++ 47 :: 47 :: f else (c :: a) ++ 47 :: 47 :: f))).
    { cbn [app]. destruct (Z.eq_dec c 47) as [->|N]; [exists true|exists false]; [reflexivity|now apply fromString_rel]. }
    destruct L as (b & L). rewrite L in P.
    assert (Q : exists x, fields (if b then a ++ 47 :: 47 :: f else (c :: a) ++ 47 :: 47 :: f) = x ++ [[]; f]).
    { destruct b; rewrite fields_app; change (fields (47 :: f)) with ([] :: fields f); rewrite (fields_word f Hf); eauto. }
    destruct Q as (x & Q). rewrite Q in P. injection P as _ P. refine (K _ _ _ P); [apply in_or_app; right; now left|]. rewrite app_length. cbn [length]. lia.
Qed.

(** ** Extensions *)
(** the extension of a path: what follows the last dot of the last arc, if there is something before
    and after that dot *)
Definition extension (p : list Z) (b e : list Z) : Prop :=
  exists a f, p = a ++ f /\ no_slash f /\ (a = [] \/ exists a', a = a' ++ [47]) /\ f = b ++ 46 :: e /\ b <> [] /\ e <> [] /\ ~ In 46 e.
Lemma file_unique (a f a' f' : list Z) : a ++ f = a' ++ f' -> no_slash f -> no_slash f' -> (a = [] \/ exists x, a = x ++ [47]) -> (a' = [] \/ exists x, a' = x ++ [47]) -> f = f'.
Proof.
  intros E N N' A A'. assert (S : splitDirFile (a ++ f) = splitDirFile (a' ++ f')) by now rewrite E.
  destruct A as [->|(x & ->)], A' as [->|(x' & ->)]; rewrite <- ?app_assoc in S; cbn [app] in S; rewrite ?(split_word f N), ?(split_word f' N'), ?(split_slash x f N), ?(split_slash x' f' N') in S; congruence.
Qed.
Lemma dot_unique b e b' e' : b ++ 46 :: e = b' ++ 46 :: e' -> ~ In 46 e -> ~ In 46 e' -> b = b' /\ e = e'.
Proof.
  revert b'. induction b as [|c b IH]; intros [|c' b'] E N N'; cbn [app] in E.
  - injection E as ->. now split.
  - injection E as <- ->. destruct N. apply in_or_app. right; now left.
  - injection E as -> <-. destruct N'. apply in_or_app. right; now left.
  - injection E as <- E. destruct (IH b' E N N') as (-> & ->). now split.
Qed.
Theorem C34_splitBaseExt : forall s,
  (exists b e base, extension s b e /\ splitBaseExt s = Ret (base, Some e) /\ (~ doubled s -> s = base ++ 46 :: e)) \/
  ((forall b e, ~ extension s b e) /\ splitBaseExt s = Ret (s, None)).
Proof.
  intros s. destruct (C34_splitDirFile s) as (d & f & E & N & D). unfold splitBaseExt. rewrite E. cbn [bind]. destruct (splitr_dot f) as [fst snd] eqn:Es.
  destruct (splitr_dot_ok f fst snd Es) as (Ef & Ns & Hf).
  assert (A : exists a, s = a ++ f /\ (a = [] \/ exists a', a = a' ++ [47])).
  { destruct D as [(_ & ->)|[(_ & ->)|(_ & ->)]]; [exists []; auto|exists [47]; split; [reflexivity|right; now exists []]|]. exists (d ++ [47]). rewrite <- app_assoc. split; [reflexivity|right; eauto]. }
  destruct A as (a & As & Ha).
  assert (None_ : (snd = [] \/ fst = [] \/ exists x, fst = [x]) -> forall b e, ~ extension s b e).
  { intros H b e (a' & f' & Es' & N' & Ha' & Ef' & Nb & Ne & Nd). rewrite As in Es'. pose proof (file_unique _ _ _ _ Es' N N' Ha Ha') as <-. rewrite Ef in Ef'.
    destruct Hf as [->|(f1 & ->)].
    - cbn [app] in Ef'. destruct Ns. rewrite Ef'. apply in_or_app. right; now left.
    - rewrite <- app_assoc in Ef'. cbn [app] in Ef'. destruct (dot_unique _ _ _ _ Ef' Ns Nd) as (-> & ->). destruct H as [H|[H|(x & H)]]; [congruence|destruct b; discriminate|]. destruct b as [|y [|]]; [congruence|discriminate|discriminate]. }
  destruct snd as [|z snd]; [right; split; [apply None_; now left|reflexivity]|]. destruct fst as [|x fst]; [right; split; [apply None_; right; now left|reflexivity]|].
  destruct fst as [|y fst]; [right; split; [apply None_; right; right; eauto|reflexivity]|]. left.
  destruct Hf as [Hf|(f1 & Hf)]; [discriminate|]. rewrite Hf in *. rewrite removelast_last.
  assert (N1 : no_slash f1) by (intros I; apply N; rewrite Ef, <- app_assoc; apply in_or_app; now left).
  assert (Nf1 : f1 <> []) by (intros ->; discriminate).
  destruct (concat_ret d f1 (no_slash_rel f1 N1)) as (base & Hb). unfold joinDirFile. rewrite Hb. cbn [bind]. exists f1, (z :: snd), base. split; [|split; [reflexivity|]].
  - exists a, f. rewrite Ef, <- app_assoc in *. repeat split; auto; discriminate.
  - intros ND. destruct (concat_ok d f1 (no_slash_rel f1 N1)) as (C1 & C2 & C3).
    destruct D as [(-> & ->)|[(-> & ->)|(Nd & ->)]].
    + rewrite C1 in Hb by reflexivity. injection Hb as <-. now rewrite Ef, <- app_assoc.
    + rewrite (C2 [] eq_refl) in Hb. injection Hb as <-. cbn [app]. now rewrite Ef, <- app_assoc.
    + rewrite C3 in Hb; [|exact Nd|]. { injection Hb as <-. rewrite Ef, <- !app_assoc. reflexivity. }
      intros b ->. apply ND. exists b, f. rewrite <- app_assoc. now split.
Qed.
Example splitBaseExt_ex : splitBaseExt [47; 100; 46; 120; 47; 97; 46; 98; 46; 99] = Ret ([47; 100; 46; 120; 47; 97; 46; 98], Some [99]).
Proof. reflexivity. Qed.
(** joinBaseExt inverts splitBaseExt (Path.sig 199-200), except for paths with an empty arc before the
    last one *)
Theorem C34_join_split_ext : forall s b e, ~ doubled s -> splitBaseExt s = Ret (b, e) -> joinBaseExt b e = s.
Proof.
  intros s b e N E. destruct (C34_splitBaseExt s) as [(b' & e' & base & Ex & E' & H)|(_ & E')]; rewrite E' in E; injection E as <- <-; [|reflexivity].
  rewrite (H N). destruct Ex as (_ & _ & _ & _ & _ & _ & _ & Ne & _). destruct e' as [|x e']; [congruence|reflexivity].
Qed.
Theorem C34_join_split_ext_refuted : exists s b e, splitBaseExt s = Ret (b, e) /\ joinBaseExt b e <> s.
Proof. exists [97; 47; 47; 98; 46; 99], [97; 47; 98], (Some [99]). split; [reflexivity|discriminate]. Qed.

(** ** Absolute and relative paths *)
Theorem C34_mkAbsolute : forall p1 p2,
  (~ absolute p2 -> mkAbsolute p1 p2 = Raise PathExn) /\
  (absolute p2 -> absolute p1 -> mkAbsolute p1 p2 = Ret p1) /\
  (absolute p2 -> ~ absolute p1 -> exists p, mkAbsolute p1 p2 = Ret p /\ absolute p /\ canonical p /\
     forall a b c, leads p2 a b -> leads p1 b c -> leads p a c).
Proof.
  intros p1 p2. unfold mkAbsolute, isRelative. split; [|split].
  - intros H. rewrite <- isAbsolute_spec in H. apply not_true_is_false in H. now rewrite H.
  - intros H2 H1. apply isAbsolute_spec in H1, H2. now rewrite H2, H1.
  - intros H2 H1. apply isAbsolute_spec in H2. rewrite <- isAbsolute_spec in H1. apply not_true_is_false in H1. rewrite H2, H1. cbn [negb].
    destruct (concat_ret p2 p1 H1) as (q & E). rewrite E. cbn [bind]. destruct (mkCanonical_ok q) as (c & -> & C & A & S). exists c. split; [reflexivity|].
    destruct (dest_concat p2 p1 q H1 E) as (Aq & _). split; [apply A, isAbsolute_spec; congruence|]. split; [exact C|]. intros x y z L1 L2. apply S. exact (C34_concat_place p2 p1 q E x y z L1 L2).
Qed.
(** mkRelative between two absolute paths: if it returns, the result is relative and leads from p2 to
    p1; it always returns if p1 is canonical, and the result is canonical *)
Theorem C34_mkRelative : forall p1 p2, absolute p1 -> absolute p2 ->
  (mkRelative p1 p2 = Raise PathExn \/
   exists r, mkRelative p1 p2 = Ret r /\ ~ absolute r /\ forall a b c, leads p2 a b -> leads p1 a c -> leads r b c) /\
  (canonical p1 -> exists r, mkRelative p1 p2 = Ret r /\ canonical r).
Proof.
  intros p1 p2 A1 A2. apply isAbsolute_spec in A1, A2. split; [|intros C; now apply mkRelative_canonical].
  destruct (mkRelative_ok p1 p2 A1 A2) as [H|(r & E & Ar & W)]; [now left|right]. exists r. split; [exact E|]. split; [rewrite <- isAbsolute_spec; congruence|].
  intros a b c L1 L2. apply leads_dest in L1, L2. subst. apply leads_dest. now rewrite W.
Qed.
Theorem C34_mkRelative_other : forall p1 p2,
  (~ absolute p2 -> mkRelative p1 p2 = Raise PathExn) /\ (absolute p2 -> ~ absolute p1 -> mkRelative p1 p2 = Ret p1).
Proof.
  intros p1 p2. unfold mkRelative. destruct (mkCanonical_ok p2) as (c2 & -> & _ & Ab & _). cbn [bind]. destruct (parts_fromString p1) as (a1 & arcs1 & -> & P1). destruct (parts_fromString c2) as (a2 & arcs2 & -> & P2).
  apply isAbsolute_parts in P1, P2. rewrite <- !isAbsolute_spec in *. rewrite P2 in Ab. split; intros H; [|intros H1; rewrite P1 in H1].
  - destruct a2; [destruct (H (proj1 Ab eq_refl))|]. destruct a1; reflexivity.
  - destruct a2; [|destruct (isAbsolute p2); [discriminate (proj2 Ab eq_refl)|discriminate]]. destruct a1; [congruence|reflexivity].
Qed.
(** going there and back *)
Theorem C34_relative_absolute : forall p1 p2 r, absolute p1 -> absolute p2 -> mkRelative p1 p2 = Ret r -> mkAbsolute r p2 = mkCanonical p1.
Proof.
  intros p1 p2 r A1 A2 E. destruct (C34_mkRelative p1 p2 A1 A2) as ([H|(r' & E' & Ar & W)] & _); [congruence|]. rewrite E in E'. injection E' as <-.
  destruct (C34_mkAbsolute r p2) as (_ & _ & M). destruct (M A2 Ar) as (p & -> & Ap & Cp & L). destruct (mkCanonical_ok p1) as (c & -> & C & Ac & S). f_equal. apply canonical_unique; auto.
  apply same_place_trans with p1; [|exact S]. intros a c'. destruct (leads_det p1 a) as (t & T & Tu). destruct (leads_det p2 a) as (b & B & _). destruct (leads_det p a) as (t' & T' & Tu').
  pose proof (L a b t B (W a b t B T)) as Q. split; intros H.
  - rewrite (Tu' _ H), <- (Tu' _ Q). exact T.
  - rewrite (Tu _ H). exact Q.
Qed.
Theorem C34_relative_absolute_canonical : forall p1 p2, canonical p1 -> absolute p1 -> absolute p2 ->
  exists r, mkRelative p1 p2 = Ret r /\ mkAbsolute r p2 = Ret p1.
Proof.
  intros p1 p2 C A1 A2. destruct (C34_mkRelative p1 p2 A1 A2) as (_ & H). destruct (H C) as (r & E & _). exists r. split; [exact E|]. rewrite (C34_relative_absolute p1 p2 r A1 A2 E). now apply mkCanonical_id.
Qed.
Example mkRelative_ex : mkRelative [47; 97; 47; 98] [47; 97; 47; 99; 47; 100] = Ret [46; 46; 47; 46; 46; 47; 98] /\ mkAbsolute [46; 46; 47; 46; 46; 47; 98] [47; 97; 47; 99; 47; 100] = Ret [47; 97; 47; 98].
Proof. split; reflexivity. Qed.
(** Finding: mkRelative raises Path for some absolute paths with the same root: "/a/" relative to "/a" *)
Theorem C34_mkRelative_refuted : exists p1 p2, absolute p1 /\ absolute p2 /\ mkRelative p1 p2 = Raise PathExn.
Proof. exists [47; 97; 47], [47; 97]. split; [now exists [97; 47]|]. split; [now exists [97]|reflexivity]. Qed.

(** ** Parent *)
Lemma getpar_ok abs ini x : getpar abs (ini ++ [x]) =
  if eqs x [] then match ini with [] => if abs then [] else [parentArc] | _ => ini ++ [parentArc] end
  else if eqs x currentArc then ini ++ [parentArc] else if eqs x parentArc then ini ++ [parentArc; parentArc] else ini.
Proof.
  unfold getpar. rewrite rev_app_distr. cbn [rev app]. destruct (eqs x []).
  - destruct ini as [|y ini] using rev_ind; [now destruct abs|]. rewrite rev_app_distr. cbn [rev app]. rewrite rev_involutive. destruct ini; reflexivity.
  - destruct (eqs x currentArc); [cbn [rev]; now rewrite rev_involutive|]. destruct (eqs x parentArc); [cbn [rev]; now rewrite rev_involutive, <- app_assoc|apply rev_involutive].
Qed.
Definition fin (abs : bool) (l : list (list Z)) : outcome (list Z) := match l with [] => if abs then toString (true, [], [[]]) else Ret currentArc | _ => toString (abs, [], l) end.
(** getParent never fails; its result leads to the parent directory of where p leads, is relative
    exactly if p is, and is p itself only for the root *)
Theorem C34_getParent : forall p, exists q, getParent p = Ret q /\ (absolute q <-> absolute p) /\
  (forall a b, leads p a b -> leads q a (tl b)) /\ (q = p <-> p = [47]).
Proof.
  intros p. destruct (parts_fromString p) as (abs & arcs & E & P).
  (* it suffices to find the parts of the result *)
  assert (Suff : forall arcs', parts abs arcs' (match abs with true => [47] | false => [] end ++ join arcs') ->
            (forall st, walk arcs' (if abs then [] else st) = tl (walk arcs (if abs then [] else st))) -> (arcs' = arcs -> abs = true /\ arcs = [[]]) -> (abs = true /\ arcs = [[]] -> arcs' = arcs) ->
            forall q, q = match abs with true => [47] | false => [] end ++ join arcs' ->
            (absolute q <-> absolute p) /\ (forall a b, leads p a b -> leads q a (tl b)) /\ (q = p <-> p = [47])).
  { intros arcs' P' W Ne Eq q ->. split; [rewrite <- !isAbsolute_spec, (isAbsolute_parts _ _ _ P), (isAbsolute_parts _ _ _ P'); reflexivity|]. split.
    - intros a b L. apply (leads_parts _ _ _ _ _ P) in L as ->. apply (leads_parts _ _ _ _ _ P'). symmetry. apply W.
    - split; intros H.
      + rewrite H in P'. destruct (parts_unique _ _ _ _ _ P P') as (_ & Q). destruct (Ne (eq_sym Q)) as (-> & ->). destruct P as (_ & -> & _). reflexivity.
      + subst p. injection E as <- <-. rewrite (Eq (conj eq_refl eq_refl)). reflexivity. }
  assert (Fin : forall l, l <> [] -> parts abs l (match abs with true => [47] | false => [] end ++ join l) ->
            (forall st, walk l (if abs then [] else st) = tl (walk arcs (if abs then [] else st))) -> l <> arcs -> ~ (abs = true /\ arcs = [[]]) ->
            exists q, fin abs l = Ret q /\
              (absolute q <-> absolute p) /\ (forall a b, leads p a b -> leads q a (tl b)) /\ (q = p <-> p = [47])).
  { intros l Nl Pl W Ne Nr. exists (match abs with true => [47] | false => [] end ++ join l). split; [destruct l; [congruence|]; now apply toString_parts|]. apply (Suff l); auto; [congruence|intros H; destruct (Nr H)]. }
  assert (GP : getParent p = fin abs (getpar abs arcs)) by (unfold getParent; rewrite E; unfold fin; destruct (getpar abs arcs); [destruct abs|]; reflexivity).
  rewrite GP. clear GP. destruct arcs as [|x ini _] using rev_ind.
  - (* empty path *)
    destruct abs; [destruct P as (_ & _ & P); congruence|]. apply (Fin [parentArc]); [discriminate| |reflexivity|discriminate|intros (H & _); discriminate].
    split; [constructor; [apply parent_no_slash|constructor]|split; [reflexivity|intros r; discriminate]].
  - rewrite getpar_ok. pose proof P as (NS & _ & First). apply Forall_app in NS as (NI & NX). apply Forall_cons_iff in NX as (NX & _).
    assert (Ext : forall l, l <> [] -> Forall no_slash l -> (forall r, l <> [] :: r) -> parts abs (ini ++ l) (match abs with true => [47] | false => [] end ++ join (ini ++ l))).
    { intros l Nl Fl Hl. split; [now apply Forall_app|]. split; [now destruct abs|]. destruct abs; [destruct ini; [exact Nl|discriminate]|]. destruct ini as [|y ini]; [exact Hl|]. intros r [= -> _]. exact (First _ eq_refl). }
    assert (F1 : Forall no_slash [parentArc]) by (constructor; [apply parent_no_slash|constructor]).
    assert (F2 : Forall no_slash [parentArc; parentArc]) by (constructor; [apply parent_no_slash|exact F1]).
    assert (Up : (x = [] /\ ini <> []) \/ x = currentArc -> exists q, fin abs (ini ++ [parentArc]) = Ret q /\
              (absolute q <-> absolute p) /\ (forall a b, leads p a b -> leads q a (tl b)) /\ (q = p <-> p = [47])).
    { intros Hx. apply Fin.
      - destruct ini; discriminate.
      - apply Ext; auto; discriminate.
      - intros st. rewrite !walk_app. destruct Hx as [(-> & _)| ->]; reflexivity.
      - intros Q. apply app_inv_head in Q. injection Q as <-. destruct Hx as [(Hx & _)|Hx]; discriminate.
      - intros (_ & Q). destruct Hx as [(Hx & Hi)|Hx]; [destruct ini as [|y [|]]; [congruence|discriminate|discriminate]|]. subst x. destruct ini as [|y [|]]; discriminate. }
    destruct (eqs_dec x []) as [(Ex & Eq)|(N1 & Eq)]; rewrite Eq; clear Eq.
    + destruct ini as [|y ini].
      * subst x. destruct abs; [|destruct (First [] eq_refl)]. exists [47]. split; [reflexivity|]. apply (Suff [[]]); auto; try reflexivity. split; [constructor; [intros []|constructor]|split; [reflexivity|discriminate]].
      * apply Up. left. split; [exact Ex|discriminate].
    + destruct (eqs_dec x currentArc) as [(Ex & Eq)|(N2 & Eq)]; rewrite Eq; clear Eq; [apply Up; now right|].
      destruct (eqs_dec x parentArc) as [(Ex & Eq)|(N3 & Eq)]; rewrite Eq; clear Eq.
      * apply Fin.
        -- destruct ini; discriminate.
        -- apply Ext; auto; discriminate.
        -- intros st. rewrite !walk_app, Ex. reflexivity.
        -- intros Q. apply app_inv_head in Q. discriminate.
        -- intros (_ & Q). rewrite Ex in Q. destruct ini as [|y [|]]; discriminate.
      * assert (Px : proper x) by (repeat split; assumption).
        assert (W : forall st, walk ini (if abs then [] else st) = tl (walk (ini ++ [x]) (if abs then [] else st))) by (intros st; rewrite walk_app; cbn [walk fold_left]; now rewrite step_proper).
        assert (Nr : ~ (abs = true /\ ini ++ [x] = [[]])) by (intros (_ & Q); destruct ini as [|y [|]]; [injection Q as Q; congruence|discriminate|discriminate]).
        destruct ini as [|y ini].
        -- destruct abs.
           ++ exists [47]. split; [reflexivity|]. apply (Suff [[]]); auto; try (now destruct Nr).
              ** split; [constructor; [intros []|constructor]|split; [reflexivity|discriminate]].
              ** intros Q. first [destruct (Nr Q)|exfalso; cbn [app] in Q; injection Q as Q; congruence].
           ++ exists [46]. split; [reflexivity|]. apply (Suff [currentArc]); auto.
              ** split; [constructor; [intros H; cbn in H; lia|constructor]|split; [reflexivity|intros r; discriminate]].
              ** intros Q. first [destruct (Nr Q)|exfalso; cbn [app] in Q; injection Q as Q; congruence].
              ** intros Q. destruct (Nr Q).
        -- apply (Fin (y :: ini)); auto; [discriminate| |].
           ++ split; [exact NI|]. split; [now destruct abs|]. destruct abs; [discriminate|]. intros r [= -> _]. exact (First _ eq_refl).
           ++ intros Q. apply (f_equal (@length _)) in Q. rewrite app_length in Q. cbn [length] in Q. lia.
Qed.
Example getParent_ex : getParent [97; 47; 46; 46] = Ret [97; 47; 46; 46; 47; 46; 46] /\ getParent [97] = Ret [46].
Proof. split; reflexivity. Qed.

(** ** Unix paths *)
(** Finding (C35): the test for invalid arcs is inverted (Path.mlp 432-434): an arc produced by
    splitting at slashes never contains one, so that every non-empty path is refused. *)
Theorem C35_always_refused : forall p, p <> [] -> fromUnixPath p = Raise InvalidArc /\ toUnixPath p = Raise InvalidArc.
Proof.
  intros p N. unfold fromUnixPath, toUnixPath, fromUnixString, toUnixString. destruct (parts_fromString p) as (abs & arcs & E & P). rewrite E.
  assert (K : app_ (invalidArc (existsb isslash)) arcs = Raise InvalidArc).
  { destruct P as (NS & E' & _). destruct arcs as [|a arcs]; [destruct abs; [destruct (fields_cons (tl p)) as (f & fs & Q); subst p; cbn in E; discriminate|destruct (N E')]|].
    apply Forall_cons_iff in NS as (Na & _). cbn [app_]. unfold invalidArc. destruct (existsb isslash a) eqn:Ea; [|reflexivity]. apply existsb_exists in Ea as (c & I & Ec). apply isslash_spec in Ec as ->. destruct (Na I). }
  rewrite K. split; reflexivity.
Qed.
Theorem C35_refuted : exists p, parts true [[97]; [98]] p /\ fromUnixPath p = Raise InvalidArc /\ toUnixPath p = Raise InvalidArc.
Proof.
  exists [47; 97; 47; 98]. split; [|apply C35_always_refused; discriminate]. split; [|split; [reflexivity|discriminate]].
  constructor; [intros H; cbn in H; lia|constructor; [intros H; cbn in H; lia|constructor]].
Qed.
Theorem C35_empty : fromUnixPath [] = Ret [] /\ toUnixPath [] = Ret [].
Proof. split; reflexivity. Qed.

Print Assumptions C34_fromString.
Print Assumptions C34_toString_fromString.
Print Assumptions C34_fromString_toString.
Print Assumptions C34_fromString_toString_refuted.
Print Assumptions C34_isAbsolute.
Print Assumptions C34_mkCanonical.
Print Assumptions C34_mkCanonical_idempotent.
Print Assumptions C34_mkCanonical_complete.
Print Assumptions C34_isCanonical.
Print Assumptions C34_splitDirFile.
Print Assumptions C34_concat.
Print Assumptions C34_concat_place.
Print Assumptions C34_join_split.
Print Assumptions C34_join_split_doubled.
Print Assumptions C34_join_split_refuted.
Print Assumptions C34_split_join.
Print Assumptions C34_join_split_canonical.
Print Assumptions C34_splitBaseExt.
Print Assumptions C34_join_split_ext.
Print Assumptions C34_join_split_ext_refuted.
Print Assumptions C34_mkAbsolute.
Print Assumptions C34_mkRelative.
Print Assumptions C34_mkRelative_other.
Print Assumptions C34_relative_absolute.
Print Assumptions C34_relative_absolute_canonical.
Print Assumptions C34_mkRelative_refuted.
Print Assumptions C34_getParent.
Print Assumptions C34_fields_are_fields.
Print Assumptions C34_splitr_is_splitr.
Print Assumptions C35_always_refused.
Print Assumptions C35_refuted.
Print Assumptions C35_empty.
Print Assumptions C34_toString_relative_empty.
