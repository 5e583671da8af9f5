(** C55: searches, folds and pairs of lists. *)
From Verif Require Import Base List_Model List_Props.

(** ** find, exists, all: calls in order up to the element that decides *)
Theorem C55_search : forall S A (p : A -> M S bool) xs s,
  (forall s', never p false xs s s' -> find p xs s = Val None s' /\ exists_ p xs s = Val false s') /\
  (forall x v s', first p false xs x v s s' -> find p xs s = Val (Some x) s' /\ exists_ p xs s = Val true s') /\
  (forall e s', first_fails p false xs e s s' -> find p xs s = Exn e s' /\ exists_ p xs s = Exn e s').
Proof.
  intros S A p xs. induction xs as [|x xs IH]; intros s; (split; [intros s' C|split; [intros z v s' C|intros e s' C]]).
  - inversion C; subst. split; reflexivity.
  - now apply first_nil in C.
  - now apply ff_nil in C.
  - inversion C as [|? ? y ys' ? s1 ? F C1]; subst. cbn [find exists_]. unfold seq. rewrite F. apply (IH s1). exact C1.
  - cbn [find exists_]. unfold seq. apply first_cons in C as [(<- & F & N)|(s1 & F & C)]; rewrite F.
    + destruct v; [split; reflexivity|congruence].
    + destruct (IH s1) as (_ & I & _). exact (I _ _ _ C).
  - cbn [find exists_]. unfold seq. apply ff_cons in C as [F|(s1 & F & C)]; rewrite F; [split; reflexivity|]. destruct (IH s1) as (_ & _ & I). exact (I _ _ C).
Qed.
Theorem C55_all : forall S A (p : A -> M S bool) xs s,
  (forall s', never p true xs s s' -> all p xs s = Val true s') /\
  (forall x v s', first p true xs x v s s' -> all p xs s = Val false s') /\
  (forall e s', first_fails p true xs e s s' -> all p xs s = Exn e s').
Proof.
  intros S A p xs. induction xs as [|x xs IH]; intros s; (split; [intros s' C|split; [intros z v s' C|intros e s' C]]).
  - inversion C; subst. reflexivity.
  - now apply first_nil in C.
  - now apply ff_nil in C.
  - inversion C as [|? ? y ys' ? s1 ? F C1]; subst. cbn [all]. unfold seq. rewrite F. apply (IH s1). exact C1.
  - cbn [all]. unfold seq. apply first_cons in C as [(<- & F & N)|(s1 & F & C)]; rewrite F.
    + destruct v; [congruence|reflexivity].
    + destruct (IH s1) as (_ & I & _). exact (I _ _ _ C).
  - cbn [all]. unfold seq. apply ff_cons in C as [F|(s1 & F & C)]; rewrite F; [reflexivity|]. destruct (IH s1) as (_ & _ & I). exact (I _ _ C).
Qed.

(** ** Folds *)
Lemma fold_exn {S A B} (f : A * B -> M S B) xs e s : fold_left (fold_step f) xs (Exn e s) = Exn e s.
Proof. induction xs as [|x xs IH]; [reflexivity|exact IH]. Qed.
(** foldl works from the first element to the last, foldr from the last to the first; both stop at an exception *)
Theorem C55_folds : forall S A B (f : A * B -> M S B) b xs s,
  foldl f b xs s = fold_left (fold_step f) xs (Val b s) /\ foldr f b xs s = fold_left (fold_step f) (List.rev xs) (Val b s).
Proof.
  intros S A B f b xs s. split.
  - revert b s. induction xs as [|x xs IH]; intros b s; [reflexivity|]. cbn [foldl fold_left fold_step]. unfold seq. destruct (f (x, b) s) as [b' s'|e s']; [apply IH|now rewrite fold_exn].
  - revert s. induction xs as [|x xs IH]; intros s; [reflexivity|]. cbn [foldr List.rev]. rewrite fold_left_app. unfold seq. rewrite IH. cbn [fold_left].
    destruct (fold_left _ _ _); reflexivity.
Qed.

(** ** collate *)
Theorem C55_collate : forall S A C (cmp : A * C -> M S comparison) xs ys s,
  (forall s', never cmp Eq (combine xs ys) s s' -> collate cmp xs ys s = Val (Nat.compare (Datatypes.length xs) (Datatypes.length ys)) s') /\
  (forall x v s', first cmp Eq (combine xs ys) x v s s' -> collate cmp xs ys s = Val v s') /\
  (forall e s', first_fails cmp Eq (combine xs ys) e s s' -> collate cmp xs ys s = Exn e s').
Proof.
  intros S A C cmp xs. induction xs as [|x xs IH]; intros [|y ys] s; cbn [combine]; (split; [intros s' H|split; [intros z v s' H|intros e s' H]]);
    try (now apply first_nil in H); try (now apply ff_nil in H); try (inversion H; subst; reflexivity).
  - inversion H as [|? ? ? ? ? s1 ? F C1]; subst. cbn [collate Datatypes.length Nat.compare]. unfold seq. rewrite F. apply (IH ys s1). exact C1.
  - cbn [collate]. unfold seq. apply first_cons in H as [(<- & F & N)|(s1 & F & H)]; rewrite F.
    + destruct v; [congruence|reflexivity|reflexivity].
    + destruct (IH ys s1) as (_ & I & _). exact (I _ _ _ H).
  - cbn [collate]. unfold seq. apply ff_cons in H as [F|(s1 & F & H)]; rewrite F; [reflexivity|]. destruct (IH ys s1) as (_ & _ & I). exact (I _ _ H).
Qed.

(** ** ListPair: the operations of List on the list of pairs, which is as long as the shorter list *)
Lemma zip_h_ok {A C} (xs : list A) (ys : list C) r : zip_h xs ys r = List.rev r ++ combine xs ys.
Proof.
  revert ys r. induction xs as [|x xs IH]; intros [|y ys] r; cbn [zip_h combine]; rewrite ?rev_rev, ?app_nil_r; try reflexivity.
  rewrite IH. cbn [List.rev]. now rewrite <- app_assoc.
Qed.
Lemma zipEq_h_ok {A C} (xs : list A) (ys : list C) r : zipEq_h xs ys r = if Nat.eqb (Datatypes.length xs) (Datatypes.length ys) then Ret (List.rev r ++ combine xs ys) else Raise UnequalLengths.
Proof.
  revert ys r. induction xs as [|x xs IH]; intros [|y ys] r; cbn [zipEq_h combine Datatypes.length Nat.eqb]; rewrite ?rev_rev, ?app_nil_r; try reflexivity.
  rewrite IH. cbn [List.rev]. now rewrite <- app_assoc.
Qed.
Lemma unzip_h_ok {A C} (l : list (A * C)) xs ys : unzip_h l xs ys = (List.rev xs ++ List.map fst l, List.rev ys ++ List.map snd l).
Proof.
  revert xs ys. induction l as [|[x y] l IH]; intros xs ys; cbn [unzip_h List.map]; [now rewrite !rev_rev, !app_nil_r|].
  rewrite IH. cbn [List.rev fst snd]. now rewrite <- !app_assoc.
Qed.
Theorem C55_zip : forall A C (xs : list A) (ys : list C) (xys : list (A * C)),
  zip xs ys = combine xs ys /\ zipEq xs ys = (if Nat.eqb (Datatypes.length xs) (Datatypes.length ys) then Ret (combine xs ys) else Raise UnequalLengths) /\
  unzip xys = (List.map fst xys, List.map snd xys).
Proof. intros A C xs ys xys. unfold zip, zipEq, unzip. rewrite zip_h_ok, zipEq_h_ok, unzip_h_ok. repeat split. Qed.

Lemma map2_h_ok {S A C B} (f : A * C -> M S B) xs ys r s :
  map2_h f xs ys r s = match map f (combine xs ys) s with Val l s' => Val (List.rev r ++ l) s' | Exn e s' => Exn e s' end.
Proof.
  revert ys r s. induction xs as [|x xs IH]; intros [|y ys] r s; cbn [map2_h combine map]; unfold val; rewrite ?rev_rev, ?app_nil_r; try reflexivity.
  unfold seq. destruct (f (x, y) s) as [b s1|e s1]; [|reflexivity]. rewrite IH. destruct (map f (combine xs ys) s1); [|reflexivity]. cbn [List.rev]. now rewrite <- app_assoc.
Qed.
Theorem C55_pairs : forall S A C B (xs : list A) (ys : list C) (s : S),
  (forall f : A * C -> M S B, map2 f xs ys s = map f (combine xs ys) s) /\
  (forall f : A * C -> M S unit, app2 f xs ys s = app f (combine xs ys) s) /\
  (forall p : A * C -> M S bool, all2 p xs ys s = all p (combine xs ys) s) /\
  (forall p : A * C -> M S bool, some2 p xs ys s = exists_ p (combine xs ys) s) /\
  (forall (f : A * C * B -> M S B) b, foldl2 f b xs ys s = foldl f b (combine xs ys) s) /\
  (forall (f : A * C * B -> M S B) b, foldr2 f b xs ys s = foldr f b (combine xs ys) s).
Proof.
  intros S A C B xs ys s. repeat split.
  - intros f. unfold map2. rewrite map2_h_ok. destruct (map f (combine xs ys) s); reflexivity.
  - intros f. revert ys s. induction xs as [|x xs IH]; intros [|y ys] s; try reflexivity. cbn [app2 combine app]. unfold seq. destruct (f (x, y) s); [apply IH|reflexivity].
  - intros p. revert ys s. induction xs as [|x xs IH]; intros [|y ys] s; try reflexivity. cbn [all2 combine all]. unfold seq. destruct (p (x, y) s) as [[|] ?|]; [apply IH|reflexivity|reflexivity].
  - intros p. revert ys s. induction xs as [|x xs IH]; intros [|y ys] s; try reflexivity. cbn [some2 combine exists_]. unfold seq. destruct (p (x, y) s) as [[|] ?|]; [reflexivity|apply IH|reflexivity].
  - intros f b. revert b ys s. induction xs as [|x xs IH]; intros b [|y ys] s; try reflexivity. cbn [foldl2 combine foldl]. unfold seq. destruct (f (x, y, b) s); [apply IH|reflexivity].
  - intros f b. revert ys s. induction xs as [|x xs IH]; intros [|y ys] s; try reflexivity. cbn [foldr2 combine foldr]. unfold seq. now rewrite IH.
Qed.
(** The versions that insist on equal lengths are the same on lists of equal length; on others
    mapEq, appEq and foldlEq raise UnequalLengths after the calls for the common part, foldrEq before any call, and allEq gives false. *)
Definition unequal {S A} (r : res S A) : res S A := match r with Val _ s => Exn UnequalLengths s | Exn e s => Exn e s end.
Lemma mapEq_h_ok {S A C B} (f : A * C -> M S B) xs ys r s :
  mapEq_h f xs ys r s = if Nat.eqb (Datatypes.length xs) (Datatypes.length ys) then map2_h f xs ys r s else unequal (map2_h f xs ys r s).
Proof.
  revert ys r s. induction xs as [|x xs IH]; intros [|y ys] r s; try reflexivity.
  cbn [mapEq_h map2_h Datatypes.length Nat.eqb]. unfold seq. destruct (f (x, y) s); [apply IH|]. destruct (Nat.eqb _ _); reflexivity.
Qed.
Theorem C55_pairs_eq : forall S A C B (xs : list A) (ys : list C) (s : S),
  let same := Nat.eqb (Datatypes.length xs) (Datatypes.length ys) in
  (forall f : A * C -> M S B, mapEq f xs ys s = if same then map f (combine xs ys) s else unequal (map f (combine xs ys) s)) /\
  (forall f : A * C -> M S unit, appEq f xs ys s = if same then app f (combine xs ys) s else unequal (app f (combine xs ys) s)) /\
  (forall (f : A * C * B -> M S B) b, foldlEq f b xs ys s = if same then foldl f b (combine xs ys) s else unequal (foldl f b (combine xs ys) s)) /\
  (forall (f : A * C * B -> M S B) b, foldrEq f b xs ys s = if same then foldr f b (combine xs ys) s else Exn UnequalLengths s) /\
  (forall p : A * C -> M S bool, allEq p xs ys s =
     match all p (combine xs ys) s with Val b s' => Val (b && same) s' | Exn e s' => Exn e s' end).
Proof.
  intros S A C B xs ys s. cbn zeta. repeat split.
  - intros f. unfold mapEq. rewrite mapEq_h_ok. destruct (C55_pairs S A C B xs ys s) as (P & _). change (map2_h f xs ys [] s) with (map2 f xs ys s). now rewrite P.
  - intros f. revert ys s. induction xs as [|x xs IH]; intros [|y ys] s; try reflexivity. cbn [appEq combine app Datatypes.length Nat.eqb]. unfold seq. destruct (f (x, y) s); [apply IH|]. destruct (Nat.eqb _ _); reflexivity.
  - intros f b. revert b ys s. induction xs as [|x xs IH]; intros b [|y ys] s; try reflexivity. cbn [foldlEq combine foldl Datatypes.length Nat.eqb]. unfold seq. destruct (f (x, y, b) s); [apply IH|]. destruct (Nat.eqb _ _); reflexivity.
  - intros f b. revert ys s. induction xs as [|x xs IH]; intros [|y ys] s; try reflexivity. cbn [foldrEq combine foldr Datatypes.length Nat.eqb]. unfold seq. rewrite IH. destruct (Nat.eqb _ _); reflexivity.
  - intros p. revert ys s. induction xs as [|x xs IH]; intros [|y ys] s; try reflexivity. cbn [allEq combine all Datatypes.length Nat.eqb]. unfold seq. destruct (p (x, y) s) as [[|] s1|e s1]; [apply IH|reflexivity|reflexivity].
Qed.

(** ** Examples: a function that counts its calls, and raises an exception on 0 *)
Definition inv (x : Z) : M (list Z) Z := fun s => if x =? 0 then Exn Div (s ++ [x]) else Val (100 / x) (s ++ [x]).
Definition small (x : Z) : M (list Z) bool := fun s => if x =? 0 then Exn Div (s ++ [x]) else Val (x <? 10) (s ++ [x]).
Definition cmp (p : Z * Z) : M (list Z) comparison := fun s => Val (Z.compare (fst p) (snd p)) (s ++ [fst p]).
Example C55_map_ex : calls inv [5; 20] [20; 5] [] [5; 20] /\ map inv [5; 20] [] = Val [20; 5] [5; 20] /\
  fails inv [5; 0; 20] Div [] [5; 0] /\ map inv [5; 0; 20] [] = Exn Div [5; 0].
Proof.
  split; [repeat (econstructor; [reflexivity|]); constructor|]. split; [reflexivity|]. split; [|reflexivity].
  exists [5], 0, [20], [20], [5]. split; [reflexivity|]. split; [econstructor; [reflexivity|constructor]|reflexivity].
Qed.
Example C55_app_ex : let f x : M (list Z) unit := fun s => Val tt (s ++ [x]) in calls f [1; 2] [tt; tt] [] [1; 2] /\ app f [1; 2] [] = Val tt [1; 2].
Proof. cbn zeta. split; [repeat (econstructor; [reflexivity|]); constructor|reflexivity]. Qed.
Example C55_mapPartial_ex : let f x : M (list Z) (option Z) := fun s => Val (if x <? 10 then Some (x + 1) else None) (s ++ [x]) in
  calls f [1; 20; 2] [Some 2; None; Some 3] [] [1; 20; 2] /\ mapPartial f [1; 20; 2] [] = Val [2; 3] [1; 20; 2].
Proof. cbn zeta. split; [repeat (econstructor; [reflexivity|]); constructor|reflexivity]. Qed.
Example C55_filter_ex : calls small [1; 20; 2] [true; false; true] [] [1; 20; 2] /\ partition small [1; 20; 2] [] = Val ([1; 2], [20]) [1; 20; 2].
Proof. split; [repeat (econstructor; [reflexivity|]); constructor|reflexivity]. Qed.
Example C55_tabulate_ex : calls (fun i => inv (i + 1)) (List.map Z.of_nat (List.seq 0 (Z.to_nat 3))) [100; 50; 33] [] [1; 2; 3] /\ tabulate 3 (fun i => inv (i + 1)) [] = Val [100; 50; 33] [1; 2; 3] /\
  tabulate (-1) inv [] = Exn Size [].
Proof. split; [repeat (econstructor; [reflexivity|]); constructor|split; reflexivity]. Qed.
Example C55_search_ex : first small false [20; 3; 0] 3 true [] [20; 3] /\ find small [20; 3; 0] [] = Val (Some 3) [20; 3] /\
  first_fails small true [5; 0] Div [] [5; 0] /\ all small [5; 0] [] = Exn Div [5; 0] /\ never small true [5; 6] [] [5; 6].
Proof.
  split; [|split; [reflexivity|split; [|split; [reflexivity|]]]].
  - exists [20], [0], [20]. split; [reflexivity|]. split; [econstructor; [reflexivity|constructor]|]. split; [reflexivity|discriminate].
  - exists [5], 0, [], [5]. split; [reflexivity|]. split; [econstructor; [reflexivity|constructor]|reflexivity].
  - repeat (econstructor; [reflexivity|]); constructor.
Qed.
Example C55_folds_ex : let f (p : Z * Z) : M (list Z) Z := fun s => Val (fst p - snd p) (s ++ [fst p]) in
  foldr f 0 [1; 2; 3] [] = Val 2 [3; 2; 1] /\ foldl f 0 [1; 2; 3] [] = Val 2 [1; 2; 3] /\ foldrEq (fun '(x, y, r) => f (x + y, r)) 0 [1; 2] [1] [] = Exn UnequalLengths [].
Proof. repeat split. Qed.
Example C55_collate_ex : never cmp Eq (combine [1; 2] [1; 2; 3]) [] [1; 2] /\ collate cmp [1; 2] [1; 2; 3] [] = Val Lt [1; 2] /\
  first cmp Eq (combine [1; 5; 1] [1; 4]) (5, 4) Gt [] [1; 5].
Proof.
  split; [repeat (econstructor; [reflexivity|]); constructor|]. split; [reflexivity|].
  exists [(1, 1)], [], [1]. split; [reflexivity|]. split; [econstructor; [reflexivity|constructor]|]. split; [reflexivity|discriminate].
Qed.
Example C55_access_ex : take [1; 2; 3] 2 = Ret [1; 2] /\ drop [1; 2; 3] 3 = Ret [] /\ nth [1; 2; 3] 3 = Raise Subscript /\ take [1] (-1) = Raise Subscript.
Proof. repeat split. Qed.
Example C55_pairs_ex : mapEq (fun p => inv (fst p + snd p)) [1; 2] [3] [] = Exn UnequalLengths [4] /\ zip [1; 2] [3] = [(1, 3)].
Proof. split; reflexivity. Qed.

Print Assumptions C55_total.
Print Assumptions C55_search_total.
Print Assumptions C55_lists.
Print Assumptions C55_access.
Print Assumptions C55_ends.
Print Assumptions C55_map.
Print Assumptions C55_app.
Print Assumptions C55_mapPartial.
Print Assumptions C55_filter.
Print Assumptions C55_tabulate.
Print Assumptions C55_search.
Print Assumptions C55_all.
Print Assumptions C55_folds.
Print Assumptions C55_collate.
Print Assumptions C55_zip.
Print Assumptions C55_pairs.
Print Assumptions C55_pairs_eq.
