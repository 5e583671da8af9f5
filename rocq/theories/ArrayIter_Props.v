(** C58: the iterators of Array go through the indexes in order and use each element as it is when its
    turn comes, whatever the function given does to the array; find returns the element as it is after
    the call that chose it. *)
From Verif Require Import Base ArrayLib List_Model List_Props ListPair_Props Vector_Model Vector_Props ArrayIter_Model.

(** ** Specification *)
Section Spec.
Context {S A B : Type}.
Notation St := (list A * S)%type.
(** Array.sub and Array.update on the array, as the user has them *)
Definition sub_now (j : Z) : M St A := fun s => if j <? 0 then Exn Subscript s else match nth_error (fst s) (Z.to_nat j) with Some x => Val x s | None => Exn Subscript s end.
Definition update_now (j : Z) (v : A) : M St unit := fun s =>
  if (j <? 0) || (Z.of_nat (Datatypes.length (fst s)) <=? j) then Exn Subscript s else Val tt (firstn (Z.to_nat j) (fst s) ++ v :: skipn (Datatypes.S (Z.to_nat j)) (fst s), snd s).
Definition after {C} (r : res St C) : list A := match r with Val _ s | Exn _ s => fst s end.
(** an array has the same number of elements after a call *)
Definition keeps {C} (m : M St C) : Prop := forall s, Datatypes.length (after (m s)) = Datatypes.length (fst s).
(** the call does not change the array *)
Definition quiet {C} (m : M St C) : Prop := forall s, after (m s) = fst s.
End Spec.
(** [j; j+1; ...], k of them *)
Fixpoint upto (j : Z) (k : nat) : list Z := match k with O => [] | Datatypes.S k => j :: upto (j + 1) k end.
Definition indexes {A S} (s : list A * S) : list Z := upto 0 (Datatypes.length (fst s)).

(** ** Proofs *)
Lemma upto_snoc k : forall j, upto j (Datatypes.S k) = upto j k ++ [j + Z.of_nat k].
Proof.
  induction k as [|k IH]; intros j; [cbn [upto List.app Z.of_nat]; now rewrite Z.add_0_r|].
  replace (j + Z.of_nat (Datatypes.S k)) with (j + 1 + Z.of_nat k) by lia. change (j :: upto (j + 1) (Datatypes.S k) = (j :: upto (j + 1) k) ++ [j + 1 + Z.of_nat k]). now rewrite IH.
Qed.
Section P.
Context {S A B : Type}.
Notation St := (list A * S)%type.
Lemma rd_ok (s : St) j : 0 <= j < zlen (fst s) -> exists x, rd j s = Ret (Val x s) /\ sub_now j s = Val x s.
Proof.
  intros H. unfold rd, sub_now, sub_raw, zget. destruct (Z.ltb_spec j 0); [lia|]. destruct (nth_error (fst s) (Z.to_nat j)) as [x|] eqn:E; [now exists x|].
  apply nth_error_None in E. unfold zlen in H. lia.
Qed.
Lemma upd_split (l : list A) : forall i v, (i < Datatypes.length l)%nat -> upd l i v = firstn i l ++ v :: skipn (Datatypes.S i) l.
Proof. induction l as [|x l IH]; intros [|i] v H; cbn [Datatypes.length] in H; try lia; [reflexivity|]. cbn [upd firstn List.app]. rewrite IH by lia. reflexivity. Qed.
Lemma wr_ok (s : St) j v : 0 <= j < zlen (fst s) -> wr j v s = Ret (update_now j v s) /\ exists s', update_now j v s = Val tt s' /\ zlen (fst s') = zlen (fst s).
Proof.
  intros H. unfold wr, update_now, update_raw, zset. unfold zlen in *. destruct (Z.ltb_spec j 0); [lia|]. destruct (Z.leb_spec (Z.of_nat (Datatypes.length (fst s))) j); [lia|]. cbn [orb bind].
  rewrite upd_split by lia. split; [reflexivity|]. eexists. split; [reflexivity|]. cbn [fst]. rewrite app_length, firstn_length. cbn [Datatypes.length]. rewrite skipn_length. lia.
Qed.
Lemma keeps_val {C} (m : M St C) s c s' : keeps m -> m s = Val c s' -> zlen (fst s') = zlen (fst s).
Proof. intros K E. specialize (K s). rewrite E in K. unfold zlen. cbn [after] in K. now rewrite K. Qed.

Ltac step s j x Er Es := destruct (rd_ok s j ltac:(lia)) as (x & Er & Es); unfold vseq, call; rewrite Er; cbn [bind]; unfold seq; rewrite Es.
Lemma a_find_ok (p : Z -> A -> M St bool) : (forall j x, keeps (p j x)) -> forall k fuel j s, (k < fuel)%nat -> 0 <= j -> j + Z.of_nat k = zlen (fst s) ->
  a_find_lr fuel p (zlen (fst s)) j s =
  Ret ((run r <- find (fun j => run x <- sub_now j; p j x) (upto j k); match r with Some j => run y <- sub_now j; val (Some (j, y)) | None => val None end) s).
Proof.
  intros K. induction k as [|k IH]; intros [|fuel] j s F J E; try lia; cbn [a_find_lr upto].
  - destruct (Z.ltb_spec j (zlen (fst s))); [lia|]. reflexivity.
  - destruct (Z.ltb_spec j (zlen (fst s))); [|lia]. cbn [find]. step s j x Er Es.
    destruct (p j x s) as [[|] s1|e s1] eqn:P; [| |reflexivity]; pose proof (keeps_val _ _ _ _ (K j x) P) as L.
    + destruct (rd_ok s1 j ltac:(lia)) as (y & Er1 & Es1). rewrite Er1. cbn [bind]. unfold val. rewrite Es1. reflexivity.
    + rewrite <- L. rewrite IH by lia. reflexivity.
Qed.
Lemma a_exists_ok (p : A -> M St bool) : (forall x, keeps (p x)) -> forall k fuel j s, (k < fuel)%nat -> 0 <= j -> j + Z.of_nat k = zlen (fst s) ->
  a_exists_lr fuel p (zlen (fst s)) j s = Ret (exists_ (fun j => run x <- sub_now j; p x) (upto j k) s).
Proof.
  intros K. induction k as [|k IH]; intros [|fuel] j s F J E; try lia; cbn [a_exists_lr upto].
  - destruct (Z.ltb_spec j (zlen (fst s))); [lia|]. reflexivity.
  - destruct (Z.ltb_spec j (zlen (fst s))); [|lia]. cbn [exists_]. step s j x Er Es.
    destruct (p x s) as [[|] s1|e s1] eqn:P; [reflexivity| |reflexivity]. pose proof (keeps_val _ _ _ _ (K x) P) as L. rewrite <- L. rewrite IH by lia. reflexivity.
Qed.
Lemma a_all_ok (p : A -> M St bool) : (forall x, keeps (p x)) -> forall k fuel j s, (k < fuel)%nat -> 0 <= j -> j + Z.of_nat k = zlen (fst s) ->
  a_all_lr fuel p (zlen (fst s)) j s = Ret (all (fun j => run x <- sub_now j; p x) (upto j k) s).
Proof.
  intros K. induction k as [|k IH]; intros [|fuel] j s F J E; try lia; cbn [a_all_lr upto]; rewrite Z.geb_leb.
  - destruct (Z.leb_spec (zlen (fst s)) j); [|lia]. reflexivity.
  - destruct (Z.leb_spec (zlen (fst s)) j); [lia|]. cbn [all]. step s j x Er Es.
    destruct (p x s) as [[|] s1|e s1] eqn:P; [|reflexivity|reflexivity]. pose proof (keeps_val _ _ _ _ (K x) P) as L. rewrite <- L. rewrite IH by lia. reflexivity.
Qed.
Lemma a_app_ok (f : Z -> A -> M St unit) : (forall j x, keeps (f j x)) -> forall k fuel j s, (k < fuel)%nat -> 0 <= j -> j + Z.of_nat k = zlen (fst s) ->
  a_app_lr fuel f (zlen (fst s)) j s = Ret (app (fun j => run x <- sub_now j; f j x) (upto j k) s).
Proof.
  intros K. induction k as [|k IH]; intros [|fuel] j s F J E; try lia; cbn [a_app_lr upto].
  - destruct (Z.ltb_spec j (zlen (fst s))); [lia|]. reflexivity.
  - destruct (Z.ltb_spec j (zlen (fst s))); [|lia]. cbn [app]. step s j x Er Es.
    destruct (f j x s) as [u s1|e s1] eqn:P; [|reflexivity]. pose proof (keeps_val _ _ _ _ (K j x) P) as L. rewrite <- L. rewrite IH by lia. reflexivity.
Qed.
Lemma a_modify_ok (f : Z -> A -> M St A) : (forall j x, keeps (f j x)) -> forall k fuel j s, (k < fuel)%nat -> 0 <= j -> j + Z.of_nat k = zlen (fst s) ->
  a_modify_lr fuel f (zlen (fst s)) j s = Ret (app (fun j => run x <- sub_now j; run y <- f j x; update_now j y) (upto j k) s).
Proof.
  intros K. induction k as [|k IH]; intros [|fuel] j s F J E; try lia; cbn [a_modify_lr upto].
  - destruct (Z.ltb_spec j (zlen (fst s))); [lia|]. reflexivity.
  - destruct (Z.ltb_spec j (zlen (fst s))); [|lia]. cbn [app]. step s j x Er Es.
    destruct (f j x s) as [y s1|e s1] eqn:P; [|reflexivity]. pose proof (keeps_val _ _ _ _ (K j x) P) as L.
    destruct (wr_ok s1 j y ltac:(lia)) as (Ew & s2 & Eu & L2). rewrite Ew, Eu. cbn [bind]. rewrite <- L, <- L2. rewrite IH by lia. reflexivity.
Qed.
Lemma a_foldl_ok (f : Z -> A -> B -> M St B) : (forall j x r, keeps (f j x r)) -> forall k fuel j r s, (k < fuel)%nat -> 0 <= j -> j + Z.of_nat k = zlen (fst s) ->
  a_foldl_lr fuel f (zlen (fst s)) j r s = Ret (foldl (fun '(j, r) => run x <- sub_now j; f j x r) r (upto j k) s).
Proof.
  intros K. induction k as [|k IH]; intros [|fuel] j r s F J E; try lia; cbn [a_foldl_lr upto].
  - destruct (Z.ltb_spec j (zlen (fst s))); [lia|]. reflexivity.
  - destruct (Z.ltb_spec j (zlen (fst s))); [|lia]. cbn [foldl]. step s j x Er Es.
    destruct (f j x r s) as [r1 s1|e s1] eqn:P; [|reflexivity]. pose proof (keeps_val _ _ _ _ (K j x r) P) as L. rewrite <- L. rewrite IH by lia. reflexivity.
Qed.
Lemma a_foldr_ok (f : Z -> A -> B -> M St B) : (forall j x r, keeps (f j x r)) -> forall k fuel r s, (k < fuel)%nat -> Z.of_nat k <= zlen (fst s) ->
  a_foldr_rl fuel f (Z.of_nat k - 1) r s = Ret (foldr (fun '(j, r) => run x <- sub_now j; f j x r) r (upto 0 k) s).
Proof.
  intros K. induction k as [|k IH]; intros [|fuel] r s F E; try lia; cbn [a_foldr_rl]; [reflexivity|].
  rewrite Z.geb_leb. destruct (Z.leb_spec 0 (Z.of_nat (Datatypes.S k) - 1)); [|lia]. replace (Z.of_nat (Datatypes.S k) - 1) with (Z.of_nat k) by lia.
  destruct (C55_folds St Z B (fun '(j, r) => run x <- sub_now j; f j x r) r (upto 0 (Datatypes.S k)) s) as (_ & ->).
  rewrite upto_snoc, rev_app_distr. cbn [List.rev List.app fold_left fold_step]. change (0 + Z.of_nat k) with (Z.of_nat k). step s (Z.of_nat k) x Er Es.
  destruct (f (Z.of_nat k) x r s) as [r1 s1|e s1] eqn:P.
  - pose proof (keeps_val _ _ _ _ (K _ x r) P) as L. rewrite IH by lia.
    destruct (C55_folds St Z B (fun '(j, r) => run x <- sub_now j; f j x r) r1 (upto 0 k) s1) as (_ & ->). reflexivity.
  - now rewrite fold_exn.
Qed.

(** ** Reading an array that does not change *)
Lemma now_at (pre : list A) x l t : sub_now (zlen pre) (pre ++ x :: l, t) = Val x (pre ++ x :: l, t : S).
Proof.
  unfold sub_now. pose proof (zlen_nonneg pre). destruct (Z.ltb_spec (zlen pre) 0); [lia|]. unfold zlen. rewrite Nat2Z.id. cbn [fst]. now rewrite nth_error_app2, Nat.sub_diag by lia.
Qed.
Lemma find_quiet (p : A -> M St bool) l : (forall x, quiet (p x)) -> forall pre t,
  (run r <- find (fun j => run x <- sub_now j; p x) (upto (zlen pre) (Datatypes.length l)); match r with Some j => run y <- sub_now j; val (Some (j, y)) | None => val None end) (pre ++ l, t) =
  find (fun '(_, x) => p x) (enum (zlen pre) l) (pre ++ l, t).
Proof.
  intros Q. induction l as [|x l IH]; intros pre t; [reflexivity|]. cbn [Datatypes.length upto]. rewrite enum_cons. cbn [find].
  specialize (IH (pre ++ [x])). rewrite zlen_snoc in IH. unfold seq in *. rewrite now_at.
  destruct (p x (pre ++ x :: l, t)) as [[|] s1|e s1] eqn:P; [| |reflexivity]; pose proof (Q x (pre ++ x :: l, t)) as E; rewrite P in E; cbn [after fst] in E; destruct s1 as [a1 t1]; cbn [fst] in E; subst a1.
  - unfold val. rewrite now_at. reflexivity.
  - rewrite snoc. apply IH.
Qed.
End P.

(** ** Theorems *)
Theorem C58_iterators : forall S A B (s : list A * S),
  (forall p : A -> M (list A * S) bool, (forall x, keeps (p x)) ->
     a_exists p s = Ret (exists_ (fun j => run x <- sub_now j; p x) (indexes s) s) /\ a_all p s = Ret (all (fun j => run x <- sub_now j; p x) (indexes s) s)) /\
  (forall f (b : B), (forall c, keeps (f c)) -> a_foldl f b s = Ret (foldl (fun '(j, r) => run x <- sub_now j; f (x, r)) b (indexes s) s) /\ a_foldr f b s = Ret (foldr (fun '(j, r) => run x <- sub_now j; f (x, r)) b (indexes s) s)) /\
  (forall f, (forall x, keeps (f x)) -> a_app f s = Ret (app (fun j => run x <- sub_now j; f x) (indexes s) s)) /\
  (forall f, (forall x, keeps (f x)) -> a_modify f s = Ret (app (fun j => run x <- sub_now j; run y <- f x; update_now j y) (indexes s) s)).
Proof.
  intros S A B s. set (n := Datatypes.length (fst s)). assert (N : 0 + Z.of_nat n = zlen (fst s)) by reflexivity. split; [|split; [|split]].
  - intros p K. split; [apply a_exists_ok|apply a_all_ok]; auto; lia.
  - intros f b K. split.
    + apply (a_foldl_ok (fun _ x r => f (x, r))); auto; lia.
    + apply (a_foldr_ok (fun _ x r => f (x, r))); auto; unfold n in *; lia.
  - intros f K. apply (a_app_ok (fun _ x => f x)); auto; lia.
  - intros f K. apply (a_modify_ok (fun _ x => f x)); auto; lia.
Qed.
Theorem C58_indexed : forall S A B (s : list A * S),
  (forall f (b : B), (forall c, keeps (f c)) -> a_foldli f b s = Ret (foldl (fun '(j, r) => run x <- sub_now j; f (j, x, r)) b (indexes s) s) /\ a_foldri f b s = Ret (foldr (fun '(j, r) => run x <- sub_now j; f (j, x, r)) b (indexes s) s)) /\
  (forall f, (forall c, keeps (f c)) -> a_appi f s = Ret (app (fun j => run x <- sub_now j; f (j, x)) (indexes s) s)) /\
  (forall f, (forall c, keeps (f c)) -> a_modifyi f s = Ret (app (fun j => run x <- sub_now j; run y <- f (j, x); update_now j y) (indexes s) s)) /\
  (forall p, (forall c, keeps (p c)) -> a_findi p s =
     Ret ((run r <- find (fun j => run x <- sub_now j; p (j, x)) (indexes s); match r with Some j => run y <- sub_now j; val (Some (j, y)) | None => val None end) s)).
Proof.
  intros S A B s. set (n := Datatypes.length (fst s)). assert (N : 0 + Z.of_nat n = zlen (fst s)) by reflexivity. split; [|split; [|split]].
  - intros f b K. split.
    + apply (a_foldl_ok (fun j x r => f (j, x, r))); auto; lia.
    + apply (a_foldr_ok (fun j x r => f (j, x, r))); auto; unfold n in *; lia.
  - intros f K. apply (a_app_ok (fun j x => f (j, x))); auto; lia.
  - intros f K. apply (a_modify_ok (fun j x => f (j, x))); auto; lia.
  - intros p K. apply (a_find_ok (fun j x => p (j, x))); auto; lia.
Qed.
Theorem C58_find_partial : forall S A (a : list A) (t : S) (p : A -> M (list A * S) bool), (forall x, quiet (p x)) -> a_find p (a, t) = Ret (find p a (a, t)).
Proof.
  intros S A a t p Q. unfold a_find. unfold vseq at 1. cbn [len bind].
  assert (K : forall (j : Z) x, keeps (p x)) by (intros _ x s; now rewrite Q).
  unfold vseq, loop. change (fst (a, t)) with a.
  pose proof (a_find_ok (fun _ x => p x) K (Datatypes.length a) (Datatypes.S (Datatypes.length a)) 0 (a, t) ltac:(lia) ltac:(lia) eq_refl) as E. cbn [fst] in E. rewrite E. cbn [bind].
  pose proof (find_quiet p a Q [] t) as F. cbn [List.app] in F. change (zlen (@nil A)) with 0 in F. rewrite F, <- (find_forget p a 0 (a, t)).
  destruct (find _ (enum 0 a) (a, t)); reflexivity.
Qed.
(** Array.sig 77-79: find p a returns SOME x for an x for which p(x) was true.  Not so where p changes the
    array: here p is true of 1 only, and find returns 2 *)
Theorem C58_find_refuted : exists (p : Z -> M (list Z * unit) bool) s x s', (forall x, keeps (p x)) /\ a_find p s = Ret (Val (Some x) s') /\ (forall s, exists s'', p x s = Val false s'').
Proof.
  exists (fun x s => Val (x =? 1) (List.map (fun y => y + 1) (fst s), tt)), ([1], tt), 2, ([2], tt). split; [|split].
  - intros x s. cbn [after fst]. apply map_length.
  - reflexivity.
  - intros s. eexists. reflexivity.
Qed.

(** ** Examples *)
(** a function that adds the element to all elements *)
Definition addall (x : Z) : M (list Z * list Z) unit := fun s => Val tt (List.map (fun y => x + y) (fst s), snd s ++ [x]).
Example C58_iterators_ex : (forall x, keeps (addall x)) /\ a_app addall ([1; 2; 3], []) = Ret (Val tt ([12; 13; 14], [1; 3; 7])).
Proof. split; [|reflexivity]. intros x s. cbn [addall after fst]. apply map_length. Qed.
Example C58_indexed_ex : a_foldri (fun '(j, x, r) => fun s => Val (j + x + r) (List.map (fun y => y * 2) (fst s), tt)) 0 ([7; 8], tt) = Ret (Val 23 ([28; 32], tt)).
Proof. reflexivity. Qed.
Definition above3 (x : Z) : M (list Z * list Z) bool := fun s => Val (x >? 3) (fst s, snd s ++ [x]).
Example C58_find_ex : (forall x, quiet (above3 x)) /\ a_find above3 ([1; 5; 7], []) = Ret (Val (Some 5) ([1; 5; 7], [1; 5])).
Proof. split; [|reflexivity]. intros x s. reflexivity. Qed.

Print Assumptions C58_iterators.
Print Assumptions C58_indexed.
Print Assumptions C58_find_partial.
Print Assumptions C58_find_refuted.
