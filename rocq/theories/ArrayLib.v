(** Arrays as lists indexed by integers: reading, writing, and facts about them.  Used by several
    models; the definitions are those of SML arrays / C memory cells, nothing is specific to one
    file. *)
From Coq Require Import Sorting.Permutation.
From Verif Require Import Base.

Section Defs.
Context {A : Type}.
Definition zlen (a : list A) : Z := Z.of_nat (length a).
(** the cell at index [i], if there is one *)
Definition zget (a : list A) (i : Z) : option A := if i <? 0 then None else nth_error a (Z.to_nat i).
Fixpoint upd (a : list A) (i : nat) (x : A) : list A :=
  match a, i with
  | [], _ => []
  | _ :: a, O => x :: a
  | y :: a, S i => y :: upd a i x
  end.
(** the array after storing [x] at [i], if that cell exists *)
Definition zset (a : list A) (i : Z) (x : A) : option (list A) :=
  if (i <? 0) || (zlen a <=? i) then None else Some (upd a (Z.to_nat i) x).

(** SML's checked access (Array.sub, Array.update) *)
Definition sub_chk (a : list A) (i : Z) : outcome A :=
  match zget a i with Some x => Ret x | None => Raise Subscript end.
Definition update_chk (a : list A) (i : Z) (x : A) : outcome (list A) :=
  match zset a i x with Some a => Ret a | None => Raise Subscript end.
(** unchecked access (primitives get_vect_item, set_vect_item; C memory): out of range is
    undefined behaviour *)
Definition sub_raw (a : list A) (i : Z) : outcome A :=
  match zget a i with Some x => Ret x | None => UB end.
Definition update_raw (a : list A) (i : Z) (x : A) : outcome (list A) :=
  match zset a i x with Some a => Ret a | None => UB end.
(** total reading, for specifications *)
Definition znth (d : A) (a : list A) (i : Z) : A := match zget a i with Some x => x | None => d end.
End Defs.

Section Facts.
Context {A : Type}.
Implicit Types (a : list A) (i j k : Z) (x y : A).

Lemma upd_length a : forall n x, length (upd a n x) = length a.
Proof. induction a as [|y a IH]; intros [|n] x; cbn; auto. Qed.
Lemma nth_error_upd a : forall n m x, (n < length a)%nat ->
  nth_error (upd a n x) m = if Nat.eqb m n then Some x else nth_error a m.
Proof.
  induction a as [|y a IH]; intros n m x H; cbn in H; [lia|].
  destruct n as [|n], m as [|m]; cbn; try reflexivity. apply IH. lia.
Qed.
Lemma zlen_nonneg a : 0 <= zlen a.
Proof. unfold zlen. lia. Qed.
Lemma zget_some a i : 0 <= i < zlen a -> exists x, zget a i = Some x.
Proof.
  intros H. unfold zget, zlen in *. destruct (Z.ltb_spec i 0); [lia|].
  destruct (nth_error a (Z.to_nat i)) eqn:E; [eauto|]. apply nth_error_None in E. lia.
Qed.
Lemma zget_range a i x : zget a i = Some x -> 0 <= i < zlen a.
Proof.
  unfold zget, zlen. destruct (Z.ltb_spec i 0); [discriminate|]. intros H1.
  assert (nth_error a (Z.to_nat i) <> None) as H2 by congruence. apply nth_error_Some in H2. lia.
Qed.
Lemma zget_none a i : ~ (0 <= i < zlen a) -> zget a i = None.
Proof. intros H. destruct (zget a i) eqn:E; [|reflexivity]. apply zget_range in E. lia. Qed.
Lemma zget_In a i x : zget a i = Some x -> In x a.
Proof. unfold zget. destruct (i <? 0); [discriminate|]. apply nth_error_In. Qed.
Lemma In_zget a x : In x a -> exists i, zget a i = Some x.
Proof.
  intros H. apply In_nth_error in H as (n & H). exists (Z.of_nat n). unfold zget.
  destruct (Z.ltb_spec (Z.of_nat n) 0); [lia|]. now rewrite Nat2Z.id.
Qed.
Lemma zset_some a i x : 0 <= i < zlen a -> exists a', zset a i x = Some a' /\ zlen a' = zlen a /\
  forall k, zget a' k = if k =? i then Some x else zget a k.
Proof.
  intros H. unfold zset. destruct (Z.ltb_spec i 0); [lia|]. destruct (Z.leb_spec (zlen a) i); [lia|]. cbn.
  exists (upd a (Z.to_nat i) x). split; [reflexivity|]. split; [unfold zlen; now rewrite upd_length|].
  intros k. unfold zget. destruct (Z.ltb_spec k 0).
  - destruct (Z.eqb_spec k i); [lia|reflexivity].
  - rewrite nth_error_upd by (unfold zlen in *; lia).
    destruct (Nat.eqb_spec (Z.to_nat k) (Z.to_nat i)), (Z.eqb_spec k i); try reflexivity; lia.
Qed.
Lemma zset_none a i x : ~ (0 <= i < zlen a) -> zset a i x = None.
Proof. intros H. unfold zset. destruct (Z.ltb_spec i 0), (Z.leb_spec (zlen a) i); cbn; auto; lia. Qed.

Lemma list_ext a b : (forall k, zget a k = zget b k) -> a = b.
Proof.
  revert b. induction a as [|x a IH]; intros [|y b] H.
  - reflexivity.
  - specialize (H 0). cbn in H. discriminate.
  - specialize (H 0). cbn in H. discriminate.
  - f_equal; [specialize (H 0); cbn in H; congruence|]. apply IH. intros k.
    unfold zget. destruct (Z.ltb_spec k 0); [reflexivity|].
    specialize (H (k + 1)). unfold zget in H. destruct (Z.ltb_spec (k + 1) 0); [lia|].
    replace (Z.to_nat (k + 1)) with (S (Z.to_nat k)) in H by lia. exact H.
Qed.

Lemma zget_app a b k : zget (a ++ b) k = if k <? zlen a then zget a k else zget b (k - zlen a).
Proof.
  unfold zget, zlen. destruct (Z.ltb_spec k 0).
  - destruct (Z.ltb_spec k (Z.of_nat (length a))); [reflexivity|].
    destruct (Z.ltb_spec (k - Z.of_nat (length a)) 0); [reflexivity|lia].
  - destruct (Z.ltb_spec k (Z.of_nat (length a))).
    + apply nth_error_app1. lia.
    + rewrite nth_error_app2 by lia. destruct (Z.ltb_spec (k - Z.of_nat (length a)) 0); [lia|]. f_equal. lia.
Qed.
Lemma zlen_app a b : zlen (a ++ b) = zlen a + zlen b.
Proof. unfold zlen. rewrite app_length. lia. Qed.
Lemma zlen_cons x a : zlen (x :: a) = 1 + zlen a.
Proof. unfold zlen. cbn [length]. lia. Qed.
Lemma zget_cons x a k : zget (x :: a) k = if k =? 0 then Some x else zget a (k - 1).
Proof.
  change (x :: a) with ([x] ++ a). rewrite zget_app. change (zlen [x]) with 1.
  destruct (Z.eqb_spec k 0); [subst; reflexivity|].
  destruct (Z.ltb_spec k 1); [|reflexivity]. rewrite !zget_none; auto; [pose proof (zlen_nonneg a)|change (zlen [x]) with 1]; lia.
Qed.
Lemma zget_repeat x n k : zget (repeat x n) k = if (0 <=? k) && (k <? Z.of_nat n) then Some x else None.
Proof.
  destruct (Z.leb_spec 0 k), (Z.ltb_spec k (Z.of_nat n)); cbn; try (apply zget_none; unfold zlen; rewrite repeat_length; lia).
  destruct (zget_some (repeat x n) k) as [y E]; [unfold zlen; rewrite repeat_length; lia|].
  rewrite E. f_equal. eapply repeat_spec, zget_In, E.
Qed.
Lemma zlen_repeat x n : zlen (repeat x n) = Z.of_nat n.
Proof. unfold zlen. now rewrite repeat_length. Qed.

(** total reading *)
Lemma znth_get (d : A) a i : 0 <= i < zlen a -> zget a i = Some (znth d a i).
Proof. intros H. unfold znth. destruct (zget_some a i H) as [x ->]. reflexivity. Qed.
Lemma sub_raw_ok (d : A) a i : 0 <= i < zlen a -> sub_raw a i = Ret (znth d a i).
Proof. intros H. unfold sub_raw. now rewrite (znth_get d). Qed.
Lemma sub_chk_ok (d : A) a i : 0 <= i < zlen a -> sub_chk a i = Ret (znth d a i).
Proof. intros H. unfold sub_chk. now rewrite (znth_get d). Qed.
Lemma update_raw_ok (d : A) a i x : 0 <= i < zlen a -> exists a', update_raw a i x = Ret a' /\ zlen a' = zlen a /\
  forall k, znth d a' k = if k =? i then x else znth d a k.
Proof.
  intros H. destruct (zset_some a i x H) as (a' & E & L & G). exists a'. unfold update_raw. rewrite E.
  split; [reflexivity|]. split; [assumption|]. intros k. unfold znth. rewrite G. now destruct (k =? i).
Qed.
Lemma list_ext_znth (d : A) a b : zlen a = zlen b -> (forall k, 0 <= k < zlen a -> znth d a k = znth d b k) -> a = b.
Proof.
  intros L H. apply list_ext. intros k. destruct (Z.leb_spec 0 k), (Z.ltb_spec k (zlen a));
    try (rewrite !zget_none by lia; reflexivity).
  rewrite !(znth_get d) by lia. f_equal. apply H. lia.
Qed.

(** storing a permuted content *)
Lemma upd_middle l1 y l2 x n : n = length l1 -> upd (l1 ++ y :: l2) n x = l1 ++ x :: l2.
Proof. intros ->. induction l1; cbn; [reflexivity|]. now f_equal. Qed.
Lemma upd_Permutation a n x y : nth_error a n = Some y -> Permutation (y :: upd a n x) (x :: a).
Proof.
  intros H. apply nth_error_split in H as (l1 & l2 & -> & L). rewrite (upd_middle l1 y l2 x n) by auto.
  transitivity (y :: x :: l1 ++ l2); [apply perm_skip, Permutation_sym, Permutation_middle|].
  transitivity (x :: y :: l1 ++ l2); [apply perm_swap|]. apply perm_skip, Permutation_middle.
Qed.
Lemma zset_Permutation a i x y a' : zget a i = Some y -> zset a i x = Some a' -> Permutation (y :: a') (x :: a).
Proof.
  intros G S. pose proof (zget_range _ _ _ G) as R. unfold zset in S.
  destruct ((i <? 0) || (zlen a <=? i)) eqn:F; [lia|]. injection S as <-.
  apply upd_Permutation. unfold zget in G. now destruct (i <? 0).
Qed.
End Facts.
