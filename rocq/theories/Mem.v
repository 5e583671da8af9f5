(** Blocks of memory as lists of bytes: reading and writing runs of bytes, and facts about them. *)
From Verif Require Import Base ArrayLib.

(** [n] bytes at [i]; outside the block is undefined *)
Definition getn (m : list Z) (i n : Z) : outcome (list Z) :=
  if (0 <=? i) && (0 <=? n) && (i + n <=? zlen m) then Ret (firstn (Z.to_nat n) (skipn (Z.to_nat i) m)) else UB.
(** the block after writing the bytes [l] at [i] *)
Definition putn (m : list Z) (i : Z) (l : list Z) : outcome (list Z) :=
  if (0 <=? i) && (i + zlen l <=? zlen m)
  then Ret (firstn (Z.to_nat i) m ++ l ++ skipn (Z.to_nat i + length l) m) else UB.

Lemma getn_ok m i n : 0 <= i -> 0 <= n -> i + n <= zlen m -> getn m i n = Ret (firstn (Z.to_nat n) (skipn (Z.to_nat i) m)).
Proof.
  intros A B C. unfold getn. destruct (Z.leb_spec 0 i); [|lia]. destruct (Z.leb_spec 0 n); [|lia].
  destruct (Z.leb_spec (i + n) (zlen m)); [|lia]. reflexivity.
Qed.
Lemma putn_ok m i l : 0 <= i -> i + zlen l <= zlen m ->
  putn m i l = Ret (firstn (Z.to_nat i) m ++ l ++ skipn (Z.to_nat i + length l) m).
Proof. intros A B. unfold putn. destruct (Z.leb_spec 0 i), (Z.leb_spec (i + zlen l) (zlen m)); try lia. reflexivity. Qed.

Section Z.
Context {A : Type}.
Implicit Types l m : list A.
Lemma zlen_firstn n l : 0 <= n <= zlen l -> zlen (firstn (Z.to_nat n) l) = n.
Proof. unfold zlen. rewrite firstn_length. lia. Qed.
Lemma zlen_skipn n l : 0 <= n <= zlen l -> zlen (skipn (Z.to_nat n) l) = zlen l - n.
Proof. unfold zlen. rewrite skipn_length. lia. Qed.
Lemma zget_firstn n l k : zget (firstn (Z.to_nat n) l) k = if k <? n then zget l k else None.
Proof.
  unfold zget. destruct (Z.ltb_spec k 0); [now destruct (k <? n)|].
  destruct (Z.ltb_spec k n).
  - revert l. assert (Z.to_nat k < Z.to_nat n)%nat as H1 by lia. revert H1. generalize (Z.to_nat k), (Z.to_nat n).
    intros a b. revert a. induction b as [|b IH]; intros a Hab l; [lia|].
    destruct l as [|x l]; [now destruct a|]. destruct a as [|a]; [reflexivity|]. cbn. apply IH. lia.
  - apply nth_error_None. rewrite firstn_length. lia.
Qed.
Lemma zget_skipn n l k : 0 <= n -> zget (skipn (Z.to_nat n) l) k = if k <? 0 then None else zget l (n + k).
Proof.
  intros Hn. unfold zget. destruct (Z.ltb_spec k 0); [reflexivity|]. destruct (Z.ltb_spec (n + k) 0); [lia|].
  replace (Z.to_nat (n + k)) with (Z.to_nat n + Z.to_nat k)%nat by lia.
  generalize (Z.to_nat n), (Z.to_nat k). intros a b. revert l. induction a as [|a IH]; intros l; [reflexivity|].
  destruct l as [|x l]; [now destruct b|]. cbn. apply IH.
Qed.
Lemma skipn_zlen (a b : list A) : skipn (length a) (a ++ b) = b.
Proof. now rewrite skipn_app, skipn_all, Nat.sub_diag. Qed.
Lemma firstn_zlen (a b : list A) : firstn (length a) (a ++ b) = a.
Proof. now rewrite firstn_app, firstn_all, Nat.sub_diag, firstn_O, app_nil_r. Qed.
End Z.

(** the block after a write, cell by cell *)
Lemma putn_spec m i l : 0 <= i -> i + zlen l <= zlen m -> exists m', putn m i l = Ret m' /\ zlen m' = zlen m /\
  forall k, zget m' k = if (i <=? k) && (k <? i + zlen l) then zget l (k - i) else zget m k.
Proof.
  intros A B. rewrite putn_ok by assumption. eexists. split; [reflexivity|]. pose proof (zlen_nonneg l) as N.
  replace (Z.to_nat i + length l)%nat with (Z.to_nat (i + zlen l)) by (unfold zlen; lia).
  split.
  - rewrite !zlen_app, zlen_firstn, zlen_skipn by lia. lia.
  - intros k. rewrite !zget_app, zlen_firstn, zget_firstn, zget_skipn by lia.
    destruct (Z.ltb_spec k i), (Z.leb_spec i k); try lia; cbn [andb]; [reflexivity|].
    destruct (Z.ltb_spec (k - i) (zlen l)), (Z.ltb_spec k (i + zlen l)); try lia; [reflexivity|].
    destruct (Z.ltb_spec (k - i - zlen l) 0); [lia|]. f_equal. lia.
Qed.
