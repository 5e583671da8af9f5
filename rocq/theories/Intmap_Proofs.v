(** Intmap is Binarymap at the integer order: the facts proved of Binarymap carry over. *)
From Verif Require Import Base OrderSpec Wbtree_Model.
From Verif Require Binarymap_Model.
From Verif Require Import Intmap_Model.

Ltac zcmp := repeat match goal with
  | |- context [?a >? ?b] => rewrite (Z.gtb_ltb a b)
  | |- context [?a >=? ?b] => rewrite (Z.geb_leb a b)
  end; unfold Z.ltb, Z.leb.

Section P.
Context {V : Type}.
Implicit Types (t : intmap V) (x : Z) (v : V).

Lemma insert_bm t x v : insert t x v = Binarymap_Model.insert Z.compare t x v.
Proof.
  induction t as [|[k w] n l IHl r IHr]; [reflexivity|]. cbn [insert Binarymap_Model.insert].
  rewrite IHl, IHr. rewrite Z.gtb_ltb. unfold Z.ltb. rewrite (Z.compare_antisym k x).
  destruct (k ?= x); reflexivity.
Qed.
Lemma retrieve_bm t x : retrieve t x = Binarymap_Model.find Z.compare t x.
Proof.
  induction t as [|[k w] n l IHl r IHr]; [reflexivity|]. cbn [retrieve Binarymap_Model.find].
  rewrite IHl, IHr. rewrite Z.gtb_ltb. unfold Z.ltb. rewrite (Z.compare_antisym x k).
  destruct (x ?= k); reflexivity.
Qed.
Lemma remove_bm t x : remove t x = Binarymap_Model.remove Z.compare t x.
Proof.
  induction t as [|[k w] n l IHl r IHr]; [reflexivity|]. cbn [remove Binarymap_Model.remove].
  rewrite IHl, IHr. rewrite Z.gtb_ltb. unfold Z.ltb. rewrite (Z.compare_antisym k x).
  destruct (k ?= x); reflexivity.
Qed.
Lemma peek_bm t x : peek t x = Binarymap_Model.peek Z.compare t x.
Proof. unfold peek, Binarymap_Model.peek. now rewrite retrieve_bm. Qed.
Lemma listItems_bm t : listItems t = Binarymap_Model.listItems t.
Proof.
  unfold listItems, Binarymap_Model.listItems. generalize (@nil (Z * V)).
  induction t as [|[k w] n l IHl r IHr]; intros; cbn; congruence.
Qed.
Lemma app_bm S (f : Z -> V -> S -> S) t s : app f t s = Binarymap_Model.app f t s.
Proof.
  revert s. induction t as [|[k w] n l IHl r IHr]; intros; cbn; [reflexivity|].
  rewrite IHr, IHl. reflexivity.
Qed.
Lemma revapp_bm S (f : Z -> V -> S -> S) t s : revapp f t s = Binarymap_Model.revapp f t s.
Proof.
  revert s. induction t as [|[k w] n l IHl r IHr]; intros; cbn; [reflexivity|].
  rewrite IHr, IHl. reflexivity.
Qed.
Lemma foldr_bm B (f : Z -> V -> B -> B) e t : foldr f e t = Binarymap_Model.foldr f e t.
Proof.
  unfold foldr, Binarymap_Model.foldr.
  revert e. induction t as [|[k w] n l IHl r IHr]; intros; cbn; [reflexivity|].
  rewrite IHr, IHl. reflexivity.
Qed.
Lemma foldl_bm B (f : Z -> V -> B -> B) e t : foldl f e t = Binarymap_Model.foldl f e t.
Proof.
  unfold foldl, Binarymap_Model.foldl.
  revert e. induction t as [|[k w] n l IHl r IHr]; intros; cbn; [reflexivity|].
  rewrite IHr, IHl. reflexivity.
Qed.
End P.
Lemma map_bm V W (f : Z -> V -> W) d : map f d = Binarymap_Model.map f d.
Proof. induction d as [|[k w] n l IHl r IHr]; cbn; congruence. Qed.
Lemma transform_bm V W (f : V -> W) d : transform f d = Binarymap_Model.transform f d.
Proof. induction d as [|[k w] n l IHl r IHr]; cbn; congruence. Qed.
