(** Intset is Binaryset at the integer order: the facts proved of Binaryset carry over. *)
From Verif Require Import Base OrderSpec Wbtree_Model.
From Verif Require Binaryset_Model.
From Verif Require Import Intset_Model.
Module B := Binaryset_Model.

(** Boolean integer tests as cases on the comparison. *)
Lemma gtb_cmp a b : (a >? b) = match a ?= b with Gt => true | _ => false end.
Proof. reflexivity. Qed.
Lemma ltb_cmp a b : (a <? b) = match a ?= b with Lt => true | _ => false end.
Proof. reflexivity. Qed.
Lemma leb_cmp a b : (a <=? b) = match a ?= b with Gt => false | _ => true end.
Proof. reflexivity. Qed.
Lemma geb_cmp a b : (a >=? b) = match a ?= b with Lt => false | _ => true end.
Proof. reflexivity. Qed.
Ltac cmps := rewrite ?gtb_cmp, ?ltb_cmp, ?leb_cmp, ?geb_cmp.

Lemma addt_bs t x : addt t x = B.addt Z.compare t x.
Proof.
  induction t as [|v n l IHl r IHr]; [reflexivity|]. cbn [addt B.addt]. rewrite IHl, IHr. cmps.
  destruct (Z.compare_spec x v); subst; reflexivity.
Qed.
Lemma concat3_bs l v : forall r, concat3 l v r = B.concat3 Z.compare l v r.
Proof.
  induction l as [|v1 n1 l1 IHl r1 IHr]; [intros; apply addt_bs|].
  induction r as [|v2 n2 l2 IHl2 r2 IHr2]; [apply addt_bs|].
  cbn [concat3 B.concat3] in *. rewrite IHl2, IHr. reflexivity.
Qed.
Lemma split_lt_bs t x : split_lt t x = B.split_lt Z.compare t x.
Proof.
  induction t as [|v n l IHl r IHr]; [reflexivity|]. cbn [split_lt B.split_lt]. rewrite IHl, IHr. cmps.
  destruct (Z.compare_spec v x); try reflexivity.
  destruct (B.split_lt Z.compare r x); cbn; try reflexivity. apply concat3_bs.
Qed.
Lemma split_gt_bs t x : split_gt t x = B.split_gt Z.compare t x.
Proof.
  induction t as [|v n l IHl r IHr]; [reflexivity|]. cbn [split_gt B.split_gt]. rewrite IHl, IHr. cmps.
  destruct (Z.compare_spec v x); try reflexivity.
  destruct (B.split_gt Z.compare l x); cbn; try reflexivity. apply concat3_bs.
Qed.
Lemma concat_bs t1 : forall t2, concat t1 t2 = B.concat t1 t2.
Proof.
  induction t1 as [|v1 n1 l1 IHl r1 IHr]; [reflexivity|].
  induction t2 as [|v2 n2 l2 IHl2 r2 IHr2]; [reflexivity|].
  cbn [concat B.concat] in *. rewrite IHl2, IHr. reflexivity.
Qed.
Lemma trim_bs lo hi s : trim lo hi s = B.trim Z.compare lo hi s.
Proof.
  induction s as [|v n l IHl r IHr]; [reflexivity|]. cbn [trim B.trim]. rewrite IHl, IHr. cmps.
  destruct (Z.compare_spec v lo); try reflexivity. destruct (Z.compare_spec v hi); reflexivity.
Qed.
Lemma trim_lo_bs lo s : trim_lo lo s = B.trim_lo Z.compare lo s.
Proof.
  induction s as [|v n l IHl r IHr]; [reflexivity|]. cbn [trim_lo B.trim_lo]. rewrite IHr. cmps.
  destruct (Z.compare_spec v lo); reflexivity.
Qed.
Lemma trim_hi_bs hi s : trim_hi hi s = B.trim_hi Z.compare hi s.
Proof.
  induction s as [|v n l IHl r IHr]; [reflexivity|]. cbn [trim_hi B.trim_hi]. rewrite IHl. cmps.
  destruct (Z.compare_spec v hi); reflexivity.
Qed.
Lemma bind_ext {X Y} (m m' : outcome X) (k k' : X -> outcome Y) :
  m = m' -> (forall x, k x = k' x) -> bind m k = bind m' k'.
Proof. intros -> H. destruct m'; cbn; auto. Qed.
Ltac binds := repeat first [ apply bind_ext; [|intros ?] | apply concat3_bs | apply concat_bs
  | apply split_lt_bs | apply split_gt_bs | progress auto ].
Lemma uni_bd_bs s1 : forall s2 lo hi, uni_bd s1 s2 lo hi = B.uni_bd Z.compare s1 s2 lo hi.
Proof.
  induction s1 as [|v n l IHl r IHr]; intros [|v2 n2 l2 r2] lo hi; cbn [uni_bd B.uni_bd]; try reflexivity;
    rewrite ?trim_bs; binds.
Qed.
Lemma uni_hi_bs s1 : forall s2 hi, uni_hi s1 s2 hi = B.uni_hi Z.compare s1 s2 hi.
Proof.
  induction s1 as [|v n l IHl r IHr]; intros [|v2 n2 l2 r2] hi; cbn [uni_hi B.uni_hi]; try reflexivity;
    rewrite ?trim_bs, ?trim_hi_bs; binds; apply uni_bd_bs.
Qed.
Lemma uni_lo_bs s1 : forall s2 lo, uni_lo s1 s2 lo = B.uni_lo Z.compare s1 s2 lo.
Proof.
  induction s1 as [|v n l IHl r IHr]; intros [|v2 n2 l2 r2] hi; cbn [uni_lo B.uni_lo]; try reflexivity;
    rewrite ?trim_bs, ?trim_lo_bs; binds; apply uni_bd_bs.
Qed.
Lemma union_bs s1 s2 : union s1 s2 = B.union Z.compare s1 s2.
Proof.
  destruct s1, s2; try reflexivity. unfold union, B.union, B.hedge_union.
  rewrite trim_hi_bs, trim_lo_bs. binds; [apply uni_hi_bs|apply uni_lo_bs].
Qed.
Lemma addList_bs l : forall t, addList t l = B.addList Z.compare t l.
Proof.
  unfold addList, B.addList. intros t.
  change (fold_left (fun s i => do s <- s; addt s i) l (Ret t : outcome itree) = fold_left (fun s i => do s <- s; B.addt Z.compare s i) l (Ret t : outcome itree)).
  generalize (Ret t : outcome itree).
  induction l as [|x l IH]; intros o; cbn [fold_left]; [reflexivity|]. rewrite IH. f_equal.
  apply bind_ext; [reflexivity|intros; apply addt_bs].
Qed.
Lemma difference_bs t2 : forall s, difference s t2 = B.difference Z.compare s t2.
Proof.
  induction t2 as [|v n l IHl r IHr]; intros [|v2 n2 l2 r2]; cbn [difference B.difference]; try reflexivity; binds.
Qed.
Lemma membert_bs t x : membert t x = B.membert Z.compare t x.
Proof.
  unfold B.membert. induction t as [|v n l IHl r IHr]; [reflexivity|]. cbn [membert B.peekt]. rewrite IHl, IHr. cmps.
  destruct (Z.compare_spec x v); reflexivity.
Qed.
Lemma intersection_bs t2 : forall s, intersection s t2 = B.intersection Z.compare s t2.
Proof.
  induction t2 as [|v n l IHl r IHr]; intros [|v2 n2 l2 r2]; cbn [intersection B.intersection]; try reflexivity.
  rewrite membert_bs. unfold B.membert.
  apply bind_ext; [apply split_lt_bs|intros]. apply bind_ext; [apply split_gt_bs|intros].
  destruct (B.peekt Z.compare (T v2 n2 l2 r2) v); binds.
Qed.
Lemma delete_bs t x : delete t x = B.delete Z.compare t x.
Proof.
  induction t as [|v n l IHl r IHr]; [reflexivity|]. cbn [delete B.delete]. rewrite IHl, IHr. cmps.
  destruct (Z.compare_spec x v); reflexivity.
Qed.
Lemma foldr_bs {X} (f : Z -> X -> X) t : forall b, foldr f b t = B.foldr f b t.
Proof. unfold B.foldr. induction t as [|v n l IHl r IHr]; intros b; cbn; [reflexivity|]. now rewrite IHr, IHl. Qed.
Lemma foldl_bs {X} (f : Z -> X -> X) t : forall b, foldl f b t = B.foldl f b t.
Proof. unfold B.foldl. induction t as [|v n l IHl r IHr]; intros b; cbn; [reflexivity|]. now rewrite IHr, IHl. Qed.
Lemma app_bs {X} (f : Z -> X -> X) t : forall b, app f t b = B.app f t b.
Proof. unfold B.app. induction t as [|v n l IHl r IHr]; intros b; cbn; [reflexivity|]. now rewrite IHr, IHl. Qed.
Lemma revapp_bs {X} (f : Z -> X -> X) t : forall b, revapp f t b = B.revapp f t b.
Proof. unfold B.revapp. induction t as [|v n l IHl r IHr]; intros b; cbn; [reflexivity|]. now rewrite IHr, IHl. Qed.
Lemma listItems_bs t : listItems t = B.listItems t.
Proof. apply foldr_bs. Qed.
Lemma treeIn_bs t t' : treeIn t t' = B.isIn Z.compare t' t.
Proof.
  induction t as [|v n l IHl r IHr]; [reflexivity|]. cbn [treeIn B.isIn]. rewrite membert_bs, IHl, IHr.
  destruct l, r; reflexivity.
Qed.
Lemma isSubset_bs t t' : isSubset t t' = B.isSubset Z.compare t t'.
Proof. destruct t, t'; try reflexivity. unfold isSubset, B.isSubset. now rewrite treeIn_bs. Qed.
Lemma equal_bs t t' : equal t t' = B.equal Z.compare t t'.
Proof. destruct t, t'; try reflexivity. unfold equal, B.equal. now rewrite treeIn_bs. Qed.
Lemma find_bs p t : find p t = B.find p t.
Proof. induction t as [|v n l IHl r IHr]; [reflexivity|]. cbn [find B.find]. now rewrite IHl, IHr. Qed.
