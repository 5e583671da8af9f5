(** Facts about block heaps, locations and the layout, shared by the proofs about the collectors. *)
From Coq Require Import Sorting.Sorted.
From Verif Require Import Base ArrayLib Gc_Model Gc_Spec.

Lemma color_eqb_spec a b : reflect (a = b) (color_eqb a b).
Proof. destruct a, b; constructor; congruence. Qed.

Lemma hget_hdel h a x : hget (hdel h a) x = if x =? a then None else hget h x.
Proof.
  induction h as [|[y b] h IH]; cbn; [now destruct (x =? a)|].
  destruct (Z.eqb_spec y a), (Z.eqb_spec x a), (Z.eqb_spec y x); cbn; rewrite ?IH;
    destruct (Z.eqb_spec x a); try reflexivity; try congruence;
    destruct (Z.eqb_spec y x); try reflexivity; congruence.
Qed.
Lemma hget_hput h a b x : hget (hput h a b) x = if x =? a then Some b else hget h x.
Proof.
  unfold hput. cbn. rewrite hget_hdel. rewrite Z.eqb_sym. now destruct (x =? a).
Qed.
Lemma hget_hput_same h a b : hget (hput h a b) a = Some b.
Proof. rewrite hget_hput, Z.eqb_refl. reflexivity. Qed.
Lemma hget_hput_other h a b x : x <> a -> hget (hput h a b) x = hget h x.
Proof. intros N. rewrite hget_hput. destruct (Z.eqb_spec x a); [contradiction|reflexivity]. Qed.
Lemma hget_filter (f : Z -> bool) h x :
  hget (filter (fun e => f (fst e)) h) x = if f x then hget h x else None.
Proof.
  induction h as [|[y b] h IH]; cbn; [now destruct (f x)|].
  destruct (f y) eqn:F; cbn; rewrite IH; destruct (Z.eqb_spec y x) as [->|N]; try reflexivity; now rewrite F.
Qed.

#[global] Arguments hput : simpl never.
#[global] Arguments hdel : simpl never.

Lemma zset_zget {A} (l : list A) i x l' : zset l i x = Some l' ->
  0 <= i < zlen l /\ zlen l' = zlen l /\ forall k, zget l' k = if k =? i then Some x else zget l k.
Proof.
  intros H. assert (0 <= i < zlen l) as R.
  { unfold zset in H. destruct ((i <? 0) || (zlen l <=? i)) eqn:E; [discriminate|]. lia. }
  destruct (zset_some l i x R) as (l2 & E & L & G). rewrite H in E. injection E as <-. auto.
Qed.
Lemma zset_In {A} (l : list A) i x l' y : zset l i x = Some l' -> In y l' -> y = x \/ In y l.
Proof.
  intros Z1 Y. destruct (zset_zget _ _ _ _ Z1) as (R & L & G). destruct (In_zget _ _ Y) as (k & K). rewrite G in K.
  destruct (k =? i); [left; congruence|right; eapply zget_In; eauto].
Qed.
Lemma zset_In_old {A} (l : list A) i x l' y old : zset l i x = Some l' -> zget l i = Some old -> In y l -> In y l' \/ y = old.
Proof.
  intros Z1 O Y. destruct (zset_zget _ _ _ _ Z1) as (R & L & G). destruct (In_zget _ _ Y) as (k & K).
  destruct (Z.eq_dec k i) as [->|N]; [right; congruence|left]. apply (zget_In _ k). rewrite G.
  destruct (Z.eqb_spec k i); [contradiction|exact K].
Qed.

Section Facts.
Variables young_start young_end : Z.
Variable outside : Z -> Prop.
Notation is_young := (is_young young_start young_end).
Notation layout := (layout young_start young_end outside).

Definition okloc (s : st) (p : loc) : Prop :=
  match p with
  | LRoot i => 0 <= i < zlen (roots s)
  | LField a i => is_young a = false /\ exists b, hget (hp s) a = Some b /\ 0 <= i < zlen (fs b)
  end.

Lemma loc_dec (p q : loc) : {p = q} + {p <> q}.
Proof. decide equality; apply Z.eq_dec. Qed.

Lemma okloc_read s p : okloc s p -> exists x, read s p = Some x.
Proof.
  destruct p as [i|a i]; cbn.
  - apply zget_some.
  - intros (_ & b & -> & R). now apply zget_some.
Qed.

(** what a write changes *)
Lemma wr_ok s p v : okloc s p -> exists s', wr p v s = Ret s' /\
  gc s' = gc s /\ tab s' = tab s /\ globals s' = globals s /\ young_ptr s' = young_ptr s /\ chunks s' = chunks s /\ tick s' = tick s /\
  zlen (roots s') = zlen (roots s) /\
  (forall q, read s' q = if loc_dec q p then Some v else read s q) /\
  (forall a, match hget (hp s) a with
             | Some b => exists b', hget (hp s') a = Some b' /\ col b' = col b /\ tag b' = tag b /\ zlen (fs b') = zlen (fs b) /\
                                    (is_young a = true -> b' = b)
             | None => hget (hp s') a = None end).
Proof.
  destruct p as [i|a i]; cbn [okloc wr].
  - intros R. destruct (zset_some (roots s) i v R) as (l & Z1 & Z2 & Z3). rewrite Z1.
    eexists. split; [reflexivity|]. cbn. repeat (split; [first [reflexivity|exact Z2]|]). split.
    + intros q. destruct (loc_dec q (LRoot i)) as [->|N].
      * cbn. rewrite Z3, Z.eqb_refl. reflexivity.
      * destruct q as [j|a j]; cbn; [|reflexivity]. rewrite Z3. destruct (Z.eqb_spec j i); [congruence|reflexivity].
    + intros x. destruct (hget (hp s) x) as [b|]; [|reflexivity]. exists b. auto 10.
  - intros (Y & b & E & R). rewrite E. destruct (zset_some (fs b) i v R) as (l & Z1 & Z2 & Z3). rewrite Z1.
    eexists. split; [reflexivity|]. cbn. repeat (split; [reflexivity|]). split.
    + intros q. destruct (loc_dec q (LField a i)) as [->|N].
      * cbn. rewrite hget_hput_same. cbn. rewrite Z3, Z.eqb_refl. reflexivity.
      * destruct q as [j|x j]; cbn; [reflexivity|]. rewrite hget_hput. destruct (Z.eqb_spec x a) as [->|M]; [|reflexivity].
        rewrite E. cbn. rewrite Z3. destruct (Z.eqb_spec j i); [congruence|reflexivity].
    + intros x. rewrite hget_hput. destruct (Z.eqb_spec x a) as [->|M].
      * rewrite E. eexists. split; [reflexivity|]. cbn. repeat split; auto. congruence.
      * destruct (hget (hp s) x) as [b'|]; [|reflexivity]. exists b'. auto.
Qed.

(** the layout depends on addresses and sizes of old blocks only *)
Lemma layout_same s s' : layout s -> chunks s' = chunks s ->
  (forall a b', is_young a = false -> hget (hp s') a = Some b' -> exists b, hget (hp s) a = Some b /\ zlen (fs b') = zlen (fs b)) ->
  layout s'.
Proof.
  intros L C H. destruct L as [L1 L2 L3 L4 L5]. constructor; rewrite ?C; auto.
  - intros a b' E Y. destruct (H _ _ Y E) as (b & B & Z1). rewrite Z1. exact (L4 _ _ B Y).
  - intros a b a' b' E E' Y Y' N. destruct (H _ _ Y E) as (b1 & B1 & Z1). destruct (H _ _ Y' E') as (b2 & B2 & Z2).
    rewrite Z1, Z2. exact (L5 _ _ _ _ B1 B2 Y Y' N).
Qed.

Lemma layout_in_heap s a b : layout s -> hget (hp s) a = Some b -> is_young a = false -> is_in_heap s a = true.
Proof.
  intros L E Y. destruct (l_in _ _ _ _ L _ _ E Y) as (_ & Z1 & c & n & I & R1 & R2). unfold is_in_heap.
  apply existsb_exists. exists (c, n). split; [exact I|]. cbn [fst snd]. lia.
Qed.
Lemma layout_in_heap_field s a b i : layout s -> hget (hp s) a = Some b -> is_young a = false -> 0 <= i < zlen (fs b) ->
  is_in_heap s (a + 8 * i) = true.
Proof.
  intros L E Y R. destruct (l_in _ _ _ _ L _ _ E Y) as (_ & Z1 & c & n & I & R1 & R2). unfold is_in_heap.
  apply existsb_exists. exists (c, n). split; [exact I|]. cbn [fst snd]. lia.
Qed.
Lemma layout_young_out s p : layout s -> is_young p = true -> is_in_heap s p = false.
Proof.
  intros L Y. unfold is_in_heap. destruct (existsb _ _) eqn:E; [|reflexivity].
  apply existsb_exists in E as ((c & n) & I & R). cbn in R. destruct (l_chunk _ _ _ _ L _ _ I) as (_ & _ & D).
  unfold Gc_Model.is_young in Y. lia.
Qed.
Lemma layout_outside s w : layout s -> outside w -> is_in_heap s w = false.
Proof.
  intros L O. unfold is_in_heap. destruct (existsb _ _) eqn:E; [|reflexivity].
  apply existsb_exists in E as ((c & n) & I & R). cbn in R. elim (l_outside _ _ _ _ L w c n O I). lia.
Qed.
End Facts.
