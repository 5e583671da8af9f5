(** Proofs about the minor collection: oldify copies the young part of the graph. *)
From Coq Require Import Sorting.Sorted.
From Verif Require Import Base ArrayLib Gc_Model Gc_Spec Gc_Heap.

Section Minor.
Variables young_start young_end : Z.
Variable alloc_at : st -> Z -> option (Z * list (Z * Z) * list Z).
Variable outside : Z -> Prop.
Notation is_young := (is_young young_start young_end).
Notation layout := (layout young_start young_end outside).
Notation okloc := (okloc young_start young_end).
Notation oldify := (oldify young_start young_end alloc_at).
Notation alloc_shr := (alloc_shr alloc_at).
Hypothesis AL : allocator young_start young_end alloc_at outside.

(** the state when the collection starts *)
Variable s0 : st.
Hypothesis Y0 : forall a b, hget (hp s0) a = Some b -> is_young a = true ->
  Z.even a = true /\ col b = Black /\ 1 <= zlen (fs b) /\ tag b <> Weak_tag.

Definition yb (v : Z) : bool := is_block v && is_young v.
Definition okv (v : Z) : Prop := yb v = true -> exists b, hget (hp s0) v = Some b.
Hypothesis V0 : forall a b v, hget (hp s0) a = Some b -> is_young a = true -> tag b < No_scan_tag -> In v (fs b) -> okv v.

Definition fwd (s : st) (v : Z) : option Z :=
  match hget (hp s) v with
  | Some b => if is_young v && color_eqb (col b) Blue then zget (fs b) 0 else None
  | None => None
  end.
Definition img (s : st) (v : Z) : Z :=
  if yb v then match fwd s v with Some r => r | None => v end else v.
Definition done (s : st) (v : Z) : Prop := yb v = true -> fwd s v <> None.

Definition forwarded (s : st) (b0 : block) (r : Z) (b' : block) : Prop :=
  is_young r = false /\ hget (hp s0) r = None /\ hget (hp s) r = Some b' /\
  col b' = alloc_color (gc s0) r /\ tag b' = tag b0 /\ zlen (fs b') = zlen (fs b0).

Record MI (s : st) : Prop := {
  mi_young : forall a b0, is_young a = true -> hget (hp s0) a = Some b0 ->
    hget (hp s) a = Some b0 \/
    exists r b', hget (hp s) a = Some (Blk Blue (tag b0) (r :: tl (fs b0))) /\ forwarded s b0 r b';
  mi_none : forall a, is_young a = true -> hget (hp s0) a = None -> hget (hp s) a = None;
  mi_inj : forall a a' r, fwd s a = Some r -> fwd s a' = Some r -> a = a';
  mi_old : forall a b0, is_young a = false -> hget (hp s0) a = Some b0 ->
    exists b, hget (hp s) a = Some b /\ col b = col b0 /\ tag b = tag b0 /\ zlen (fs b) = zlen (fs b0);
  mi_new : forall a b, is_young a = false -> hget (hp s) a = Some b -> hget (hp s0) a = None -> exists y, fwd s y = Some a;
  mi_lay : layout s;
  mi_gc : gc s = gc s0;
  mi_tab : tab s = tab s0;
  mi_glob : globals s = globals s0;
  mi_ptr : young_ptr s = young_ptr s0;
  mi_roots : zlen (roots s) = zlen (roots s0);
  mi_chunks : incl (chunks s0) (chunks s)
}.

(** what happens to the other locations *)
Record ext (s s' : st) : Prop := {
  e_loc : forall q, okloc s q -> okloc s' q;
  e_fwd : forall a r, fwd s a = Some r -> fwd s' a = Some r
}.
Definition frame (p : loc) (s s' : st) : Prop := forall q, q <> p -> okloc s q -> read s' q = read s q.

Definition complete (s : st) (a : Z) : Prop := forall b0, hget (hp s0) a = Some b0 ->
  exists r b', fwd s a = Some r /\ hget (hp s) r = Some b' /\
    if tag b0 <? No_scan_tag then fs b' = map (img s) (fs b0) /\ Forall (done s) (fs b0) else fs b' = fs b0.

(** young blocks not yet forwarded *)
Definition unfw (s : st) : nat := length (filter (fun e => is_young (fst e) && negb (color_eqb (col (snd e)) Blue)) (hp s)).

Lemma ext_refl s : ext s s.
Proof. constructor; auto. Qed.
Lemma ext_trans a b c : ext a b -> ext b c -> ext a c.
Proof. intros [A1 A2] [B1 B2]. constructor; auto. Qed.

Lemma img_ext s s' v : ext s s' -> done s v -> img s' v = img s v.
Proof.
  intros E D. unfold img. destruct (yb v) eqn:Y; [|reflexivity]. specialize (D Y).
  destruct (fwd s v) as [r|] eqn:F; [|congruence]. now rewrite (e_fwd _ _ E _ _ F).
Qed.
Lemma done_ext s s' v : ext s s' -> done s v -> done s' v.
Proof.
  intros E D Y. specialize (D Y). destruct (fwd s v) as [r|] eqn:F; [|congruence]. rewrite (e_fwd _ _ E _ _ F). discriminate.
Qed.

(** a forwarded young block *)
Lemma mi_fwd s a r : MI s -> fwd s a = Some r ->
  is_young a = true /\ exists b0 b', hget (hp s0) a = Some b0 /\
    hget (hp s) a = Some (Blk Blue (tag b0) (r :: tl (fs b0))) /\ forwarded s b0 r b'.
Proof.
  intros M F. unfold fwd in F. destruct (hget (hp s) a) as [b|] eqn:E; [|discriminate].
  destruct (is_young a) eqn:Y; [|discriminate]. cbn in F. destruct (color_eqb_spec (col b) Blue) as [C|C]; [|discriminate].
  split; [reflexivity|]. destruct (hget (hp s0) a) as [b0|] eqn:E0.
  - destruct (mi_young _ M a b0 Y E0) as [U|(r' & b' & U & W)].
    + rewrite E in U. injection U as ->. destruct (Y0 _ _ E0 Y) as (_ & B & _). congruence.
    + rewrite E in U. injection U as ->. cbn in F. injection F as ->. exists b0, b'. auto.
  - rewrite (mi_none _ M a Y E0) in E. discriminate.
Qed.

Lemma complete_ext s s' p a : MI s -> MI s' -> ext s s' -> frame p s s' ->
  (forall r i, fwd s a = Some r -> p <> LField r i) -> complete s a -> complete s' a.
Proof.
  intros M M' E FR P C b0 H. destruct (C b0 H) as (r & b' & F & G & K).
  destruct (mi_fwd _ _ _ M F) as (Y & b1 & b2 & H1 & H2 & W). rewrite H in H1. injection H1 as <-.
  pose proof (e_fwd _ _ E _ _ F) as F'. destruct (mi_fwd _ _ _ M' F') as (_ & b1 & b3 & H1 & H3 & W').
  rewrite H in H1. injection H1 as <-. destruct W as (W1 & W2 & W3 & W4 & W5 & W6). destruct W' as (V1 & V2 & V3 & V4 & V5 & V6).
  rewrite G in W3. injection W3 as <-. exists r, b3. split; [exact F'|]. split; [exact V3|].
  assert (fs b3 = fs b') as FE.
  { apply list_ext. intros k. destruct (Z_lt_dec k 0) as [N|N]; [rewrite !zget_none by lia; reflexivity|].
    destruct (Z_lt_dec k (zlen (fs b'))) as [N'|N']; [|rewrite !zget_none by lia; reflexivity].
    specialize (FR (LField r k)). cbn in FR. rewrite V3, G in FR. apply FR.
    - intros Q. symmetry in Q. now apply (P r k) in Q.
    - split; [exact W1|]. exists b'. split; [reflexivity|lia]. }
  rewrite FE. destruct (tag b0 <? No_scan_tag); [|exact K]. destruct K as [K1 K2]. split.
  - rewrite K1. apply map_ext_in. intros x X. rewrite Forall_forall in K2. symmetry. apply img_ext; auto.
  - rewrite Forall_forall in *. intros x X. apply (done_ext s); auto.
Qed.

Lemma unfw_le (h : heap) a : (length (filter (fun e => is_young (fst e) && negb (color_eqb (col (snd e)) Blue)) (hdel h a)) <=
   length (filter (fun e => is_young (fst e) && negb (color_eqb (col (snd e)) Blue)) h))%nat.
Proof.
  unfold hdel. induction h as [|[x b] h IH]; cbn; [lia|]. destruct (x =? a); cbn; destruct (is_young x && _); cbn; lia.
Qed.
Lemma unfw_lt (h : heap) a b : hget h a = Some b -> is_young a = true -> col b <> Blue ->
  (length (filter (fun e => is_young (fst e) && negb (color_eqb (col (snd e)) Blue)) (hdel h a)) <
   length (filter (fun e => is_young (fst e) && negb (color_eqb (col (snd e)) Blue)) h))%nat.
Proof.
  intros E Y C. induction h as [|[x b'] h IH]; [discriminate|]. cbn in E. unfold hdel. fold hdel. cbn [filter fst snd length].
  destruct (Z.eqb_spec x a) as [->|N].
  - injection E as ->. rewrite Y. destruct (color_eqb_spec (col b) Blue); [contradiction|]. cbn. pose proof (unfw_le h a). lia.
  - specialize (IH E). cbn [filter fst snd]. destruct (is_young x && _); cbn [length]; lia.
Qed.

Lemma hdel_cons z b h x : hdel ((z, b) :: h) x = if z =? x then hdel h x else (z, b) :: hdel h x.
Proof. reflexivity. Qed.
Lemma hdel_comm h x y : hdel (hdel h x) y = hdel (hdel h y) x.
Proof.
  induction h as [|[z b] h IH]; [reflexivity|]. rewrite !hdel_cons.
  destruct (z =? x) eqn:A, (z =? y) eqn:B; rewrite ?hdel_cons, ?A, ?B, IH; reflexivity.
Qed.

(** writing to an old location *)
Lemma wr_mi s p v : MI s -> okloc s p -> exists s', wr p v s = Ret s' /\ MI s' /\ ext s s' /\ frame p s s' /\
  read s' p = Some v /\ (unfw s' <= unfw s)%nat /\ (forall a, fwd s' a = fwd s a) /\
  (forall a, is_young a = true -> hget (hp s') a = hget (hp s) a).
Proof.
  intros M P. destruct (wr_ok young_start young_end s p v P) as (s' & W & G & T & GL & YP & CH & TI & R & RD & BL).
  exists s'. split; [exact W|].
  assert (forall a, is_young a = true -> hget (hp s') a = hget (hp s) a) as YS.
  { intros a Y. specialize (BL a). destruct (hget (hp s) a) as [b|]; [|exact BL].
    destruct BL as (b' & -> & _ & _ & _ & X). now rewrite (X Y). }
  assert (forall a, fwd s' a = fwd s a) as FW.
  { intros a. unfold fwd. destruct (is_young a) eqn:Y.
    - now rewrite YS.
    - cbn. now destruct (hget (hp s') a), (hget (hp s) a). }
  assert (forall a b, hget (hp s) a = Some b -> exists b', hget (hp s') a = Some b' /\ col b' = col b /\ tag b' = tag b /\ zlen (fs b') = zlen (fs b)) as FO.
  { intros a b E. specialize (BL a). rewrite E in BL. destruct BL as (b' & ? & ? & ? & ? & _). eauto 6. }
  assert (forall a b', hget (hp s') a = Some b' -> exists b, hget (hp s) a = Some b /\ zlen (fs b') = zlen (fs b)) as BA.
  { intros a b' E. specialize (BL a). destruct (hget (hp s) a) as [b|]; [|congruence].
    destruct BL as (b2 & E2 & _ & _ & L & _). exists b. split; [reflexivity|congruence]. }
  assert (MI s') as M'.
  { destruct M. constructor; try congruence.
    - intros a b0 Y H. rewrite YS by exact Y. destruct (mi_young0 a b0 Y H) as [U|(r & b' & U & W1 & W2 & W3 & W4 & W5 & W6)]; [now left|].
      right. destruct (FO _ _ W3) as (b2 & B1 & B2 & B3 & B4). exists r, b2. split; [exact U|]. unfold forwarded. repeat split; congruence.
    - intros a Y H. rewrite YS by exact Y. auto.
    - intros a a' r. rewrite !FW. apply mi_inj0.
    - intros a b0 Y H. destruct (mi_old0 a b0 Y H) as (b & B1 & B2 & B3 & B4). destruct (FO _ _ B1) as (b2 & C1 & C2 & C3 & C4).
      exists b2. repeat split; congruence.
    - intros a b Y H H0. destruct (BA _ _ H) as (b2 & B & _). destruct (mi_new0 a b2 Y B H0) as (y & F). exists y. now rewrite FW.
    - apply (layout_same _ _ _ s); auto.
    - now rewrite CH. }
  split; [exact M'|]. split; [|split; [|split; [|split; [|split]]]].
  - constructor.
    + intros [i|a i]; cbn; [now rewrite R|]. intros (Y & b & E & I). split; [exact Y|]. destruct (FO _ _ E) as (b' & ? & _ & _ & L).
      exists b'. split; [assumption|lia].
    + intros a r. now rewrite FW.
  - intros q N Q. rewrite RD. now destruct (loc_dec q p).
  - rewrite RD. now destruct (loc_dec p p).
  - (* unfw *)
    unfold unfw. destruct p as [i|a i]; cbn in W.
    + destruct (zset (roots s) i v); [|discriminate]. injection W as <-. cbn. lia.
    + destruct P as (Y & b & E & I). rewrite E in W. destruct (zset (fs b) i v); [|discriminate]. injection W as <-. cbn [hp set_hp].
      unfold hput. cbn [filter fst]. rewrite Y. cbn. apply unfw_le.
  - exact FW.
  - exact YS.
Qed.

(** allocation in the major heap during the collection *)
Lemma alloc_mi s w t : MI s -> 1 <= w -> alloc_shr w t s = Raise FailExn \/
  exists r s1 junk, alloc_shr w t s = Ret (r, s1) /\ is_young r = false /\ hget (hp s) r = None /\ zlen junk = w /\
    hp s1 = hput (hp s) r (Blk (alloc_color (gc s0) r) t junk) /\ layout s1 /\
    gc s1 = gc s /\ tab s1 = tab s /\ globals s1 = globals s /\ young_ptr s1 = young_ptr s /\ roots s1 = roots s /\ incl (chunks s) (chunks s1).
Proof.
  intros M W. unfold Gc_Model.alloc_shr. destruct (alloc_at s w) as [[[r cs] junk]|] eqn:E; [|now left]. right.
  destruct (AL s w r cs junk (mi_lay _ M) W E) as (A1 & A2 & A3 & A4 & A5).
  eexists r, _, junk. split; [reflexivity|]. rewrite (mi_gc _ M). repeat (split; [first [assumption|reflexivity]|]). cbn.
  split; [|repeat (split; [first [reflexivity|apply (mi_gc _ M)]|]); exact A4].
  eapply layout_same; [apply (A5 (alloc_color (gc s0) r) t)|reflexivity|]. cbn. eauto.
Qed.

(** the block is given a place, whose contents are arbitrary, and [p] is made to point to it *)
Lemma forward_mi s r b0 v l s1 (b := Blk (alloc_color (gc s0) r) (tag b0) l) :
  MI s -> hget (hp s0) v = Some b0 -> is_young v = true -> hget (hp s) v = Some b0 ->
  is_young r = false -> hget (hp s) r = None -> zlen l = zlen (fs b0) ->
  (forall a, hget (hp s1) a = if a =? v then Some (Blk Blue (tag b0) (r :: tl (fs b0))) else if a =? r then Some b else hget (hp s) a) ->
  layout s1 -> gc s1 = gc s -> tab s1 = tab s -> globals s1 = globals s -> young_ptr s1 = young_ptr s ->
  zlen (roots s1) = zlen (roots s) -> incl (chunks s) (chunks s1) ->
  MI s1 /\ ext s s1 /\ (forall a, fwd s1 a = if a =? v then Some r else fwd s a) /\ fwd s v = None.
Proof.
  intros M V Y U R RN L H LY G T GL YP RO CH.
  assert (v <> r) as NVR by congruence.
  assert (hget (hp s0) r = None) as R0.
  { destruct (hget (hp s0) r) as [x|] eqn:E; [|reflexivity]. destruct (mi_old _ M r x R E) as (x' & X & _). congruence. }
  assert (forall a, fwd s1 a = if a =? v then Some r else fwd s a) as FW.
  { intros a. unfold fwd. rewrite H. destruct (Z.eqb_spec a v) as [->|N].
    - rewrite Y. reflexivity.
    - destruct (Z.eqb_spec a r) as [->|N']; [|reflexivity]. rewrite RN, R. reflexivity. }
  assert (fwd s v = None) as FN.
  { unfold fwd. rewrite U. destruct (Y0 _ _ V Y) as (_ & C & _). rewrite C. now rewrite andb_false_r. }
  split; [|split; [|split; [exact FW|exact FN]]].
  - destruct M. constructor; try congruence.
    + intros a c0 YA E. rewrite H. destruct (Z.eqb_spec a v) as [->|N].
      * right. rewrite V in E. injection E as <-. exists r, b. split; [reflexivity|]. unfold forwarded.
        rewrite H. destruct (Z.eqb_spec r v); [congruence|]. rewrite Z.eqb_refl. auto 10.
      * destruct (Z.eqb_spec a r) as [->|N']; [congruence|]. destruct (mi_young0 a c0 YA E) as [Q|(r' & b' & Q & W1 & W2 & W3 & W4 & W5 & W6)]; [now left|].
        right. exists r', b'. split; [exact Q|]. unfold forwarded. rewrite H. destruct (Z.eqb_spec r' v); [congruence|].
        destruct (Z.eqb_spec r' r) as [->|N2]; [congruence|]. auto 10.
    + intros a YA E. rewrite H. destruct (Z.eqb_spec a v); [congruence|]. destruct (Z.eqb_spec a r); [congruence|]. auto.
    + intros a a' x. rewrite !FW. intros A B.
      assert (forall y, fwd s y = Some r -> False) as NR.
      { intros y F. unfold fwd in F. destruct (hget (hp s) y) as [by_|] eqn:E; [|discriminate]. destruct (is_young y && color_eqb (col by_) Blue) eqn:Q; [|discriminate].
        destruct (hget (hp s0) y) as [b1|] eqn:E1.
        - apply andb_prop in Q as [Q1 Q2]. destruct (mi_young0 y b1 Q1 E1) as [Z1|(r' & b' & Z1 & W1 & W2 & W3 & _)].
          + rewrite E in Z1. injection Z1 as ->. destruct (Y0 _ _ E1 Q1) as (_ & C & _). rewrite C in Q2. discriminate.
          + rewrite E in Z1. injection Z1 as ->. cbn in F. injection F as ->. congruence.
        - apply andb_prop in Q as [Q1 _]. rewrite (mi_none0 y Q1 E1) in E. discriminate. }
      destruct (Z.eqb_spec a v) as [->|N], (Z.eqb_spec a' v) as [->|N']; try congruence.
      eapply mi_inj0; eauto.
    + intros a c0 YA E. rewrite H. destruct (Z.eqb_spec a v); [congruence|]. destruct (Z.eqb_spec a r); [congruence|]. auto.
    + intros a c YA E E0. rewrite H in E. destruct (Z.eqb_spec a v); [congruence|]. destruct (Z.eqb_spec a r) as [->|N].
      * exists v. now rewrite FW, Z.eqb_refl.
      * destruct (mi_new0 a c YA E E0) as (y & F). exists y. rewrite FW. destruct (Z.eqb_spec y v) as [->|N2]; [congruence|exact F].
    + intros c C. auto.
  - constructor.
    + intros [i|a i]; cbn; [now rewrite RO|]. intros (YA & c & E & I). split; [exact YA|]. exists c. rewrite H.
      destruct (Z.eqb_spec a v); [congruence|]. destruct (Z.eqb_spec a r); [congruence|]. auto.
    + intros a x F. rewrite FW. destruct (Z.eqb_spec a v); [congruence|exact F].
Qed.

Lemma put_forward_ok s v r b0 : hget (hp s) v = Some b0 -> 1 <= zlen (fs b0) ->
  put_forward v r s = Ret (set_hp s (hput (hp s) v (Blk Blue (tag b0) (r :: tl (fs b0))))).
Proof.
  intros E L. unfold put_forward. rewrite E. destruct (fs b0) as [|x l] eqn:F; [cbn in L; lia|].
  unfold zset. cbn [Z.ltb orb]. rewrite zlen_cons in *. destruct (Z.leb_spec (1 + zlen l) 0); [lia|]. reflexivity.
Qed.

(** the specification of oldify *)
Definition oldify_spec (k : nat) (old : loc -> Z -> st -> outcome st) : Prop := forall p v s,
  MI s -> okloc s p -> okv v -> (unfw s <= k)%nat ->
  old p v s = Raise FailExn \/
  exists s', old p v s = Ret s' /\ MI s' /\ (unfw s' <= unfw s)%nat /\ ext s s' /\ frame p s s' /\
    read s' p = Some (img s' v) /\ done s' v /\
    (forall a r, fwd s a = None -> fwd s' a = Some r -> complete s' a).

(** one field after another is filled in; [s] is the state before [v] was forwarded *)
Record filling (s : st) (p : loc) (v r : Z) (b0 : block) (k : nat) (i : Z) (si : st) : Prop := {
  f_mi : MI si;
  f_un : (unfw si <= k)%nat;
  f_un' : (unfw si <= unfw s)%nat;
  f_fwd : fwd si v = Some r;
  f_ext : ext s si;
  f_frame : frame p s si;
  f_p : read si p = Some r;
  f_done : forall j x, 0 <= j < i -> zget (fs b0) j = Some x -> read si (LField r j) = Some (img si x) /\ done si x;
  f_comp : forall a r', a <> v -> fwd s a = None -> fwd si a = Some r' -> complete si a
}.

Lemma filling_step k old s p v r b0 i si x : oldify_spec k old -> okloc s p -> hget (hp s) r = None -> is_young r = false ->
  hget (hp s0) v = Some b0 -> tag b0 < No_scan_tag ->
  is_young v = true -> fwd s v = None -> zget (fs b0) i = Some x -> filling s p v r b0 k i si ->
  old (LField r i) x si = Raise FailExn \/
  exists si', old (LField r i) x si = Ret si' /\ filling s p v r b0 k (i + 1) si'.
Proof.
  intros SP P RN RY V TG Y FN X F. destruct F as [M U U2 FW E FR RP D C].
  pose proof (zget_range _ _ _ X) as IR.
  assert (okloc si (LField r i)) as OL.
  { destruct (mi_fwd _ _ _ M FW) as (_ & c0 & b' & C0 & _ & W1 & _ & W3 & _ & _ & W6). rewrite V in C0. injection C0 as <-.
    split; [exact W1|]. exists b'. split; [exact W3|lia]. }
  assert (forall j, p <> LField r j) as PN.
  { intros j ->. destruct P as (_ & b & B & _). congruence. }
  destruct (SP (LField r i) x si M OL (V0 _ _ _ V Y TG (zget_In _ _ _ X)) U) as [H|(s' & H & M' & U' & E' & FR' & R' & D' & C')]; [now left|].
  right. exists s'. split; [exact H|]. constructor; auto.
  - lia.
  - lia.
  - exact (e_fwd _ _ E' _ _ FW).
  - now apply (ext_trans s si).
  - intros q N Q. rewrite FR'; [now apply FR| |now apply (e_loc _ _ E)].
    intros ->. destruct Q as (_ & b & B & _). congruence.
  - rewrite FR'; [exact RP|apply PN|now apply (e_loc _ _ E)].
  - intros j y J Z1. destruct (Z.eq_dec j i) as [->|N].
    + rewrite X in Z1. injection Z1 as <-. auto.
    + destruct (D j y ltac:(lia) Z1) as [D1 D2]. rewrite FR'.
      * rewrite (img_ext _ _ _ E' D2). split; [exact D1|now apply (done_ext si)].
      * congruence.
      * destruct OL as (O1 & ob & O2 & O3). split; [exact O1|]. exists ob. split; [exact O2|]. lia.
  - intros a r' N A B. destruct (fwd si a) as [ra|] eqn:FA.
    + apply (complete_ext si s' (LField r i) a); auto; [|now apply (C a ra)].
      intros r2 i2 F2 Q. rewrite FA in F2. injection F2 as <-. injection Q as <- _. apply N. eapply (mi_inj _ M); eauto.
    + now apply (C' a r').
Qed.

Lemma filling_loop k old s p v r b0 : oldify_spec k old -> okloc s p -> hget (hp s) r = None -> is_young r = false ->
  hget (hp s0) v = Some b0 -> tag b0 < No_scan_tag -> is_young v = true -> fwd s v = None ->
  forall n i si, 1 <= i -> i + Z.of_nat n <= zlen (fs b0) -> filling s p v r b0 k i si ->
  fields_loop old v r n i si = Raise FailExn \/
  exists si', fields_loop old v r n i si = Ret si' /\ filling s p v r b0 k (i + Z.of_nat n) si'.
Proof.
  intros SP P RN RY V TG Y FN. induction n as [|n IH]; intros i si I N F; cbn [fields_loop].
  - right. exists si. split; [reflexivity|]. now replace (i + Z.of_nat 0) with i by lia.
  - destruct (zget_some (fs b0) i ltac:(lia)) as (x & X).
    assert (read si (LField v i) = Some x) as RX.
    { destruct (mi_fwd _ _ _ (f_mi _ _ _ _ _ _ _ _ F) (f_fwd _ _ _ _ _ _ _ _ F)) as (_ & c0 & b' & C0 & H & _). rewrite V in C0. injection C0 as <-.
      cbn. rewrite H. cbn [fs]. destruct (fs b0) as [|y l]; [rewrite zget_none in X by (change (@zlen Z []) with 0; lia); discriminate|].
      cbn [tl]. rewrite zget_cons in *. destruct (Z.eqb_spec i 0); [lia|exact X]. }
    unfold rd. rewrite RX. cbn [bind].
    destruct (filling_step k old s p v r b0 i si x SP P RN RY V TG Y FN X F) as [H|(si' & H & F')].
    + left. now rewrite H.
    + rewrite H. cbn [bind]. replace (i + Z.of_nat (S n)) with (i + 1 + Z.of_nat n) by lia. apply IH; [lia|lia|exact F'].
Qed.

Lemma fields_loop_last old v r : forall n i s,
  (do s <- fields_loop old v r n i s; do x <- rd s (LField v (i + Z.of_nat n)); old (LField r (i + Z.of_nat n)) x s)
  = fields_loop old v r (S n) i s.
Proof.
  induction n as [|n IH]; intros i s.
  - cbn [fields_loop bind]. replace (i + Z.of_nat 0) with i by lia.
    destruct (rd s (LField v i)) as [x| | |]; cbn [bind]; try reflexivity. now destruct (old (LField r i) x s).
  - change (fields_loop old v r (S (S n)) i s) with
      (do x <- rd s (LField v i); do s <- old (LField r i) x s; fields_loop old v r (S n) (i + 1) s).
    change (fields_loop old v r (S n) i s) with
      (do x <- rd s (LField v i); do s <- old (LField r i) x s; fields_loop old v r n (i + 1) s).
    destruct (rd s (LField v i)) as [x| | |]; cbn [bind]; try reflexivity.
    destruct (old (LField r i) x s) as [s1| | |]; cbn [bind]; try reflexivity.
    rewrite <- (IH (i + 1) s1). replace (i + Z.of_nat (S n)) with (i + 1 + Z.of_nat n) by lia. reflexivity.
Qed.

Lemma oldify_ok : forall fuel, oldify_spec fuel (oldify (S fuel)).
Proof.
  induction fuel as [fuel IHf] using (well_founded_induction Wf_nat.lt_wf).
  intros p v s M P OV UN. cbn [Gc_Model.oldify]. fold (yb v).
  destruct (yb v) eqn:YB.
  2:{ right. destruct (wr_mi s p v M P) as (s' & W & M' & E & F & R & U & FW & _). exists s'.
      split; [exact W|]. split; [exact M'|]. split; [exact U|]. split; [exact E|]. split; [exact F|].
      split; [unfold img; now rewrite YB|]. split; [unfold done; congruence|]. intros a r A B. rewrite FW in B. congruence. }
  assert (is_young v = true) as Y by (unfold yb in YB; now apply andb_prop in YB).
  destruct (OV YB) as (b0 & V). destruct (Y0 _ _ V Y) as (EV & CB & LB & TW).
  destruct (mi_young _ M v b0 Y V) as [U|(r & b' & U & W)].
  2:{ (* already forwarded *)
      rewrite U. cbn [col]. cbn [color_eqb]. unfold rd. cbn [read]. rewrite U. cbn [fs zget]. change (zget (r :: tl (fs b0)) 0) with (Some r). cbn [bind].
      right. destruct (wr_mi s p r M P) as (s' & W' & M' & E & F & R & UU & FW & _). exists s'.
      assert (fwd s' v = Some r) as FV by (rewrite FW; unfold fwd; rewrite U, Y; reflexivity).
      split; [exact W'|]. split; [exact M'|]. split; [exact UU|]. split; [exact E|]. split; [exact F|].
      split; [unfold img; rewrite YB, FV; exact R|]. split; [unfold done; rewrite FV; discriminate|]. intros a r' A B. rewrite FW in B. congruence. }
  rewrite U, CB. cbn [color_eqb].
  assert (col b0 <> Blue) as NB by congruence.
  destruct (No_scan_tag <=? tag b0) eqn:TG.
  - (* data *)
    destruct (alloc_mi s (zlen (fs b0)) (tag b0) M LB) as [A|(r & s1 & junk & A & RY & RN & JL & HP1 & LY1 & G1 & T1 & GL1 & YP1 & RO1 & CH1)].
    { left. rewrite A. reflexivity. }
    rewrite A. cbn [bind]. rewrite HP1, hget_hput_same. cbn [set_fs col tag].
    set (s2 := set_hp s1 _). 
    assert (v <> r) as NVR by congruence.
    assert (hget (hp s2) v = Some b0) as V2.
    { unfold s2. cbn [hp set_hp]. rewrite !hget_hput_other by exact NVR. exact U. }
    rewrite (put_forward_ok s2 v r b0 V2 LB). cbn [bind].
    set (s3 := set_hp s2 _).
    destruct (forward_mi s r b0 v (fs b0) s3 M V Y U RY RN eq_refl) as (M3 & E3 & F3 & FN).
    { intros a. unfold s3, s2. cbn [hp set_hp]. rewrite !hget_hput. destruct (a =? v); [reflexivity|]. now destruct (a =? r). }
    { eapply layout_same; [exact LY1|reflexivity|]. intros a b2 YA. unfold s3, s2. cbn [hp set_hp]. rewrite HP1, !hget_hput.
      destruct (Z.eqb_spec a v); [congruence|]. destruct (Z.eqb_spec a r); intros Q; injection Q as <- || idtac.
      - eexists. split; [reflexivity|]. cbn. lia.
      - eauto. }
    all: try (unfold s3, s2; cbn; assumption).
    { unfold s3, s2. cbn. now rewrite RO1. }
    right. assert (okloc s3 p) as P3 by now apply (e_loc _ _ E3).
    destruct (wr_mi s3 p r M3 P3) as (s' & W' & M' & E & F & R & UU & FW & YSS). exists s'.
    assert (fwd s' v = Some r) as FV by (rewrite FW, F3, Z.eqb_refl; reflexivity).
    split; [exact W'|]. split; [exact M'|]. split.
    { assert (unfw s3 <= unfw s)%nat; [|lia]. unfold s3, s2, unfw. cbn [hp set_hp]. unfold hput at 1. cbn [filter fst snd col]. rewrite andb_false_r.
      etransitivity; [apply unfw_le|]. unfold hput at 1. cbn [filter fst]. rewrite RY. cbn [andb]. etransitivity; [apply unfw_le|].
      unfold hput. cbn [filter fst]. rewrite RY. cbn [andb]. apply unfw_le. }
    split; [now apply (ext_trans s s3)|]. split.
    { intros q N Q. rewrite F; [|exact N|now apply (e_loc _ _ E3)]. destruct q as [i|a i]; cbn.
      - unfold s3, s2. cbn. now rewrite RO1.
      - destruct Q as (YA & bq & Bq & _). unfold s3, s2. cbn [hp set_hp]. rewrite !hget_hput.
        destruct (Z.eqb_spec a v); [congruence|]. destruct (Z.eqb_spec a r); [congruence|]. reflexivity. }
    split; [unfold img; now rewrite YB, FV|]. split; [unfold done; rewrite FV; discriminate|].
    intros a ra A1 A2. rewrite FW, F3 in A2. destruct (Z.eqb_spec a v) as [->|N]; [|congruence].
    intros c0 C0. rewrite V in C0. injection C0 as <-.
    destruct (mi_fwd _ _ _ M' FV) as (_ & c0 & b' & C0 & _ & W1 & _ & W3 & _ & _ & W6). rewrite V in C0. injection C0 as <-.
    exists r, b'. split; [exact FV|]. split; [exact W3|].
    destruct (Z.ltb_spec (tag b0) No_scan_tag); [lia|].
    apply list_ext. intros k. destruct (Z_lt_dec k 0) as [Nk|Nk]; [rewrite !zget_none by lia; reflexivity|].
    destruct (Z_lt_dec k (zlen (fs b'))) as [Nk'|Nk']; [|rewrite !zget_none by lia; reflexivity].
    assert (hget (hp s3) r = Some (Blk (alloc_color (gc s0) r) (tag b0) (fs b0))) as RB.
    { unfold s3, s2. cbn [hp set_hp]. rewrite !hget_hput. destruct (Z.eqb_spec r v); [congruence|]. now rewrite Z.eqb_refl. }
    clearbody s3. specialize (F (LField r k)). cbn [read] in F. rewrite W3, RB in F. cbn [fs] in F. apply F.
    + intros <-. destruct P as (_ & bp & Bp & _). congruence.
    + split; [exact W1|]. eexists. split; [exact RB|]. cbn. lia.
  - (* values *)
    assert (tag b0 < No_scan_tag) as TG' by lia.
    destruct (zget_some (fs b0) 0 ltac:(lia)) as (x0 & X0).
    assert (rd s (LField v 0) = Ret x0) as RX0 by (unfold rd; cbn [read]; rewrite U, X0; reflexivity).
    rewrite !RX0. cbn [bind].
    destruct (alloc_mi s (zlen (fs b0)) (tag b0) M LB) as [A|(r & s1 & junk & A & RY & RN & JL & HP1 & LY1 & G1 & T1 & GL1 & YP1 & RO1 & CH1)].
    { left. rewrite A. reflexivity. }
    rewrite A. cbn [bind].
    assert (v <> r) as NVR by congruence.
    (* *p = result, then the forward mark *)
    assert (okloc s1 p) as P1.
    { destruct p as [i|a i]; cbn in *; [now rewrite RO1|]. destruct P as (YA & b & B & I). split; [exact YA|]. exists b. rewrite HP1, hget_hput_other by congruence. auto. }
    destruct (wr_ok young_start young_end s1 p r P1) as (s2 & W2 & G2 & T2 & GL2 & YP2 & CH2 & TI2 & R2 & RD2 & BL2).
    rewrite W2. cbn [bind].
    assert (hget (hp s2) v = Some b0) as V2.
    { specialize (BL2 v). rewrite HP1, hget_hput_other, U in BL2 by exact NVR. destruct BL2 as (b' & B1 & _ & _ & _ & B5). now rewrite (B5 Y) in B1. }
    rewrite (put_forward_ok s2 v r b0 V2 LB). cbn [bind]. set (s3 := set_hp s2 _).
    (* the same state, seen as: forward first, write afterwards *)
    set (h3 := hput (hput (hp s) r (Blk (alloc_color (gc s0) r) (tag b0) junk)) v (Blk Blue (tag b0) (r :: tl (fs b0)))).
    destruct (forward_mi s r b0 v junk (set_hp s1 h3) M V Y U RY RN JL) as (M3 & E3 & F3 & FN).
    { intros a. cbn [hp set_hp]. unfold h3. rewrite !hget_hput. reflexivity. }
    { eapply layout_same; [exact LY1|reflexivity|]. intros a b2 YA. cbn [hp set_hp]. unfold h3. rewrite HP1, !hget_hput.
      destruct (Z.eqb_spec a v); [congruence|]. destruct (Z.eqb_spec a r); eauto. }
    all: try (cbn; assumption).
    { cbn. now rewrite RO1. }
    set (sf := set_hp s1 h3) in *.
    assert (okloc sf p) as Pf by now apply (e_loc _ _ E3).
    destruct (wr_mi sf p r M3 Pf) as (s4 & W4 & M4 & E4 & FR4 & R4 & U4 & FW4 & YS4).
    assert (MI s3 /\ ext s s3 /\ frame p s s3 /\ read s3 p = Some r /\ (forall a, fwd s3 a = if a =? v then Some r else fwd s a)) as (M5 & E5 & FR5 & RP5 & FW5).
    { assert (forall a, hget (hp s3) a = hget (hp s4) a) as HE.
      { intros a. unfold s3. cbn [hp set_hp]. destruct p as [i|ap i]; cbn in W2, W4.
        - destruct (zset (roots s1) i r) as [l|]; [|discriminate]. injection W2 as <-. injection W4 as <-. cbn. unfold h3. now rewrite HP1.
        - destruct P as (YP & bp & BP & IP).
          assert (hget (hp s1) ap = Some bp) as Q1 by (rewrite HP1, hget_hput_other; congruence).
          assert (hget h3 ap = Some bp) as Q2 by (unfold h3; rewrite !hget_hput_other; congruence).
          rewrite Q1 in W2. rewrite Q2 in W4. destruct (zset (fs bp) i r) as [l|]; [|discriminate].
          injection W2 as <-. injection W4 as <-. cbn [hp set_hp]. unfold h3. rewrite HP1, !hget_hput.
          destruct (Z.eqb_spec a v), (Z.eqb_spec a ap); try reflexivity; congruence. }
      assert (roots s3 = roots s4 /\ gc s3 = gc s4 /\ tab s3 = tab s4 /\ globals s3 = globals s4 /\ young_ptr s3 = young_ptr s4 /\ chunks s3 = chunks s4) as (Q1 & Q2 & Q3 & Q4 & Q5 & Q6).
      { unfold s3. destruct p as [i|ap i]; cbn in W2, W4.
        - destruct (zset (roots s1) i r) as [l|]; [|discriminate]. injection W2 as <-. injection W4 as <-. cbn. auto 10.
        - destruct (hget (hp s1) ap); [|discriminate]. destruct (zset _ i r) in W2; [|discriminate]. injection W2 as <-.
          destruct (hget h3 ap); [|discriminate]. destruct (zset _ i r) in W4; [|discriminate]. injection W4 as <-. cbn. auto 10. }
      assert (forall q, read s3 q = read s4 q) as RE.
      { intros [i|a i]; cbn [read]; [now rewrite Q1|now rewrite HE]. }
      assert (forall a, fwd s3 a = fwd s4 a) as FE by (intros a; unfold fwd; now rewrite HE).
      assert (forall q, okloc s4 q <-> okloc s3 q) as OE.
      { intros [i|a i]; cbn [Gc_Heap.okloc]; [now rewrite Q1|]. now rewrite HE. }
      split; [|split; [|split; [|split]]].
      - destruct M4. constructor; try congruence.
        + intros a c0 YA C0. rewrite HE. destruct (mi_young0 a c0 YA C0) as [Q|(r' & b' & Q & WW)]; [now left|]. right. exists r', b'.
          split; [exact Q|]. unfold forwarded in *. now rewrite HE.
        + intros a YA C0. rewrite HE. auto.
        + intros a a' x. rewrite !FE. apply mi_inj0.
        + intros a c0 YA C0. rewrite HE. auto.
        + intros a b YA B C0. rewrite HE in B. destruct (mi_new0 a b YA B C0) as (y & Fy). exists y. now rewrite FE.
        + eapply layout_same; [exact mi_lay0|exact Q6|]. intros a b2 YA. rewrite HE. eauto.
        + now rewrite Q6.
      - apply (ext_trans s sf); [exact E3|]. destruct E4 as [E41 E42]. constructor.
        + intros q Q. apply OE. now apply E41.
        + intros a x Q. rewrite FE. now apply E42.
      - intros q N Q. rewrite RE, FR4; [|exact N|now apply (e_loc _ _ E3)]. unfold sf. destruct q as [i|a i]; cbn [read roots hp set_hp].
        + now rewrite RO1.
        + destruct Q as (YA & bq & Bq & _). unfold h3. rewrite !hget_hput. destruct (Z.eqb_spec a v); [congruence|]. destruct (Z.eqb_spec a r); [congruence|]. reflexivity.
      - now rewrite RE.
      - intros a. now rewrite FE, FW4. }
    destruct fuel as [|fuel].
    { (* no young block left: impossible *)
      exfalso. unfold unfw in UN. pose proof (unfw_lt (hp s) v b0 U Y NB). lia. }
    assert (oldify_spec fuel (oldify (S fuel))) as SP by (apply IHf; lia).
    assert (unfw s3 < unfw s)%nat as UN3.
    { unfold s3, unfw. cbn [hp set_hp]. unfold hput at 1. cbn [filter fst snd col]. rewrite andb_false_r.
      apply Nat.le_lt_trans with (length (filter (fun e => is_young (fst e) && negb (color_eqb (col (snd e)) Blue)) (hdel (hput (hp s) r (Blk (alloc_color (gc s0) r) (tag b0) junk)) v))).
      - destruct p as [i|ap i]; cbn in W2.
        + destruct (zset (roots s1) i r); [|discriminate]. injection W2 as <-. cbn [hp set_roots]. rewrite HP1. lia.
        + destruct P as (YP & bp & BP & IP). destruct (hget (hp s1) ap) as [b1|]; [|discriminate]. destruct (zset (fs b1) i r); [|discriminate].
          injection W2 as <-. cbn [hp set_hp]. rewrite HP1. unfold hput at 1. rewrite hdel_cons. destruct (Z.eqb_spec ap v); [congruence|].
          cbn [filter fst]. rewrite YP. cbn [andb].
          rewrite hdel_comm. apply unfw_le.
      - unfold hput. rewrite hdel_cons. destruct (Z.eqb_spec r v); [congruence|]. cbn [filter fst]. rewrite RY. cbn [andb].
        assert (forall (h : heap) x y, x <> y -> hget (hdel h x) y = hget h y) as HD by (intros h x y N; rewrite hget_hdel; destruct (Z.eqb_spec y x); congruence).
        apply Nat.lt_le_trans with (length (filter (fun e => is_young (fst e) && negb (color_eqb (col (snd e)) Blue)) (hdel (hp s) r))); [|apply unfw_le].
        apply (unfw_lt (hdel (hp s) r) v b0); auto. rewrite HD; congruence. }
    assert (filling s p v r b0 fuel 0 s3) as F0.
    { constructor; auto; try lia.
      - rewrite FW5, Z.eqb_refl. reflexivity.
      - intros a r' N A1 A2. rewrite FW5 in A2. destruct (Z.eqb_spec a v); congruence. }
    clearbody s3.
    assert (forall si, filling s p v r b0 fuel (zlen (fs b0)) si ->
      MI si /\ (unfw si <= unfw s)%nat /\ ext s si /\ frame p s si /\ read si p = Some (img si v) /\ done si v /\
      (forall a r, fwd s a = None -> fwd si a = Some r -> complete si a)) as FINAL.
    { intros si Fi. pose proof (f_fwd _ _ _ _ _ _ _ _ Fi) as FVi. pose proof (f_mi _ _ _ _ _ _ _ _ Fi) as Mi.
      split; [exact Mi|]. split; [apply Fi|].
      split; [apply Fi|]. split; [apply Fi|]. split; [unfold img; rewrite YB, FVi; apply Fi|]. split; [unfold done; rewrite FVi; discriminate|].
      intros a ra A1 A2. destruct (Z.eq_dec a v) as [->|N]; [|eapply (f_comp _ _ _ _ _ _ _ _ Fi); eauto].
      intros c0 C0. rewrite V in C0. injection C0 as <-.
      destruct (mi_fwd _ _ _ Mi FVi) as (_ & c0 & b' & C0 & _ & W1 & _ & W3 & _ & _ & W6). rewrite V in C0. injection C0 as <-.
      exists r, b'. split; [exact FVi|]. split; [exact W3|]. destruct (Z.ltb_spec (tag b0) No_scan_tag); [|lia]. split.
      - apply list_ext. intros k. destruct (Z_lt_dec k 0) as [Nk|Nk]; [rewrite !zget_none by lia; reflexivity|].
        destruct (Z_lt_dec k (zlen (fs b0))) as [Nk'|Nk'].
        + destruct (zget_some (fs b0) k ltac:(lia)) as (x & X). destruct (f_done _ _ _ _ _ _ _ _ Fi k x ltac:(lia) X) as [Q _].
          cbn in Q. rewrite W3 in Q. rewrite Q. symmetry. unfold zget in *. destruct (k <? 0); [discriminate|]. now apply map_nth_error.
        + rewrite !zget_none; [reflexivity| |lia]. unfold zlen in *. rewrite map_length. lia.
      - apply Forall_forall. intros x X. destruct (In_zget _ _ X) as (k & K). pose proof (zget_range _ _ _ K).
        now destruct (f_done _ _ _ _ _ _ _ _ Fi k x ltac:(lia) K). }
    destruct (filling_step fuel (oldify (S fuel)) s p v r b0 0 s3 x0 SP P RN RY V TG' Y FN X0 F0) as [H|(s6 & H & F6)].
    { left. destruct (zlen (fs b0) =? 1); [exact H|]. rewrite H. reflexivity. }
    destruct (Z.eqb_spec (zlen (fs b0)) 1) as [S1|S1].
    { right. exists s6. split; [exact H|]. apply FINAL. rewrite S1. exact F6. }
    rewrite H. cbn [bind].
    pose proof (fields_loop_last (oldify (S fuel)) v r (Z.to_nat (zlen (fs b0) - 2)) 1 s6) as FL.
    replace (1 + Z.of_nat (Z.to_nat (zlen (fs b0) - 2))) with (zlen (fs b0) - 1) in FL by lia. rewrite FL.
    destruct (filling_loop fuel (oldify (S fuel)) s p v r b0 SP P RN RY V TG' Y FN (S (Z.to_nat (zlen (fs b0) - 2))) 1 s6 ltac:(lia) ltac:(lia) F6) as [H'|(s7 & H' & F7)].
    { left. exact H'. }
    right. exists s7. split; [exact H'|]. apply FINAL.
    replace (1 + Z.of_nat (S (Z.to_nat (zlen (fs b0) - 2)))) with (zlen (fs b0)) in F7 by lia. exact F7.
Qed.

(** ** The whole collection *)
Definition all_complete (s : st) : Prop := forall a r, fwd s a = Some r -> complete s a.
(** a root, or a field of a block that was there at the start *)
Definition oldloc (p : loc) : Prop := match p with LRoot _ => True | LField a _ => hget (hp s0) a <> None end.

Lemma visit k p v s : MI s -> all_complete s -> okloc s p -> oldloc p -> okv v -> (unfw s <= k)%nat ->
  oldify (S k) p v s = Raise FailExn \/
  exists s', oldify (S k) p v s = Ret s' /\ MI s' /\ all_complete s' /\ ext s s' /\ frame p s s' /\
    read s' p = Some (img s' v) /\ done s' v /\ (unfw s' <= k)%nat.
Proof.
  intros M C P O V U. destruct (oldify_ok k p v s M P V U) as [H|(s' & H & M' & U' & E & F & R & D & N)]; [now left|].
  right. exists s'. split; [exact H|]. split; [exact M'|]. split; [|split; [exact E|split; [exact F|split; [exact R|split; [exact D|lia]]]]].
  intros a r FA. destruct (fwd s a) as [r0|] eqn:F0.
  - apply (complete_ext s s' p a); eauto. intros r1 i F1 ->. destruct (mi_fwd _ _ _ M F1) as (_ & b0 & b' & _ & _ & _ & W & _).
    cbn in O. congruence.
  - eapply N; eauto.
Qed.

Record roots_done (i : Z) (s : st) : Prop := {
  rd_before : forall j x, 0 <= j < i -> zget (roots s0) j = Some x -> read s (LRoot j) = Some (img s x) /\ done s x;
  rd_after : forall j, i <= j -> read s (LRoot j) = zget (roots s0) j;
  rd_fields : forall a b0, is_young a = false -> hget (hp s0) a = Some b0 -> forall j, read s (LField a j) = zget (fs b0) j
}.

Hypothesis R0 : forall v, In v (roots s0) -> okv v.
Lemma roots_ok k : forall n i s, MI s -> all_complete s -> (unfw s <= k)%nat -> 0 <= i -> i + Z.of_nat n = zlen (roots s0) ->
  roots_done i s ->
  oldify_roots young_start young_end alloc_at (S k) n i s = Raise FailExn \/
  exists s', oldify_roots young_start young_end alloc_at (S k) n i s = Ret s' /\ MI s' /\ all_complete s' /\ (unfw s' <= k)%nat /\
    roots_done (zlen (roots s0)) s'.
Proof.
  induction n as [|n IH]; intros i s M C U I N RD.
  - right. exists s. cbn [oldify_roots]. replace (zlen (roots s0)) with i by lia. auto 10.
  - cbn [oldify_roots]. destruct (zget_some (roots s0) i ltac:(lia)) as (v & V).
    assert (read s (LRoot i) = Some v) as RV by (rewrite (rd_after _ _ RD) by lia; exact V).
    unfold rd. rewrite RV. cbn [bind].
    assert (okloc s (LRoot i)) as P by (cbn; rewrite (mi_roots _ M); lia).
    destruct (visit k (LRoot i) v s M C P Logic.I (R0 _ (zget_In _ _ _ V)) U) as [H|(s' & H & M' & C' & E & F & R & D & U')].
    { left. now rewrite H. }
    rewrite H. cbn [bind]. apply IH; auto; try lia. destruct RD as [R1 R2 R3]. constructor.
    + intros j x J X. destruct (Z.eq_dec j i) as [->|NJ].
      * rewrite V in X. injection X as <-. auto.
      * destruct (R1 j x ltac:(lia) X) as [Q1 Q2]. rewrite F; [|congruence|cbn; rewrite (mi_roots _ M); lia].
        rewrite (img_ext _ _ _ E Q2). split; [exact Q1|now apply (done_ext s)].
    + intros j J. destruct (Z_lt_dec j (zlen (roots s0))) as [L|L].
      * rewrite F; [apply R2; lia|intros Q; injection Q; lia|cbn; rewrite (mi_roots _ M); lia].
      * cbn. rewrite !zget_none; [reflexivity|lia|rewrite (mi_roots _ M'); lia].
    + intros a b0 Y A j. destruct (mi_old _ M a b0 Y A) as (b & B1 & _ & _ & B4). destruct (mi_old _ M' a b0 Y A) as (b' & B1' & _ & _ & B4').
      destruct (Z_lt_dec j 0); [cbn; rewrite B1', !zget_none by lia; reflexivity|].
      destruct (Z_lt_dec j (zlen (fs b0))); [|cbn; rewrite B1', !zget_none by lia; reflexivity].
      rewrite F; [now apply R3|discriminate|]. split; [exact Y|]. exists b. split; [exact B1|lia].
Qed.

Record refs_done (P : list (Z * Z)) (s : st) : Prop := {
  rf_roots : forall j x, zget (roots s0) j = Some x -> read s (LRoot j) = Some (img s x) /\ done s x;
  rf_in : forall a b0 j x, is_young a = false -> hget (hp s0) a = Some b0 -> zget (fs b0) j = Some x -> In (a, j) P ->
    read s (LField a j) = Some (img s x) /\ done s x;
  rf_out : forall a b0 j, is_young a = false -> hget (hp s0) a = Some b0 -> ~ In (a, j) P -> read s (LField a j) = zget (fs b0) j
}.

Lemma img_old s v : MI s -> done s v -> yb (img s v) = false.
Proof.
  intros M D. unfold img. destruct (yb v) eqn:Y; [|exact Y]. specialize (D Y). destruct (fwd s v) as [r|] eqn:F; [|congruence].
  destruct (mi_fwd _ _ _ M F) as (_ & b0 & b' & _ & _ & W & _). unfold yb. rewrite W. apply andb_false_r.
Qed.
Lemma img_not s v : yb v = false -> img s v = v.
Proof. intros Y. unfold img. now rewrite Y. Qed.

Lemma pair_dec (x y : Z * Z) : {x = y} + {x <> y}.
Proof. decide equality; apply Z.eq_dec. Qed.

Hypothesis T0 : forall a i, In (a, i) (rt (tab s0)) -> is_young a = false /\
  exists b0 x, hget (hp s0) a = Some b0 /\ tag b0 <= Weak_tag /\ zget (fs b0) i = Some x /\ okv x.
Lemma refs_ok k : forall l P s, MI s -> all_complete s -> (unfw s <= k)%nat -> incl l (rt (tab s0)) -> refs_done P s ->
  oldify_refs young_start young_end alloc_at (S k) l s = Raise FailExn \/
  exists s', oldify_refs young_start young_end alloc_at (S k) l s = Ret s' /\ MI s' /\ all_complete s' /\
    exists P', refs_done P' s' /\ (forall e, In e P' <-> In e P \/ In e l).
Proof.
  induction l as [|[a i] l IH]; intros P s M C U IN RF.
  - right. exists s. cbn [oldify_refs]. split; [reflexivity|]. split; [exact M|]. split; [exact C|]. exists P. split; [exact RF|].
    intros e. cbn. tauto.
  - cbn [oldify_refs]. destruct (T0 a i (IN _ (or_introl eq_refl))) as (Y & b0 & x & A & TG & X & OX).
    pose proof (zget_range _ _ _ X) as XR.
    destruct (mi_old _ M a b0 Y A) as (b & B1 & B2 & B3 & B4).
    assert (okloc s (LField a i)) as PL by (split; [exact Y|]; exists b; split; [exact B1|lia]).
    assert (exists v, read s (LField a i) = Some v /\ okv v /\ forall s', ext s s' -> MI s' -> done s' v -> read s' (LField a i) = Some (img s' v) ->
        read s' (LField a i) = Some (img s' x) /\ done s' x) as (v & RV & OV & FIN).
    { destruct (in_dec pair_dec (a, i) P) as [I|I].
      - destruct (rf_in _ _ RF a b0 i x Y A X I) as [R D]. exists (img s x). split; [exact R|].
        pose proof (img_old _ _ M D) as IO. split; [unfold okv; congruence|]. intros s' E M' D' R'. rewrite (img_not s' _ IO) in R'.
        rewrite (img_ext _ _ _ E D). split; [exact R'|now apply (done_ext s)].
      - exists x. rewrite (rf_out _ _ RF a b0 i Y A I). auto. }
    unfold rd. rewrite RV. cbn [bind].
    destruct (visit k (LField a i) v s M C PL ltac:(cbn; congruence) OV U) as [H|(s' & H & M' & C' & E & F & R & D & U')].
    { left. now rewrite H. }
    rewrite H. cbn [bind]. destruct (FIN s' E M' D R) as [R' D'].
    assert (refs_done ((a, i) :: P) s') as RF'.
    { destruct RF as [F1 F2 F3]. constructor.
      - intros j y Z1. destruct (F1 j y Z1) as [Q1 Q2]. rewrite F; [|discriminate|pose proof (zget_range _ _ _ Z1); cbn; rewrite (mi_roots _ M); lia].
        rewrite (img_ext _ _ _ E Q2). split; [exact Q1|now apply (done_ext s)].
      - intros a' b0' j y Y' A' Z1 I'. destruct (pair_dec (a', j) (a, i)) as [Q|Q].
        + injection Q as -> ->. rewrite A in A'. injection A' as <-. rewrite X in Z1. injection Z1 as <-. auto.
        + destruct I' as [I'|I']; [congruence|]. destruct (F2 a' b0' j y Y' A' Z1 I') as [Q1 Q2].
          destruct (mi_old _ M a' b0' Y' A') as (b' & B1' & _ & _ & B4'). pose proof (zget_range _ _ _ Z1).
          rewrite F; [|congruence|split; [exact Y'|]; exists b'; split; [exact B1'|lia]].
          rewrite (img_ext _ _ _ E Q2). split; [exact Q1|now apply (done_ext s)].
      - intros a' b0' j Y' A' NI.
        destruct (mi_old _ M a' b0' Y' A') as (b' & B1' & _ & _ & B4'). destruct (mi_old _ M' a' b0' Y' A') as (b2 & B12 & _ & _ & B42).
        destruct (Z_lt_dec j 0); [cbn; rewrite B12, !zget_none by lia; reflexivity|].
        destruct (Z_lt_dec j (zlen (fs b0'))); [|cbn; rewrite B12, !zget_none by lia; reflexivity].
        rewrite F; [apply F3; auto; intros Q; apply NI; now right|intros Q; apply NI; left; congruence|].
        split; [exact Y'|]. exists b'. split; [exact B1'|lia]. }
    destruct (IH ((a, i) :: P) s' M' C' U' (fun e Q => IN e (or_intror Q)) RF') as [H2|(s2 & H2 & M2 & C2 & P' & RF2 & IN2)]; [now left|].
    right. exists s2. split; [exact H2|]. split; [exact M2|]. split; [exact C2|]. exists P'. split; [exact RF2|].
    intros e. rewrite IN2. cbn. tauto.
Qed.

(** What a minor collection does, [f] saying where values have gone. *)
Definition copied (s' : st) (f : Z -> Z) (v : Z) (b b' : block) : Prop :=
  hget (hp s0) v = Some b /\ hget (hp s') (f v) = Some b' /\ is_young (f v) = false /\ hget (hp s0) (f v) = None /\
  tag b' = tag b /\ col b' = alloc_color (gc s0) (f v) /\ fs b' = if tag b <? No_scan_tag then map f (fs b) else fs b.
Definition moved (s' : st) (f : Z -> Z) (v : Z) : Prop := yb v = true -> exists b b', copied s' f v b b'.
Record minor_result (s' : st) (f : Z -> Z) : Prop := {
  mr_roots : roots s' = map f (roots s0);
  mr_globals : globals s' = globals s0;
  mr_id : forall v, yb v = false -> f v = v;
  mr_old : forall a b, is_young a = false -> hget (hp s0) a = Some b ->
    hget (hp s') a = Some (Blk (col b) (tag b) (if tag b <=? Weak_tag then map f (fs b) else fs b));
  mr_new : forall a b', hget (hp s') a = Some b' -> hget (hp s0) a = None -> exists v b, is_young v = true /\ f v = a /\ copied s' f v b b';
  mr_none : forall a, is_young a = true -> hget (hp s') a = None;
  mr_moved_roots : forall v, In v (roots s0) -> moved s' f v;
  mr_moved_old : forall a b v, is_young a = false -> hget (hp s0) a = Some b -> tag b <= Weak_tag -> In v (fs b) -> moved s' f v;
  mr_moved_new : forall a b b' v, is_young a = true -> copied s' f a b b' -> tag b < No_scan_tag -> In v (fs b) -> moved s' f v;
  mr_inj : forall v w b b' c c', is_young v = true -> is_young w = true -> copied s' f v b b' -> copied s' f w c c' -> f v = f w -> v = w;
  mr_layout : layout s';
  mr_gc : gc s' = gc s0;
  mr_ptr : young_ptr s' = young_start;
  mr_tab : tab s' = Tab [] (rt_size (tab s0)) (rt_reserve (tab s0)) (rt_size (tab s0));
  mr_chunks : incl (chunks s0) (chunks s')
}.

Hypothesis L0 : layout s0.
Hypothesis W0 : forall a b i x, is_young a = false -> hget (hp s0) a = Some b -> tag b <= Weak_tag ->
  zget (fs b) i = Some x -> yb x = true -> In (a, i) (rt (tab s0)).

Lemma mi_start : MI s0.
Proof.
  assert (forall a, fwd s0 a = None) as FN.
  { intros a. unfold fwd. destruct (hget (hp s0) a) as [b|] eqn:E; [|reflexivity]. destruct (is_young a) eqn:Y; [|reflexivity].
    destruct (Y0 _ _ E Y) as (_ & -> & _). reflexivity. }
  constructor; auto; try congruence.
  - intros a b0 Y A. exists b0. auto.
Qed.

Lemma minor_ok fuel : (unfw s0 < fuel)%nat ->
  minor_collection young_start young_end alloc_at fuel s0 = Raise FailExn \/
  exists s' f, minor_collection young_start young_end alloc_at fuel s0 = Ret s' /\ minor_result s' f.
Proof.
  intros FU. destruct fuel as [|k]; [lia|]. unfold minor_collection.
  pose proof mi_start as M0.
  assert (forall a, fwd s0 a = None) as FN.
  { intros a. destruct (fwd s0 a) as [r|] eqn:F; [|reflexivity]. destruct (mi_fwd _ _ _ M0 F) as (Y & b0 & b' & A & B & _).
    destruct (Y0 _ _ A Y) as (_ & Q & _). rewrite A in B. injection B as B. rewrite B in Q. discriminate. }
  assert (all_complete s0) as C0 by (intros a r F; congruence).
  assert (roots_done 0 s0) as RD0.
  { constructor; auto; [intros j x J; lia|]. intros a b0 Y A j. cbn. now rewrite A. }
  destruct (roots_ok k (length (roots s0)) 0 s0 M0 C0 ltac:(lia) ltac:(lia) eq_refl RD0) as [H|(s1 & H & M1 & C1 & U1 & RD1)].
  { left. now rewrite H. }
  rewrite H. cbn [bind].
  assert (refs_done [] s1) as RF1.
  { destruct RD1 as [A B C]. constructor; auto.
    - intros j x X. apply A; [|exact X]. now apply zget_range in X.
    - intros a b0 j x _ _ _ []. }
  rewrite (mi_tab _ M1).
  destruct (refs_ok k (rt (tab s0)) [] s1 M1 C1 U1 (incl_refl _) RF1) as [H2|(s2 & H2 & M2 & C2 & P & RF2 & IN2)].
  { left. now rewrite H2. }
  rewrite H2. cbn [bind]. right. set (s3 := set_tab _ _). exists s3, (img s2). split; [reflexivity|].
  assert (forall a, hget (hp s3) a = if is_young a then None else hget (hp s2) a) as H3.
  { intros a. unfold s3. cbn [hp set_tab set_young_ptr set_hp]. rewrite (hget_filter (fun x => negb (is_young x))). now destruct (is_young a). }
  assert (forall v, is_young v = true -> fwd s2 v <> None -> exists b b', copied s3 (img s2) v b b' /\ fwd s2 v = Some (img s2 v) /\ (tag b < No_scan_tag -> Forall (done s2) (fs b))) as CP.
  { intros v Y F. destruct (fwd s2 v) as [r|] eqn:FV; [|congruence]. destruct (mi_fwd _ _ _ M2 FV) as (_ & b0 & b' & A & B & W1 & W2 & W3 & W4 & W5 & W6).
    assert (img s2 v = r) as IV.
    { unfold img, yb. destruct (Y0 _ _ A Y) as (EV & _). unfold is_block. rewrite EV, Y, FV. reflexivity. }
    destruct (C2 v r FV b0 A) as (r' & b2 & F2 & G2 & K). assert (r' = r) as -> by congruence. assert (b2 = b') as -> by congruence.
    exists b0, b'. rewrite IV. split; [|split; [reflexivity|]].
    - unfold copied. rewrite IV, H3, W1. repeat (split; [assumption|]). destruct (tag b0 <? No_scan_tag); tauto.
    - intros T. destruct (Z.ltb_spec (tag b0) No_scan_tag); [tauto|lia]. }
  assert (forall v, done s2 v -> moved s3 (img s2) v) as DM.
  { intros v D Y. destruct (CP v) as (b & b' & Q & _); [unfold yb in Y; now apply andb_prop in Y|now apply D|]. eauto. }
  assert (forall v b b', is_young v = true -> copied s3 (img s2) v b b' -> fwd s2 v <> None) as CF.
  { intros v b b' Y (A1 & A2 & A3 & _) F. unfold img in A3. rewrite F in A3. destruct (yb v); congruence. }
  assert (forall a b i x, is_young a = false -> hget (hp s0) a = Some b -> zget (fs b) i = Some x -> tag b <= Weak_tag ->
     read s2 (LField a i) = Some (img s2 x) /\ done s2 x) as OF.
  { intros a b i x Y A X T. destruct (in_dec pair_dec (a, i) P) as [I|I].
    - eapply (rf_in _ _ RF2); eauto.
    - assert (yb x = false) as YX.
      { destruct (yb x) eqn:YX; [|reflexivity]. elim I. apply IN2. right. eapply W0; eauto. }
      rewrite (rf_out _ _ RF2 a b i Y A I), (img_not _ _ YX). split; [exact X|]. unfold done. congruence. }
  constructor.
  - change (roots s3) with (roots s2). apply list_ext. intros j.
    destruct (Z_lt_dec j 0) as [N|N]; [rewrite !zget_none by lia; reflexivity|].
    destruct (Z_lt_dec j (zlen (roots s0))) as [N'|N'].
    + destruct (zget_some (roots s0) j ltac:(lia)) as (x & X). destruct (rf_roots _ _ RF2 j x X) as [Q _]. cbn in Q. rewrite Q.
      symmetry. unfold zget in *. destruct (j <? 0); [discriminate|]. now apply map_nth_error.
    + rewrite !zget_none; [reflexivity| |rewrite (mi_roots _ M2); lia]. unfold zlen in *. rewrite map_length. lia.
  - apply (mi_glob _ M2).
  - apply img_not.
  - intros a b Y A. rewrite H3, Y. destruct (mi_old _ M2 a b Y A) as (b' & B1 & B2 & B3 & B4). rewrite B1. f_equal.
    assert (forall j, zget (fs b') j = read s2 (LField a j)) as RB by (intros j; cbn; now rewrite B1).
    destruct b' as [c' t' l']. cbn in *. subst. f_equal. apply list_ext. intros j. rewrite RB.
    destruct (Z.leb_spec (tag b) Weak_tag) as [T|T].
    + destruct (Z_lt_dec j 0) as [N|N]; [cbn; rewrite B1, !zget_none by lia; reflexivity|].
      destruct (Z_lt_dec j (zlen (fs b))) as [N'|N'].
      * destruct (zget_some (fs b) j ltac:(lia)) as (x & X). destruct (OF a b j x Y A X T) as [Q _]. cbn in Q |- *. rewrite Q.
        symmetry. unfold zget in *. destruct (j <? 0); [discriminate|]. now apply map_nth_error.
      * cbn. rewrite B1. rewrite !zget_none; [reflexivity| |cbn; lia]. unfold zlen in *. rewrite map_length. lia.
    + apply (rf_out _ _ RF2 a b j Y A). rewrite IN2. intros [[]|I]. destruct (T0 _ _ I) as (_ & b1 & x & Q1 & Q2 & _). assert (b1 = b) as -> by congruence. lia.
  - intros a b' A A0. rewrite H3 in A. destruct (is_young a) eqn:Y; [discriminate|]. destruct (mi_new _ M2 a b' Y A A0) as (v & F).
    destruct (mi_fwd _ _ _ M2 F) as (YV & _). destruct (CP v YV ltac:(congruence)) as (b & b2 & Q & F2 & _).
    exists v, b. split; [exact YV|]. assert (img s2 v = a) as IV by congruence. split; [exact IV|].
    assert (b2 = b') as -> by (destruct Q as (_ & Q & _); rewrite IV, H3, Y in Q; congruence). exact Q.
  - intros a Y. now rewrite H3, Y.
  - intros v I. apply DM. destruct (In_zget _ _ I) as (j & J). now destruct (rf_roots _ _ RF2 j v J).
  - intros a b v Y A T I. apply DM. destruct (In_zget _ _ I) as (j & J). now destruct (OF a b j v Y A J T).
  - intros a b b' v Y Q T I. apply DM. destruct (CP a Y (CF _ _ _ Y Q)) as (b1 & b2 & Q1 & _ & D).
    assert (b1 = b) as -> by (destruct Q as (Q & _), Q1 as (Q1 & _); congruence). specialize (D T). rewrite Forall_forall in D. auto.
  - intros v w b b' c c' YV YW Q1 Q2 E. destruct (CP v YV (CF _ _ _ YV Q1)) as (_ & _ & _ & F1 & _).
    destruct (CP w YW (CF _ _ _ YW Q2)) as (_ & _ & _ & F2 & _). rewrite E in F1. exact (mi_inj _ M2 _ _ _ F1 F2).
  - eapply layout_same; [apply (mi_lay _ M2)|reflexivity|]. intros a b' Y A. rewrite H3, Y in A. eauto.
  - apply (mi_gc _ M2).
  - reflexivity.
  - unfold s3. cbn. now rewrite (mi_tab _ M2).
  - apply (mi_chunks _ M2).
Qed.
End Minor.
