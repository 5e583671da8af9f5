(** Proofs about darken and the stack of gray blocks. *)
From Coq Require Import Sorting.Sorted.
From Verif Require Import Base ArrayLib Gc_Model Gc_Spec Gc_Heap.

Section Dark.
Variables young_start young_end : Z.
Variable grow_ok : st -> bool.
Variable outside : Z -> Prop.
Notation is_young := (is_young young_start young_end).
Notation layout := (layout young_start young_end outside).

(** the stack of gray blocks *)
Record stack_ok (s : st) : Prop := {
  so_gray : forall v, In v (gray (gc s)) -> is_young v = false /\ exists b, hget (hp s) v = Some b /\ col b = Gray;
  so_nodup : NoDup (gray (gc s));
  so_len : zlen (gray (gc s)) < gray_size (gc s);
  so_size : 2 <= gray_size (gc s)
}.
(** unless there was an overflow, gray blocks are in the stack or still to be met by the walk *)
Definition pure_ok (s : st) : Prop := pure (gc s) = true -> forall a b, is_young a = false -> hget (hp s) a = Some b -> col b = Gray ->
  In a (gray (gc s)) \/ (markhp (gc s) <> 0 /\ markhp (gc s) <= a - 8).

(** [s'] is [s] with some white old blocks made gray, and another stack *)
Record greyer (s s' : st) : Prop := {
  g_roots : roots s' = roots s;
  g_globals : globals s' = globals s;
  g_ptr : young_ptr s' = young_ptr s;
  g_tab : tab s' = tab s;
  g_chunks : chunks s' = chunks s;
  g_phase : phase (gc s') = phase (gc s);
  g_markhp : markhp (gc s') = markhp (gc s);
  g_chunk : chunk (gc s') = chunk (gc s);
  g_limit : limit (gc s') = limit (gc s);
  g_weak : weak (gc s') = weak (gc s);
  g_sweep : sweep_hp (gc s') = sweep_hp (gc s);
  g_fw : forall a b, hget (hp s) a = Some b -> exists b', hget (hp s') a = Some b' /\ tag b' = tag b /\ fs b' = fs b /\
    (col b' = col b \/ (col b = White /\ col b' = Gray /\ is_young a = false));
  g_none : forall a, hget (hp s) a = None -> hget (hp s') a = None
}.

Lemma g_bw s s' a b' : greyer s s' -> hget (hp s') a = Some b' -> exists b, hget (hp s) a = Some b /\ tag b' = tag b /\ fs b' = fs b /\
    (col b' = col b \/ (col b = White /\ col b' = Gray /\ is_young a = false)).
Proof.
  intros G E. destruct (hget (hp s) a) as [b|] eqn:H.
  - destruct (g_fw _ _ G _ _ H) as (b2 & E2 & Q). exists b. split; [reflexivity|]. assert (b2 = b') as -> by congruence. exact Q.
  - rewrite (g_none _ _ G _ H) in E. discriminate.
Qed.
Lemma greyer_refl s : greyer s s.
Proof. constructor; auto. intros a b H. exists b. auto. Qed.
Lemma greyer_trans a b c : greyer a b -> greyer b c -> greyer a c.
Proof.
  intros A B. destruct A, B. constructor; try congruence; auto. intros x bx H. destruct (g_fw0 _ _ H) as (b1 & H1 & T1 & F1 & C1).
  destruct (g_fw1 _ _ H1) as (b2 & H2 & T2 & F2 & C2). exists b2. split; [exact H2|]. split; [congruence|]. split; [congruence|].
  destruct C1 as [C1|(C1 & C1' & Y)], C2 as [C2|(C2 & C2' & Y')]; try (left; congruence); right; repeat split; congruence.
Qed.
Lemma greyer_layout s s' : greyer s s' -> layout s -> layout s'.
Proof.
  intros G L. eapply layout_same; [exact L|apply (g_chunks _ _ G)|]. intros a b' Y H. destruct (g_bw _ _ _ _ G H) as (b & B & _ & F & _).
  exists b. split; [exact B|now rewrite F].
Qed.
Lemma greyer_in_heap s s' v : greyer s s' -> is_in_heap s' v = is_in_heap s v.
Proof. intros G. unfold is_in_heap. now rewrite (g_chunks _ _ G). Qed.

Lemma realloc_ok s : (forall v, In v (gray (gc s)) -> is_young v = false /\ exists b, hget (hp s) v = Some b /\ col b = Gray) ->
  NoDup (gray (gc s)) -> 2 <= gray_size (gc s) -> zlen (gray (gc s)) <= gray_size (gc s) -> pure_ok s ->
  greyer s (realloc_gray_vals grow_ok s) /\ stack_ok (realloc_gray_vals grow_ok s) /\ pure_ok (realloc_gray_vals grow_ok s) /\
  hp (realloc_gray_vals grow_ok s) = hp s.
Proof.
  intros A B C D P. unfold realloc_gray_vals.
  assert (forall l n p t, greyer s (if t : bool then tick_on (set_gc s (set_gray (gc s) l n p)) else set_gc s (set_gray (gc s) l n p))) as GR.
  { intros l n p t. destruct t; constructor; try reflexivity; auto; intros a b H; exists b; auto. }
  destruct (gray_size (gc s) <? heap_size s / 128); [destruct (grow_ok s)|].
  - split; [apply (GR _ _ _ true)|]. split; [|split; [exact P|reflexivity]]. constructor; cbn [gray gc set_gc tick_on set_gray gray_size hp]; auto; lia.
  - split; [apply (GR _ _ _ true)|]. split; [|split; [intros Q; discriminate|reflexivity]]. constructor; cbn; [tauto|constructor| |exact C]. change (@zlen Z []) with 0. lia.
  - split; [apply (GR _ _ _ false)|]. split; [|split; [intros Q; discriminate|reflexivity]].
    set (k := Z.to_nat (zlen (gray (gc s)) - gray_size (gc s) / 2)).
    assert (forall l : list Z, NoDup l -> NoDup (skipn k l)) as ND.
    { clearbody k. clear. induction k as [|k IH]; intros l N; [exact N|]. destruct l as [|x l]; [constructor|]. cbn. apply IH. now inversion N. }
    assert (forall (l : list Z) v, In v (skipn k l) -> In v l) as SK.
    { clearbody k. clear. induction k as [|k IH]; intros l v I; [exact I|]. destruct l as [|x l]; [destruct I|]. right. now apply IH. }
    constructor; cbn.
    + intros v I. apply A. eapply SK; eauto.
    + now apply ND.
    + unfold zlen in *. rewrite skipn_length. pose proof (Z.div_mod (gray_size (gc s)) 2 ltac:(lia)).
      pose proof (Z.mod_pos_bound (gray_size (gc s)) 2 ltac:(lia)). unfold k. lia.
    + exact C.
Qed.

(** a word darken may be given *)
Definition darkenable (s : st) (v : Z) : Prop := is_block v && is_in_heap s v = true -> exists b, hget (hp s) v = Some b.

Lemma darken_ok v s : layout s -> stack_ok s -> pure_ok s -> darkenable s v ->
  exists s', darken grow_ok v s = Ret s' /\ greyer s s' /\ stack_ok s' /\ pure_ok s' /\
    (forall b, is_block v && is_in_heap s v = true -> hget (hp s') v = Some b -> col b <> White) /\
    (forall a, a <> v -> hget (hp s') a = hget (hp s) a).
Proof.
  intros L ST P DV. unfold darken. destruct (is_block v && is_in_heap s v) eqn:IV.
  2:{ exists s. split; [reflexivity|]. split; [apply greyer_refl|]. repeat (split; [assumption|]). split; [discriminate|auto]. }
  destruct (DV IV) as (b & B). rewrite B. destruct (color_eqb_spec (col b) White) as [W|W].
  2:{ exists s. split; [reflexivity|]. split; [apply greyer_refl|]. repeat (split; [assumption|]). split; [|auto].
      intros b2 _ B2. congruence. }
  assert (is_young v = false) as Y.
  { destruct (is_young v) eqn:Y; [|reflexivity]. rewrite (layout_young_out _ _ _ s v L Y), andb_false_r in IV. discriminate. }
  destruct ST as [S1 S2 S3 S5]. unfold push_gray. cbn [gc set_hp]. destruct (Z.ltb_spec (zlen (gray (gc s))) (gray_size (gc s))) as [LT|LT]; [|lia].
  cbn [bind]. set (s1 := set_gc _ _).
  assert (forall a, hget (hp s1) a = if a =? v then Some (set_col b Gray) else hget (hp s) a) as H1.
  { intros a. unfold s1. cbn [hp set_gc set_hp]. apply hget_hput. }
  assert (greyer s s1) as G1.
  { constructor; try reflexivity.
    - intros a c C. rewrite H1. destruct (Z.eqb_spec a v) as [->|N].
      + exists (set_col b Gray). assert (c = b) as -> by congruence. split; [reflexivity|]. cbn. split; [reflexivity|]. split; [reflexivity|]. right. auto.
      + exists c. auto.
    - intros a C. rewrite H1. destruct (Z.eqb_spec a v) as [->|N]; congruence. }
  assert (forall x, In x (gray (gc s1)) -> is_young x = false /\ exists b, hget (hp s1) x = Some b /\ col b = Gray) as A1.
  { intros x I. rewrite H1. destruct (Z.eqb_spec x v) as [->|N].
    - split; [exact Y|]. eexists. split; [reflexivity|reflexivity].
    - destruct I as [I|I]; [congruence|]. auto. }
  assert (NoDup (gray (gc s1))) as N1.
  { unfold s1. cbn. constructor; [|exact S2]. intros I. destruct (S1 _ I) as (_ & b' & B' & C'). congruence. }
  assert (zlen (gray (gc s1)) <= gray_size (gc s1)) as L1.
  { unfold s1. cbn [gray gray_size gc set_gc set_hp set_gray]. rewrite zlen_cons. lia. }
  assert (2 <= gray_size (gc s1)) as Z1 by exact S5.
  assert (pure_ok s1) as P1.
  { intros Q a c YA C CG. rewrite H1 in C. change (gray (gc s1)) with (v :: gray (gc s)). change (markhp (gc s1)) with (markhp (gc s)).
    destruct (Z.eqb_spec a v) as [->|N]; [left; now left|]. destruct (P Q a c YA C CG); [left; now right|now right]. }
  assert (forall c, hget (hp s1) v = Some c -> col c <> White) as W1.
  { intros c. rewrite H1, Z.eqb_refl. intros Q. injection Q as <-. discriminate. }
  assert (forall a, a <> v -> hget (hp s1) a = hget (hp s) a) as O1.
  { intros a N. rewrite H1. destruct (Z.eqb_spec a v); [contradiction|reflexivity]. }
  clearbody s1. eexists. split; [reflexivity|].
  destruct (zlen (gray (gc s1)) >=? gray_size (gc s1)) eqn:FULL.
  - destruct (realloc_ok s1 A1 N1 Z1 L1 P1) as (G2 & S4 & P2 & H2). split; [now apply (greyer_trans s s1)|]. split; [exact S4|]. split; [exact P2|].
    rewrite H2. auto.
  - split; [exact G1|]. split; [constructor; auto; lia|]. auto.
Qed.

Lemma darkenable_grey s s' v : greyer s s' -> darkenable s v -> darkenable s' v.
Proof.
  intros G D I. rewrite (greyer_in_heap _ _ _ G) in I. destruct (D I) as (b & B). destruct (g_fw _ _ G _ _ B) as (b' & B' & _). eauto.
Qed.
Lemma not_white_grey s s' v : greyer s s' -> (forall b, hget (hp s) v = Some b -> col b <> White) -> forall b, hget (hp s') v = Some b -> col b <> White.
Proof.
  intros G H b B. destruct (g_bw _ _ _ _ G B) as (b0 & B0 & _ & _ & [C|(C & C' & _)]); [rewrite C; eauto|congruence].
Qed.

Lemma darken_all_ok l : forall s, layout s -> stack_ok s -> pure_ok s -> Forall (darkenable s) l ->
  exists s', darken_all grow_ok l s = Ret s' /\ greyer s s' /\ stack_ok s' /\ pure_ok s' /\
    (forall v b, In v l -> is_block v && is_in_heap s v = true -> hget (hp s') v = Some b -> col b <> White) /\
    (forall a, ~ In a l -> hget (hp s') a = hget (hp s) a).
Proof.
  induction l as [|v l IH]; intros s L S P F; cbn [darken_all].
  - exists s. split; [reflexivity|]. split; [apply greyer_refl|]. split; [exact S|]. split; [exact P|]. split; [intros v b []|auto].
  - inversion F as [|? ? F1 F2]; subst. destruct (darken_ok v s L S P F1) as (s1 & H1 & G1 & S1 & P1 & W1 & O1). rewrite H1. cbn [bind].
    destruct (IH s1) as (s2 & H2 & G2 & S2 & P2 & W2 & O2); auto.
    + now apply (greyer_layout s).
    + rewrite Forall_forall in *. intros x X. apply (darkenable_grey s); auto.
    + exists s2. split; [exact H2|]. split; [now apply (greyer_trans s s1)|]. split; [exact S2|]. split; [exact P2|]. split.
      * intros x b [->|I] IX B.
        -- revert b B. apply (not_white_grey s1); [exact G2|]. intros b B. now apply W1.
        -- eapply W2; eauto. now rewrite (greyer_in_heap _ _ _ G1).
      * intros a N. rewrite O2 by (intros I; apply N; now right). apply O1. intros ->. apply N. now left.
Qed.
End Dark.
