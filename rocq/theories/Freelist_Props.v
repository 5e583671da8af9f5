(** Properties C09 and C10: the major heap's free list. *)
From Coq Require Import Sorting.Permutation Sorting.Sorted.
From Verif Require Import Base ArrayLib Freelist_Model Freelist_Proofs Freelist_Alloc Freelist_Inv Freelist_Steps.

Section FL.
Variable Fl_head : Z.

(** * Specification *)
(** A block as the program knows it: its pointer, its tag, and what it stored in its fields. *)
Record block := Block { b_ptr : Z; b_tag : Z; b_data : list Z }.
(** the words of a block: the header and the fields *)
Definition first_word (b : block) : Z := b_ptr b - 1.
Definition last_word (b : block) : Z := b_ptr b - 1 + zlen (b_data b).
Definition disjoint (b c : block) : Prop := last_word b < first_word c \/ last_word c < first_word b.
(** the fields of a block of n words at v *)
Fixpoint read (m : mem) (v : Z) (n : nat) : list Z := match n with O => [] | S n => m v :: read m (v + 1) n end.
(** the chain of pointers from a to the null pointer *)
Fixpoint linked (m : mem) (a : Z) (l : list Z) : Prop :=
  match l with [] => m a = 0 | b :: l => b <> 0 /\ m a = b /\ linked m b l end.
Definition free_list (s : st) (F : list Z) : Prop := linked (m s) Fl_head F.

(** what malloc may return: space for a chunk and its head that overlaps no other chunk nor the list head *)
Definition malloc_ok (s : st) (incr : Z) (mem : option Z) (wo : Z) : Prop :=
  forall a b, mem = Some a -> round_heap_chunk_size incr ((wo + 1) * 8) = Some b -> fresh Fl_head s a (b / 8).

(** The executions: allocations, stores in the fields of blocks, marking, sweeping, in any order
    compatible with the phases; the list is that of the blocks allocated and not yet freed.
    P restricts the addresses given by malloc (for C10). *)
Inductive step (P : st -> Z -> Prop) : st * list block -> st * list block -> Prop :=
  | step_alloc s L fuel incr mem wo tag v s' : 1 <= wo -> 0 <= tag < 256 -> malloc_ok s incr mem wo -> (forall a, mem = Some a -> P s a) ->
      alloc_shr Fl_head fuel s incr mem wo tag = Ret (Allocated v, s') ->
      step P (s, L) (s', Block v tag (read (m s') v (Z.to_nat wo)) :: L)
  | step_oom s L fuel incr mem wo tag s' : 1 <= wo -> 0 <= tag < 256 -> malloc_ok s incr mem wo -> (forall a, mem = Some a -> P s a) ->
      alloc_shr Fl_head fuel s incr mem wo tag = Ret (Out_of_memory, s') -> step P (s, L) (s', L)
  | step_store s L1 b L2 i x : 0 <= i < zlen (b_data b) ->
      step P (s, L1 ++ b :: L2) (set_m s (wr (m s) (b_ptr b + i) x), L1 ++ Block (b_ptr b) (b_tag b) (upd (b_data b) (Z.to_nat i) x) :: L2)
  | step_mark s L b h : In b L -> h = grayhd_hd (hd_bp (m s) (b_ptr b)) \/ h = blackhd_hd (hd_bp (m s) (b_ptr b)) ->
      step P (s, L) (set_m s (wr (m s) (b_ptr b - 1) h), L)
  | step_end_mark s L s' : gc_phase s = Phase_mark -> end_mark Fl_head s = Ret s' -> step P (s, L) (s', L)
  | step_end_weak s L : gc_phase s = Phase_weak -> step P (s, L) (set_phase s Phase_sweep, L)
  | step_sweep s L e s' : gc_phase s = Phase_sweep -> sweep_step s = (e, s') ->
      step P (s, L) (s', match e with Freed bp => List.filter (fun b => negb (b_ptr b =? bp)) L | _ => L end).
Inductive reach (P : st -> Z -> Prop) : st -> list block -> Prop :=
  | reach_init start size : 1 < start -> 2 <= size -> 1 < Fl_head -> ~ (start <= Fl_head < start + size) -> ~ (start <= Fl_head - 1 < start + size) ->
      reach P (init_major_heap Fl_head start size) []
  | reach_step s L s' L' : reach P s L -> step P (s, L) (s', L') -> reach P s' L'.
Definition anywhere (s : st) (a : Z) : Prop := True.

(** * The invariant holds in every reachable state *)
Lemma seg_linked mm a F : (forall x, In x F -> x <> 0) -> seg mm (a :: F) 0 <-> linked mm a F.
Proof.
  revert a. induction F as [|b F IH]; intros a N; cbn [seg hd linked] in *; [tauto|]. rewrite <- IH by (intros; apply N; now right). cbn [seg hd].
  split; [intros (H1 & H2); split; [apply N; now left|auto]|tauto].
Qed.
Lemma linked_unique mm F : forall a F', linked mm a F -> linked mm a F' -> F = F'.
Proof.
  induction F as [|b F IH]; intros a [|b' F']; cbn [linked]; intros H1 H2; auto.
  - destruct H2 as (N & E & _). congruence.
  - destruct H1 as (N & E & _). congruence.
  - destruct H1 as (N & E & H1), H2 as (N' & E' & H2). assert (b' = b) by congruence. subst. f_equal. eauto.
Qed.
Lemma inv_free_list s T F : inv Fl_head s T F -> free_list s F.
Proof. intros I. apply seg_linked; [|apply (v_heap _ _ _ _ I)]. intros x X. apply (free_pos _ (v_heap _ _ _ _ I)) in X. lia. Qed.

(** the program's view agrees with the heap *)
Record view (s : st) (T : list tile) (L : list block) : Prop := {
  w_nodup : NoDup (List.map b_ptr L);
  w_block : forall b, In b L -> live (m s) T (b_ptr b - 1) (zlen (b_data b)) /\ tag_hd (m s (b_ptr b - 1)) = b_tag b /\
     forall i, 0 <= i < zlen (b_data b) -> zget (b_data b) i = Some (m s (b_ptr b + i));
  w_all : forall h w, live (m s) T h w -> exists b, In b L /\ b_ptr b = h + 1 /\ zlen (b_data b) = w
}.
Lemma read_len mm n : forall v, length (read mm v n) = n.
Proof. induction n as [|n IH]; intros v; cbn; [reflexivity|]. now rewrite IH. Qed.
Lemma read_get mm n : forall v i, 0 <= i < Z.of_nat n -> zget (read mm v n) i = Some (mm (v + i)).
Proof.
  induction n as [|n IH]; intros v i Hi; [lia|]. cbn [read]. rewrite zget_cons by lia. destruct (Z.eqb_spec i 0) as [->|Ne]; [now replace (v + 0) with v by lia|].
  rewrite IH by lia. do 2 f_equal. lia.
Qed.

Lemma init_inv start size : 1 < start -> 2 <= size -> 1 < Fl_head -> ~ (start <= Fl_head < start + size) -> ~ (start <= Fl_head - 1 < start + size) ->
  exists T F, inv Fl_head (init_major_heap Fl_head start size) T F /\ (forall h w, ~ live (m (init_major_heap Fl_head start size)) T h w) /\
    ord Fl_head (init_major_heap Fl_head start size) T F.
Proof.
  intros H1 H2 H3 H4 H5.
  set (m0 := wr (wr (fun _ => 0) (Fl_head - 1) (make_header 0 0 Blue)) Fl_head 0).
  assert (HB : heap_ok Fl_head m0 [] [] []).
  { constructor; try (intros; contradiction); auto; try constructor; try tauto.
    - cbn. unfold m0. now rewrite wr_same.
    - constructor.
    - intros [].
    - intros (w & [] & _).
    - unfold m0. rewrite wr_other by lia. apply wr_same. }
  assert (HC : heap_ok Fl_head (wr m0 start (make_header (size - 1) 0 White)) [(start, size)] [(start, size - 1)] []).
  { apply (add_chunk Fl_head m0 [] [(start, size)] [] [] start size White); auto; try lia; try easy. now left. }
  set (mC := wr m0 start (make_header (size - 1) 0 White)) in *.
  assert (NB : color_hd (mC (start + 1 - 1)) <> Blue).
  { replace (start + 1 - 1) with start by lia. unfold mC. rewrite wr_same, color_make; [easy|lia|unfold tag_ok; lia|now left]. }
  destruct (link Fl_head mC [(start, size)] [(start, size - 1)] [] [] Fl_head [] (start + 1) (size - 1) 0 HC eq_refl) as (F' & EF & HF & IN); auto; try lia.
  { left. f_equal. lia. } { unfold tag_ok; lia. }
  cbn [app] in EF. injection EF as ->.
  assert (EI : init_major_heap Fl_head start size =
    St (wr (wr (wr (wr m0 start (make_header (size - 1) 0 Blue)) (start + 1 - 1) (make_header (size - 1) 0 Blue)) (start + 1) 0) Fl_head (start + 1)) Fl_head 0 (start + 1) [(start, size)] 0 0 0 Phase_mark).
  { unfold init_major_heap, fl_merge_block, merge_right, fl_init_merge. cbn [set_merge m fl_merge fl_prev fl_last chunks gc_sweep_hp chunk limit gc_phase]. fold m0.
    unfold next, hd_bp. replace (start + 1 - 1) with start by lia.
    assert (X1 : wr m0 start (make_header (size - 1) 0 Blue) Fl_head = 0) by (rewrite wr_other by lia; unfold m0; apply wr_same).
    rewrite X1, wr_same. rewrite wosize_make by first [lia | unfold tag_ok; lia | (right; right; now left)].
    destruct (Z.eqb_spec (start + 1 + (size - 1)) (0 - 1)) as [|_]; [lia|].
    unfold merge_left. cbn [m fl_merge snd].
    assert (X2 : wosize_bp (wr m0 start (make_header (size - 1) 0 Blue)) Fl_head = 0).
    { unfold wosize_bp, hd_bp. rewrite wr_other by lia. unfold m0. rewrite wr_other by lia. rewrite wr_same. apply wosize_make; [lia|unfold tag_ok; lia|right; right; now left]. }
    cbn [set_m set_merge m fl_merge fl_prev fl_last chunks gc_sweep_hp chunk limit gc_phase snd]. replace (start + 1 - 1) with start by lia. rewrite X2. destruct (Z.eqb_spec (Fl_head + 0) start) as [|_]; [lia|].
    rewrite wosize_make by first [lia | unfold tag_ok; lia | (right; right; now left)].
    destruct (Z.gtb_spec (size - 1) 0) as [_|]; [|lia]. rewrite blue_make by first [lia | unfold tag_ok; lia | (right; right; now left)]. reflexivity. }
  rewrite EI. exists [(start, size - 1)], [start + 1].
  assert (MM : forall x, wr (wr (wr (wr m0 start (make_header (size - 1) 0 Blue)) (start + 1 - 1) (make_header (size - 1) 0 Blue)) (start + 1) 0) Fl_head (start + 1) x =
     wr (wr (wr mC (start + 1 - 1) (make_header (size - 1) 0 Blue)) (start + 1) (hd 0 [])) Fl_head (start + 1) x).
  { intros x. unfold mC, wr. replace (start + 1 - 1) with start by lia. cbn [hd]. destruct (x =? Fl_head); [reflexivity|]. destruct (x =? start + 1); [reflexivity|]. destruct (x =? start); reflexivity. }
  assert (MB : wr (wr (wr (wr m0 start (make_header (size - 1) 0 Blue)) (start + 1 - 1) (make_header (size - 1) 0 Blue)) (start + 1) 0) Fl_head (start + 1) start = make_header (size - 1) 0 Blue).
  { unfold wr. replace (start + 1 - 1) with start by lia. destruct (Z.eqb_spec start Fl_head); [lia|]. destruct (Z.eqb_spec start (start + 1)); [lia|]. now rewrite Z.eqb_refl. }
  assert (CB : color_hd (make_header (size - 1) 0 Blue) = Blue) by (apply color_make; [lia|unfold tag_ok; lia|right; right; now left]).
  split; [|split].
  - constructor; cbn [m chunks fl_prev fl_merge gc_phase].
    + apply (heap_frame _ _ _ _ _ _ HF); intros; apply MM.
    + discriminate.
    + now left.
    + right. now left.
    + intros X. now cbn in X.
  - intros h w (X1 & X2 & X3). destruct X1 as [X1|[]]. injection X1 as <- <-. apply X2. cbn [m]. now rewrite MB.
  - constructor; cbn [m chunks fl_prev fl_merge gc_phase].
    + repeat constructor.
    + repeat constructor.
    + intros h w w' [X1|[]] [X2|[]]. injection X1 as <- <-. injection X2 as X2 _. lia.
    + intros X. now cbn in X.
Qed.

(** for C10: where malloc may place a chunk *)
Definition sweep_side (s : st) (a : Z) : Prop :=
  gc_phase s = Phase_mark \/ gc_sweep_hp s <= a \/ exists F x, free_list s F /\ In x F /\ a < x.

Lemma blocks_nodup_ptr L b b' : NoDup (List.map b_ptr L) -> In b L -> In b' L -> b_ptr b = b_ptr b' -> b = b'.
Proof.
  induction L as [|c L IH]; cbn; intros N X Y E; [contradiction|]. inversion N as [|? ? N1 N2]; subst. destruct X as [->|X], Y as [->|Y]; auto.
  - exfalso. apply N1. rewrite E. now apply in_map.
  - exfalso. apply N1. rewrite <- E. now apply in_map.
Qed.

(** more fuel does not change the result *)
Lemma search_end_mono f : forall s wo p c r f', (f <= f')%nat -> search_end f s wo p c = Ret r -> search_end f' s wo p c = Ret r.
Proof.
  induction f as [|f IH]; intros s wo p c r f' L E; [discriminate|]. destruct f' as [|f']; [lia|]. cbn [search_end] in *.
  destruct (c =? 0); [assumption|]. destruct (_ >=? _); [assumption|]. apply IH; [lia|assumption].
Qed.
Lemma search_start_mono f : forall s wo p c r f', (f <= f')%nat -> search_start f s wo p c = Ret r -> search_start f' s wo p c = Ret r.
Proof.
  induction f as [|f IH]; intros s wo p c r f' L E; [discriminate|]. destruct f' as [|f']; [lia|]. cbn [search_start] in *.
  destruct (p =? _); [assumption|]. destruct (_ >=? _); [assumption|]. apply IH; [lia|assumption].
Qed.
Lemma find_place_mono f : forall mm bp p c r f', (f <= f')%nat -> find_place f mm bp p c = Ret r -> find_place f' mm bp p c = Ret r.
Proof.
  induction f as [|f IH]; intros mm bp p c r f' L E; [discriminate|]. destruct f' as [|f']; [lia|]. cbn [find_place] in *.
  destruct (_ && _); [|assumption]. apply IH; [lia|assumption].
Qed.
Lemma bind_ret {A B} (x : outcome A) (k : A -> outcome B) r : bind x k = Ret r -> exists a, x = Ret a /\ k a = Ret r.
Proof. destruct x; cbn; intros E; try discriminate. eauto. Qed.
Lemma fl_allocate_mono f s wo r f' : (f <= f')%nat -> fl_allocate Fl_head f s wo = Ret r -> fl_allocate Fl_head f' s wo = Ret r.
Proof.
  unfold fl_allocate. intros L E. apply bind_ret in E as (a & E1 & E2). rewrite (search_end_mono _ _ _ _ _ _ _ L E1). cbn [bind].
  destruct a as [last|[hp s1]]; [|assumption]. apply bind_ret in E2 as (b & E3 & E4). rewrite (search_start_mono _ _ _ _ _ _ _ L E3). exact E4.
Qed.
Lemma fl_add_block_mono f s bp r f' : (f <= f')%nat -> fl_add_block Fl_head f s bp = Ret r -> fl_add_block Fl_head f' s bp = Ret r.
Proof.
  unfold fl_add_block. intros L E. destruct (bp >? fl_last s); [assumption|]. apply bind_ret in E as ((p & c) & E1 & E2).
  rewrite (find_place_mono _ _ _ _ _ _ _ L E1). exact E2.
Qed.
Lemma alloc_shr_mono f s incr mem wo t r f' : (f <= f')%nat -> alloc_shr Fl_head f s incr mem wo t = Ret r -> alloc_shr Fl_head f' s incr mem wo t = Ret r.
Proof.
  unfold alloc_shr. intros L E. apply bind_ret in E as ((o & s1) & E1 & E2). rewrite (fl_allocate_mono _ _ _ _ _ L E1). cbn [bind].
  destruct o as [hp|]; [assumption|]. destruct (expand_heap s1 incr mem wo) as [[nb s2]|]; [|assumption].
  apply bind_ret in E2 as ((o2 & s3) & E3 & E4). apply bind_ret in E3 as (s4 & E5 & E6). rewrite (fl_add_block_mono _ _ _ _ _ L E5). cbn [bind].
  apply bind_ret in E6 as ((o3 & s5) & E7 & E8). rewrite (fl_allocate_mono _ _ _ _ _ L E7). cbn [bind]. rewrite E8. exact E4.
Qed.

Lemma in_mid {A} (x c : A) L1 L2 : In x (L1 ++ c :: L2) -> x = c \/ In x (L1 ++ L2).
Proof. intros X. apply in_app_or in X as [X|[X|X]]; [right; apply in_or_app; now left|left; auto|right; apply in_or_app; now right]. Qed.
Lemma mid_in {A} (x c : A) L1 L2 : In x (L1 ++ L2) -> In x (L1 ++ c :: L2).
Proof. intros X. apply in_app_or in X as [X|X]; apply in_or_app; [now left|right; now right]. Qed.
Lemma mid_other (b x : block) L1 L2 : NoDup (List.map b_ptr (L1 ++ b :: L2)) -> In x (L1 ++ L2) -> b_ptr x <> b_ptr b.
Proof.
  rewrite map_app. cbn [List.map]. intros N X E. apply NoDup_remove_2 in N. apply N. rewrite <- E, <- map_app. now apply in_map.
Qed.

Theorem step_inv P s L s' L' : step P (s, L) (s', L') -> forall T F, inv Fl_head s T F -> view s T L ->
  exists T' F', inv Fl_head s' T' F' /\ view s' T' L' /\ (ord Fl_head s T F -> (forall s a, P s a -> sweep_side s a) -> ord Fl_head s' T' F').
Proof.
  intros ST T F I V. pose proof (v_heap _ _ _ _ I) as H.
  assert (CND : forall mem, (forall s a, P s a -> sweep_side s a) -> (forall a, mem = Some a -> P s a) ->
    forall a, mem = Some a -> gc_phase s = Phase_mark \/ gc_sweep_hp s <= a \/ exists x, In x F /\ a < x).
  { intros mem PS PA a Ea. specialize (PS s a (PA a Ea)). destruct PS as [X|[X|(F0 & x & X1 & X2 & X3)]]; auto. right. right. exists x.
    now rewrite (linked_unique _ _ _ _ (inv_free_list _ _ _ I) X1). }
  inversion ST as
    [s0 L0 fuel incr mem wo tag v s1 W Ht MO PA E|s0 L0 fuel incr mem wo tag s1 W Ht MO PA E|s0 L1 b L2 i x Hi|s0 L0 b h B Hh|s0 L0 s1 PH E|s0 L0 PH|s0 L0 e s1 PH E]; subst.
  - (* allocation *)
    apply (alloc_shr_mono _ _ _ _ _ _ _ (fuel + S (S (length F)))) in E; [|lia].
    destruct (alloc_shr_ok Fl_head (fuel + S (S (length F))) s T F incr mem wo tag I ltac:(lia) W Ht MO) as
      [(v' & s1 & T' & F' & c & E' & I' & H1 & H2 & H3 & H4 & H5 & H6 & H7 & H8 & H9 & H10)|(last & E' & _)]; rewrite E' in E; [|discriminate].
    injection E as -> ->. exists T', F'. split; [assumption|]. split; [|intros O PS; apply H10; [assumption|]; now apply CND].
    assert (NV : ~ In v (List.map b_ptr L)).
    { intros X. apply in_map_iff in X as (b & X1 & X2). destruct (w_block _ _ _ V b X2) as (X3 & _). rewrite X1 in X3. now apply (H3 _ X3). }
    constructor.
    + cbn [List.map b_ptr]. constructor; [assumption|apply V].
    + intros b [<-|B].
      * cbn [b_ptr b_tag b_data]. unfold zlen. rewrite read_len, Z2Nat.id by lia. split; [apply H1; right; auto|]. split; [rewrite H4; apply tag_make; auto; lia|].
        intros i Hi. apply read_get. rewrite Z2Nat.id; lia.
      * destruct (w_block _ _ _ V b B) as (X1 & X2 & X3). split; [apply H1; now left|].
        assert (LB : 1 <= zlen (b_data b)) by apply X1. split.
        -- rewrite (H2 _ _ (b_ptr b - 1) X1) by lia. assumption.
        -- intros i Hi. rewrite (H2 _ _ (b_ptr b + i) X1) by lia. auto.
    + intros h w X. apply H1 in X as [X|[-> ->]].
      * destruct (w_all _ _ _ V _ _ X) as (b & B1 & B2). exists b. split; [now right|assumption].
      * eexists. split; [now left|]. cbn [b_ptr b_data]. split; [lia|]. unfold zlen. rewrite read_len, Z2Nat.id; lia.
  - apply (alloc_shr_mono _ _ _ _ _ _ _ (fuel + S (S (length F)))) in E; [|lia].
    destruct (alloc_shr_ok Fl_head (fuel + S (S (length F))) s T F incr mem wo tag I ltac:(lia) W Ht MO) as
      [(v' & s1 & T' & F' & c & E' & _)|(last & E' & _)]; rewrite E' in E; [discriminate|]. injection E as <-.
    exists T, F. split; [now apply inv_set_last|]. split; [|intros O _; now apply ord_set_last]. destruct V as [V1 V2 V3]. constructor; assumption.
  - (* store *)
    set (b' := Block (b_ptr b) (b_tag b) (upd (b_data b) (Z.to_nat i) x)).
    assert (BL : In b (L1 ++ b :: L2)) by (apply in_or_app; right; now left).
    destruct (w_block _ _ _ V b BL) as ((T1 & T2 & T3) & X2 & X3).
    set (a := b_ptr b + i). assert (DS : forall h w, In (h, w) T -> h = b_ptr b - 1 /\ w = zlen (b_data b) \/ a < h \/ h + w < a).
    { intros h w A. destruct (h_dis _ _ _ _ _ H _ _ _ _ T1 A) as [[Y1 Y2]|Y]; [left; auto|]. unfold a. lia. }
    assert (HD : forall h w, In (h, w) T -> h <> a). { intros h w A. pose proof (tile_pos _ H _ _ A). destruct (DS _ _ A) as [[-> _]|Y]; unfold a in *; lia. }
    assert (LK : forall y, In y (Fl_head :: F) -> y <> a).
    { intros y [<-|Y].
      - pose proof (tile_head _ H _ _ T1). unfold a. lia.
      - destruct (free_tile _ H _ Y) as (w & B & Wy & CB). destruct (DS _ _ B) as [[Y1 _]|Y1]; [|lia]. rewrite Y1 in CB. contradiction. }
    assert (LEN : zlen (b_data b') = zlen (b_data b)) by (unfold zlen, b'; cbn; now rewrite upd_length).
    exists T, F. split; [|split].
    + destruct I as [I1 I2 I3 I4 I5]. constructor; try assumption. cbn [m set_m chunks]. apply (heap_frame _ _ _ _ _ _ I1).
      * intros h w A. apply wr_other. eauto.
      * intros y Y. apply wr_other. eauto.
      * apply wr_other. pose proof (tile_head _ H _ _ T1). unfold a. lia.
    + assert (LV : forall h w, live (m (set_m s (wr (m s) a x))) T h w <-> live (m s) T h w).
      { intros h w. unfold live. cbn [m set_m]. split; intros (Y1 & Y2 & Y3); (split; [assumption|]); rewrite wr_other in * by (eapply HD; eauto); auto. }
      constructor.
      * pose proof (w_nodup _ _ _ V) as N. rewrite map_app in N |- *. exact N.
      * intros c C. apply in_mid in C as [->|C].
        -- fold b'. rewrite LEN. cbn [b_ptr b_tag b']. split; [apply LV; split; auto|]. cbn [m set_m]. rewrite wr_other by (unfold a; lia). split; [assumption|].
           intros j Hj. unfold b'. cbn [b_data]. unfold zget. destruct (Z.ltb_spec j 0); [lia|]. rewrite nth_error_upd by (unfold zlen in *; lia).
           destruct (Nat.eqb_spec (Z.to_nat j) (Z.to_nat i)) as [Q|Q].
           ++ assert (j = i) by lia. subst j. now rewrite wr_same.
           ++ specialize (X3 j Hj). unfold zget in X3. destruct (Z.ltb_spec j 0); [lia|]. rewrite X3. rewrite wr_other; [reflexivity|unfold a; lia].
        -- pose proof (mid_other _ _ _ _ (w_nodup _ _ _ V) C) as Q. destruct (w_block _ _ _ V c (mid_in _ _ _ _ C)) as (Y1 & Y2 & Y3). split; [now apply LV|].
           destruct Y1 as (Y1 & _). cbn [m set_m]. split; [rewrite wr_other by (eapply HD; eauto); assumption|].
           intros j Hj. rewrite (Y3 j Hj). rewrite wr_other; [reflexivity|]. destruct (DS _ _ Y1) as [[Y4 _]|Y4]; lia.
      * intros h w X. apply LV in X. destruct (w_all _ _ _ V _ _ X) as (c & C1 & C2 & C3). apply in_mid in C1 as [->|C1].
        -- exists b'. split; [apply in_or_app; right; now left|]. rewrite LEN. cbn. auto.
        -- exists c. split; [now apply mid_in|auto].
    + intros [O1 O2 O3 O4] _. constructor; try assumption. intros h w w' A B C1 C2. cbn [m set_m] in C1, C2. rewrite wr_other in C1 by (eapply HD; eauto). rewrite wr_other in C2 by (eapply HD; eauto). exact (O3 h w w' A B C1 C2).
  - (* marking *)
    destruct (w_block _ _ _ V b B) as ((T1 & T2 & T3) & X2 & X3). destruct (h_hdr _ _ _ _ _ H _ _ T1) as (W0 & t & c & Tt & Cc & E).
    assert (exists c', h = make_header (zlen (b_data b)) t c' /\ color_ok c' /\ c' <> Blue) as (c' & -> & Cc' & NBl).
    { unfold hd_bp in Hh. rewrite E in Hh. destruct Hh as [->| ->]; [exists Gray; rewrite gray_make|exists Black; rewrite black_make]; auto; (split; [reflexivity|]); split; try discriminate;
      [right; now left|right; right; now right]. }
    destruct (recolor_inv Fl_head s T F (b_ptr b - 1) (zlen (b_data b)) t c' I T1 T2 Tt Cc' NBl) as (I' & LV & OV).
    exists T, F. split; [assumption|]. split; [|auto]. constructor.
    + apply V.
    + intros d D. destruct (w_block _ _ _ V d D) as (Y1 & Y2 & Y3). split; [now apply LV|]. pose proof Y1 as (Y1' & _). cbn [m set_m]. split.
      * destruct (Z.eq_dec (b_ptr d) (b_ptr b)) as [Q|Q]; [|rewrite wr_other by lia; assumption]. rewrite Q, wr_same. rewrite Q, E in Y2. rewrite tag_make in * by auto. assumption.
      * intros j Hj. rewrite (Y3 j Hj), wr_other; [reflexivity|]. destruct (h_dis _ _ _ _ _ H _ _ _ _ T1 Y1') as [[Y4 Y5]|Y4]; lia.
    + intros x w X. apply LV in X. exact (w_all _ _ _ V _ _ X).
  - destruct (end_mark_ok _ _ _ _ I) as (s1 & E1 & I1 & M1 & _ & O1). rewrite E1 in E. injection E as <-. exists T, F. split; [assumption|]. split; [|auto].
    destruct V as [V1 V2 V3]. constructor; rewrite ?M1; assumption.
  - destruct (set_phase_ok Fl_head s T F Phase_sweep I ltac:(left; congruence)) as (I1 & O1). exists T, F. split; [assumption|]. split; [|auto].
    destruct V as [V1 V2 V3]. constructor; assumption.
  - destruct (sweep_step_ok _ _ _ _ I PH _ _ E) as (T' & F' & I' & H1 & H2 & H3 & H4 & H5). exists T', F'. split; [assumption|]. split; [|auto].
    set (L' := match e with Freed bp => List.filter (fun b => negb (b_ptr b =? bp)) L | _ => L end).
    assert (IL : forall b, In b L' <-> In b L /\ ~ freed e (b_ptr b - 1)).
    { intros b. unfold L', freed. destruct e as [bp| |]; try tauto. rewrite filter_In. destruct (Z.eqb_spec (b_ptr b) bp); cbn; split; intros [Y1 Y2]; split; auto; try discriminate; try lia. }
    constructor.
    + unfold L'. destruct e as [bp| |]; try apply V. pose proof (w_nodup _ _ _ V) as N. revert N. clear. induction L as [|b L IH]; cbn [List.map List.filter]; intros N; [constructor|].
      inversion N as [|? ? N1 N2]. destruct (negb _); [|now apply IH]. cbn [List.map]. constructor; [|now apply IH].
      intros X. apply N1. apply in_map_iff in X as (c & X1 & X2). apply filter_In in X2 as [X2 _]. rewrite <- X1. now apply in_map.
    + intros b B. apply IL in B as [B NF]. destruct (w_block _ _ _ V b B) as (Y1 & Y2 & Y3). split; [now apply H1|]. split; [rewrite (H3 _ _ Y1 NF); assumption|].
      intros j Hj. rewrite (Y3 j Hj). f_equal. symmetry. apply (H2 _ _ _ Y1 NF). lia.
    + intros h w X. apply H1 in X as [X NF]. destruct (w_all _ _ _ V _ _ X) as (b & B1 & B2 & B3). exists b. split; [|auto]. apply IL. split; [assumption|]. now replace (b_ptr b - 1) with h by lia.
Qed.

Lemma reach_inv P s L : reach P s L -> exists T F, inv Fl_head s T F /\ view s T L /\ ((forall s a, P s a -> sweep_side s a) -> ord Fl_head s T F).
Proof.
  induction 1 as [start size H1 H2 H3 H4 H5|s L s' L' R (T & F & I & V & O) ST].
  - destruct (init_inv start size H1 H2 H3 H4 H5) as (T & F & I & N & O). exists T, F. split; [assumption|]. split; [|auto]. constructor; [constructor|contradiction|].
    intros h w X. exfalso. eapply N; eauto.
  - destruct (step_inv _ _ _ _ _ ST _ _ I V) as (T' & F' & I' & V' & O'). exists T', F'. auto.
Qed.

(** ** C09 *)
(** the extents (first word, last word) of live blocks, of free blocks and of one-word fragments *)
Definition live_extent (b : block) : Z * Z := (first_word b, last_word b).
Definition free_extent (s : st) (f : Z) : Z * Z := (f - 1, f - 1 + wosize_bp (m s) f).
Definition frag_extent (g : Z) : Z * Z := (g, g).
Definition apart (e f : Z * Z) : Prop := snd e < fst f \/ snd f < fst e.
Definition tiling (s : st) (E : list (Z * Z)) : Prop :=
  ForallOrdPairs apart E /\ forall x, (exists e, In e E /\ fst e <= x <= snd e) <-> (exists a n, In (a, n) (chunks s) /\ a <= x < a + n).

Lemma ordpairs_of E : NoDup (List.map fst E) -> (forall e f, In e E -> In f E -> fst e = fst f \/ apart e f) -> ForallOrdPairs apart E.
Proof.
  induction E as [|e E IH]; intros N H; [constructor|]. cbn in N. inversion N as [|? ? N1 N2]. constructor.
  - apply Forall_forall. intros f Hf. destruct (H e f) as [X|X]; [now left|now right| |assumption]. exfalso. apply N1. rewrite X. now apply in_map.
  - apply IH; [assumption|]. intros f g Hf Hg. apply H; now right.
Qed.
Lemma nodup_app_iff {A} (l1 l2 : list A) : NoDup l1 -> NoDup l2 -> (forall x, In x l1 -> In x l2 -> False) -> NoDup (l1 ++ l2).
Proof.
  induction l1 as [|a l1 IH]; cbn; intros N1 N2 D; [assumption|]. inversion N1 as [|? ? N3 N4]. constructor.
  - rewrite in_app_iff. intros [X|X]; [contradiction|]. apply (D a); auto.
  - apply IH; eauto.
Qed.
Lemma nodup_shift F : NoDup F -> NoDup (List.map (fun f => f - 1) F).
Proof.
  induction 1 as [|f F N ND IH]; cbn; constructor; [|assumption]. intros X. apply in_map_iff in X as (g & E & X). replace g with f in X by lia. contradiction.
Qed.

(** The blocks handed out and not freed keep their size, tag and contents. *)
Theorem C09_blocks_intact s L : reach anywhere s L -> forall b, In b L ->
  wosize_bp (m s) (b_ptr b) = zlen (b_data b) /\ tag_hd (hd_bp (m s) (b_ptr b)) = b_tag b /\ read (m s) (b_ptr b) (length (b_data b)) = b_data b.
Proof.
  intros R b B. destruct (reach_inv _ _ _ R) as (T & F & I & V & _). destruct (w_block _ _ _ V b B) as ((T1 & T2 & T3) & X2 & X3). split; [|split; [assumption|]].
  - unfold wosize_bp, hd_bp. now apply (tile_size _ (v_heap _ _ _ _ I)).
  - apply list_ext. intros k. destruct (Z_lt_dec k 0) as [K|K]; [|destruct (Z_lt_dec k (zlen (b_data b))) as [K2|K2]].
    + rewrite !zget_none; auto; lia.
    + rewrite read_get by (unfold zlen in *; lia). symmetry. apply X3. lia.
    + rewrite !zget_none; auto; unfold zlen in *; rewrite ?read_len; lia.
Qed.

(** Live blocks, free blocks and one-word fragments are pairwise disjoint and cover the heap exactly;
    the free list is a proper (finite, null-terminated) list of blocks of at least one word. *)
Theorem C09_heap_is_tiled s L : reach anywhere s L -> exists F G, free_list s F /\ (forall f, In f F -> 1 <= wosize_bp (m s) f) /\
  tiling s (List.map live_extent L ++ List.map (free_extent s) F ++ List.map frag_extent G).
Proof.
  intros R. destruct (reach_inv _ _ _ R) as (T & F & I & V & _). pose proof (v_heap _ _ _ _ I) as H.
  assert (FT : forall f, In f F -> In (f - 1, wosize_bp (m s) f) T /\ 1 <= wosize_bp (m s) f /\ color_hd (m s (f - 1)) = Blue).
  { intros f X. destruct (free_tile _ H _ X) as (w & X1 & X2 & X3). unfold wosize_bp, hd_bp. rewrite (tile_size _ H _ _ X1). auto. }
  set (G := List.map fst (List.filter (fun t : tile => snd t =? 0) T)).
  assert (GT : forall g, In g G <-> In (g, 0) T).
  { intros g. unfold G. rewrite in_map_iff. split.
    - intros ((g' & w) & X1 & X2). apply filter_In in X2 as [X2 X3]. cbn in *. apply Z.eqb_eq in X3. now subst.
    - intros X. exists (g, 0). split; [reflexivity|]. now apply filter_In. }
  exists F, G. split; [eapply inv_free_list; eauto|]. split; [intros f X; now apply FT|].
  assert (LT : forall b, In b L -> In (first_word b, zlen (b_data b)) T /\ color_hd (m s (first_word b)) <> Blue /\ 1 <= zlen (b_data b)) by (intros b X; now apply V).
  set (E := List.map live_extent L ++ List.map (free_extent s) F ++ List.map frag_extent G).
  assert (ET : forall e, In e E -> In (fst e, snd e - fst e) T).
  { intros e X. apply in_app_or in X as [X|X]; [|apply in_app_or in X as [X|X]]; apply in_map_iff in X as (y & <- & Y).
    - cbn [live_extent fst snd]. unfold last_word. replace (b_ptr y - 1 + zlen (b_data y) - first_word y) with (zlen (b_data y)) by (unfold first_word; lia). now apply LT.
    - cbn [free_extent fst snd]. replace (y - 1 + wosize_bp (m s) y - (y - 1)) with (wosize_bp (m s) y) by lia. now apply FT.
    - cbn [frag_extent fst snd]. rewrite Z.sub_diag. now apply GT. }
  assert (TE : forall h w, In (h, w) T -> In (h, h + w) E).
  { intros h w X. unfold E. destruct (Z.eq_dec (color_hd (m s h)) Blue) as [C|C].
    - apply in_or_app. right. apply in_or_app. left. apply in_map_iff. exists (h + 1). unfold free_extent, wosize_bp, hd_bp. replace (h + 1 - 1) with h by lia. rewrite (tile_size _ H _ _ X).
      split; [reflexivity|]. apply (h_free _ _ _ _ _ H). exists w. now replace (h + 1 - 1) with h by lia.
    - pose proof (proj1 (h_hdr _ _ _ _ _ H _ _ X)). destruct (Z.eq_dec w 0) as [->|W].
      + apply in_or_app. right. apply in_or_app. right. apply in_map_iff. exists h. split; [unfold frag_extent; f_equal; lia|now apply GT].
      + destruct (w_all _ _ _ V h w) as (b & B1 & B2 & B3); [split; [assumption|]; split; [assumption|lia]|]. apply in_or_app. left. apply in_map_iff. exists b.
        split; [|assumption]. unfold live_extent, first_word, last_word. f_equal; lia. }
  split; [apply ordpairs_of|].
  - unfold E. rewrite !map_app, !map_map. cbn [live_extent free_extent frag_extent fst]. apply nodup_app_iff; [|apply nodup_app_iff|].
    + unfold first_word. rewrite <- (map_map b_ptr (fun f => f - 1)). apply nodup_shift. apply V.
    + apply nodup_shift. apply H.
    + rewrite map_id. unfold G. pose proof (h_nodup _ _ _ _ _ H) as N. revert N. clear. induction T as [|(h, w) T IH]; cbn [List.filter]; intros N; [constructor|].
      inversion N as [|? ? N1 N2]. destruct (Z.eqb_spec (snd (h, w)) 0) as [Q|Q]; [|auto]. cbn [List.map fst]. constructor; [|auto].
      intros X. apply in_map_iff in X as ((h', w') & X1 & X2). apply filter_In in X2 as [X2 X3]. cbn in *. apply Z.eqb_eq in X3. subst. contradiction.
    + intros x X Y. rewrite map_id in Y. apply in_map_iff in X as (f & <- & X). apply GT in Y. destruct (FT f X) as (X1 & X2 & _). pose proof (tile_uniq _ H _ _ _ X1 Y). lia.
    + intros x X Y. rewrite map_id in Y. apply in_map_iff in X as (b & <- & X). destruct (LT b X) as (X1 & X2 & X3). apply in_app_or in Y as [Y|Y].
      * apply in_map_iff in Y as (f & Q & Y). destruct (FT f Y) as (_ & _ & C). rewrite Q in C. contradiction.
      * apply GT in Y. pose proof (tile_uniq _ H _ _ _ X1 Y). lia.
  - intros e f X Y. apply ET in X, Y. destruct (h_dis _ _ _ _ _ H _ _ _ _ X Y) as [[Q _]|Q]; [now left|right; unfold apart; lia].
  - intros x. split.
    + intros (e & X & Q). apply ET in X. destruct (h_in _ _ _ _ _ H _ _ X) as (a & n & A & A1 & A2). exists a, n. split; [assumption|lia].
    + intros (a & n & A & Q). destruct (h_cov _ _ _ _ _ H _ _ _ A Q) as (h & w & X & XQ). exists (h, h + w). split; [now apply TE|exact XQ].
Qed.

(** An allocation terminates; it hands out a new block of exactly the size asked for, disjoint from
    the live ones, or reports that there is no memory: no free block is large enough, and malloc
    failed or the size is above the maximum of a chunk. *)
Theorem C09_allocation s L incr mem wo tag : reach anywhere s L -> 1 <= wo -> 0 <= tag < 256 -> malloc_ok s incr mem wo ->
  exists N r s', (forall fuel, (N <= fuel)%nat -> alloc_shr Fl_head fuel s incr mem wo tag = Ret (r, s')) /\
  match r with
  | Allocated v => wosize_bp (m s') v = wo /\ tag_hd (hd_bp (m s') v) = tag /\
      (forall b, In b L -> apart (v - 1, v - 1 + wo) (live_extent b)) /\
      color_hd (hd_bp (m s') v) = match gc_phase s with Phase_mark => Black | _ => if gc_sweep_hp s <=? v - 1 then Black else White end
  | Out_of_memory => exists F, free_list s F /\ (forall f, In f F -> wosize_bp (m s) f < wo) /\ (mem = None \/ round_heap_chunk_size incr ((wo + 1) * 8) = None)
  end.
Proof.
  intros R W Ht MO. destruct (reach_inv _ _ _ R) as (T & F & I & V & _). pose proof (v_heap _ _ _ _ I) as H. exists (S (S (length F))).
  destruct (alloc_shr_ok Fl_head (S (S (length F))) s T F incr mem wo tag I ltac:(lia) W Ht MO) as
      [(v & s1 & T' & F' & c & E & I' & H1 & H2 & H3 & H4 & H5 & H6 & H7 & H8 & H9 & _)|(last & E & H1 & H2)].
  - exists (Allocated v), s1. split; [intros fuel Hf; eapply alloc_shr_mono; eauto|]. unfold wosize_bp, hd_bp. rewrite H4. rewrite wosize_make, tag_make, color_make by (auto; lia).
    split; [reflexivity|]. split; [reflexivity|]. split.
    + intros b B. destruct (w_block _ _ _ V b B) as (X & _). assert (X' : live (m s1) T' (b_ptr b - 1) (zlen (b_data b))) by (apply H1; now left).
      assert (Y : live (m s1) T' (v - 1) wo) by (apply H1; right; auto). destruct X' as (X1 & _), Y as (Y1 & _).
      destruct (h_dis _ _ _ _ _ (v_heap _ _ _ _ I') _ _ _ _ X1 Y1) as [[Q1 Q2]|Q].
      * exfalso. apply (H3 (zlen (b_data b))). now rewrite <- Q1.
      * unfold apart, live_extent, first_word, last_word. cbn. lia.
    + rewrite H9. destruct (gc_phase s); auto; rewrite Z.geb_leb; reflexivity.
  - exists Out_of_memory, (set_last s last). split; [intros fuel Hf; eapply alloc_shr_mono; eauto|]. exists F. split; [eapply inv_free_list; eauto|auto].
Qed.

(** The sweeper frees only blocks that are white. *)
Theorem C09_sweep_frees_white s L b e s' : reach anywhere s L -> In b L -> gc_phase s = Phase_sweep -> sweep_step s = (e, s') ->
  color_hd (hd_bp (m s) (b_ptr b)) <> White \/ b_ptr b - 1 <> gc_sweep_hp s -> e <> Freed (b_ptr b).
Proof.
  intros R B PH E NW ->. destruct (reach_inv _ _ _ R) as (T & F & I & V & _).
  destruct (sweep_step_ok _ _ _ _ I PH _ _ E) as (T' & F' & I' & H1 & H2 & H3 & H4 & H5). destruct (H4 (b_ptr b - 1) eq_refl) as [X1 X2].
  unfold hd_bp in NW. destruct NW; contradiction.
Qed.

(** ** C10 *)
Definition address_ordered (F : list Z) : Prop := StronglySorted Z.lt F.
Definition coalesced (s : st) (F : list Z) : Prop := forall f g, In f F -> In g F -> f + wosize_bp (m s) f <> g - 1.
(** The free list is ordered by address and no two free blocks are adjacent, if new chunks given by
    malloc while sweeping are above the sweep pointer or below some free block.  Missing: chunks
    placed anywhere, for which the statement is false (C10_free_list_refuted). *)
Theorem C10_free_list_partial s L : reach sweep_side s L -> exists F, free_list s F /\ address_ordered F /\ coalesced s F.
Proof.
  intros R. destruct (reach_inv _ _ _ R) as (T & F & I & V & O). specialize (O (fun _ _ X => X)). pose proof (v_heap _ _ _ _ I) as H. exists F.
  split; [eapply inv_free_list; eauto|]. split; [apply O|]. intros f g X Y Q. destruct (free_tile _ H _ X) as (w & X1 & X2 & X3). destruct (free_tile _ H _ Y) as (w' & Y1 & Y2 & Y3).
  unfold wosize_bp, hd_bp in Q. rewrite (tile_size _ H _ _ X1) in Q. replace (g - 1) with (f - 1 + w + 1) in * by lia.
  exact (o_coal _ _ _ _ O (f - 1) w w' X1 Y1 X3 Y3).
Qed.
End FL.

(** *** the counterexample *)
Section Trace.
Variable h : Z.
Definition R (s : st) (ps : list Z) : Prop := exists L, reach h (anywhere) s L /\ List.map b_ptr L = ps.
Definition allocated (o : outcome (alloc_result * st)) : option (Z * st) := match o with Ret (Allocated v, s) => Some (v, s) | _ => None end.
Definition new_state (s : st) (incr : Z) (mem : option Z) (wo : Z) : st := match allocated (alloc_shr h 10 s incr mem wo 0) with Some (_, s') => s' | None => s end.
Definition new_ptr (s : st) (incr : Z) (mem : option Z) (wo : Z) : option Z := match allocated (alloc_shr h 10 s incr mem wo 0) with Some (v, _) => Some v | None => None end.
Lemma R_alloc s ps incr mem wo v : R s ps -> 1 <= wo -> malloc_ok h s incr mem wo -> new_ptr s incr mem wo = Some v -> R (new_state s incr mem wo) (v :: ps).
Proof.
  intros (L & RL & <-) W MO E. unfold new_ptr, new_state in *. destruct (alloc_shr h 10 s incr mem wo 0) as [[[v'|] s']| | |] eqn:EA; cbn [allocated] in *; try discriminate. injection E as ->.
  exists (Block v 0 (read (m s') v (Z.to_nat wo)) :: L). split; [|reflexivity]. eapply reach_step; [exact RL|].
  apply (step_alloc h anywhere s L 10 incr mem wo 0 v s'); try assumption; [lia|]. intros; exact Logic.I.
Qed.
Definition blacken (s : st) (p : Z) : st := set_m s (wr (m s) (p - 1) (blackhd_hd (hd_bp (m s) p))).
Lemma R_mark s ps p : R s ps -> In p ps -> R (blacken s p) ps.
Proof.
  intros (L & RL & <-) X. apply in_map_iff in X as (b & <- & X). exists L. split; [|reflexivity]. eapply reach_step; [exact RL|]. unfold blacken. apply step_mark; [assumption|now right].
Qed.
Definition ended (s : st) : st := match end_mark h s with Ret s' => set_phase s' Phase_sweep | _ => s end.
Lemma R_end s ps : R s ps -> gc_phase s = Phase_mark -> R (ended s) ps.
Proof.
  intros (L & RL & <-) PH. exists L. split; [|reflexivity]. unfold ended. destruct (end_mark h s) as [s'| | |] eqn:E; try assumption.
  eapply reach_step; [eapply reach_step; [exact RL|]|].
  - apply step_end_mark; [assumption|exact E].
  - apply step_end_weak. unfold end_mark in E. destruct (chunks s) as [|[c n] cs]; [discriminate|]. now injection E as <-.
Qed.
Definition swept (s : st) : st := snd (sweep_step s).
Definition remains (s : st) (ps : list Z) : list Z := match fst (sweep_step s) with Freed bp => List.filter (fun p => negb (p =? bp)) ps | _ => ps end.
Lemma R_sweep s ps : R s ps -> gc_phase s = Phase_sweep -> R (swept s) (remains s ps).
Proof.
  intros (L & RL & <-) PH. unfold swept, remains. destruct (sweep_step s) as [e s'] eqn:E. cbn [fst snd].
  exists (match e with Freed bp => List.filter (fun b => negb (b_ptr b =? bp)) L | _ => L end). split; [|].
  - eapply reach_step; [exact RL|]. now apply step_sweep.
  - destruct e as [bp| |]; try reflexivity. clear. induction L as [|b L IH]; [reflexivity|]. cbn [List.filter List.map]. destruct (b_ptr b =? bp); cbn [negb List.map]; now rewrite IH.
Qed.
End Trace.

Fixpoint sweep_many (n : nat) (s : st) : st := match n with O => s | S n => sweep_many n (swept s) end.
Lemma R_sweeps h n : forall s ps, R h s ps -> (forall k, (k < n)%nat -> gc_phase (sweep_many k s) = Phase_sweep) -> exists ps', R h (sweep_many n s) ps'.
Proof.
  induction n as [|n IH]; intros s ps RS PH; [eauto|]. cbn [sweep_many]. eapply IH.
  - apply R_sweep; [exact RS|]. apply (PH O). lia.
  - intros k Hk. apply (PH (S k)). lia.
Qed.
Definition in_sweep (s : st) : bool := match gc_phase s with Phase_sweep => true | _ => false end.
Lemma in_sweep_spec n s : forallb (fun k => in_sweep (sweep_many k s)) (List.seq 0 n) = true -> forall k, (k < n)%nat -> gc_phase (sweep_many k s) = Phase_sweep.
Proof.
  intros H k Hk. rewrite forallb_forall in H. specialize (H k ltac:(apply in_seq; lia)). unfold in_sweep in H. destruct (gc_phase _); congruence.
Qed.

(** A chunk at 30720 is filled by two blocks of 255 words; after a full collection only the lower
    one is still used.  When the sweeper has passed it, a request of 255 words extends the heap by
    a chunk at 20480: the free list is empty, so the new block becomes its only element without
    being taken into account by the sweeper, which puts the block it frees next in front of it.
    The list is not ordered any more, and the next collection does not join adjacent free blocks. *)
Definition t0 := init_major_heap 10000 30720 512.
Definition t1 := new_state 10000 t0 4096 None 255.
Definition t2 := new_state 10000 t1 4096 None 255.
Definition t3 := sweep_many 3 (ended 10000 t2).
Definition t4 := swept (ended 10000 (blacken t3 30721)).
Definition t5 := new_state 10000 t4 4096 (Some 20480) 255.
Definition t6 := sweep_many 2 t5.
Definition t7 := sweep_many 6 (ended 10000 t6).
Ltac phases := apply in_sweep_spec; vm_compute; reflexivity.

Lemma trace_reach : (exists ps, R 10000 t6 ps) /\ exists ps, R 10000 t7 ps.
Proof.
  assert (R0 : R 10000 t0 []) by (exists []; split; [apply reach_init; lia|reflexivity]).
  assert (NM : forall s, malloc_ok 10000 s 4096 None 255) by (intros s a b E; discriminate).
  assert (R1 : R 10000 t1 [30977]) by (apply R_alloc; [exact R0|lia|apply NM|vm_compute; reflexivity]).
  assert (R2 : R 10000 t2 [30721; 30977]) by (apply R_alloc; [exact R1|lia|apply NM|vm_compute; reflexivity]).
  assert (R3 : R 10000 t3 [30721; 30977]).
  { pose proof (R_end _ _ _ R2 eq_refl) as E. apply R_sweep in E; [|vm_compute; reflexivity]. apply R_sweep in E; [|vm_compute; reflexivity]. apply R_sweep in E; [|vm_compute; reflexivity].
    match type of E with R _ _ ?ps => replace ps with [30721; 30977] in E by (vm_compute; reflexivity) end. exact E. }
  assert (R4 : R 10000 t4 [30721; 30977]).
  { assert (E : R 10000 (ended 10000 (blacken t3 30721)) [30721; 30977]) by (apply R_end; [apply R_mark; [exact R3|now left]|vm_compute; reflexivity]).
    apply R_sweep in E; [|vm_compute; reflexivity]. match type of E with R _ _ ?ps => replace ps with [30721; 30977] in E by (vm_compute; reflexivity) end. exact E. }
  assert (R5 : exists v, R 10000 t5 (v :: [30721; 30977])).
  { eexists. apply R_alloc; [exact R4|lia| |vm_compute; reflexivity]. intros a b Ea Eb. injection Ea as <-.
    assert (b = 4096) by (vm_compute in Eb; congruence). subst b. change (4096 / 8) with 512. split; [lia|]. split; [lia|]. split; [lia|].
    intros a' n' X. assert (EC : chunks t4 = [(30720, 512)]) by (vm_compute; reflexivity). rewrite EC in X. destruct X as [X|[]]. injection X as <- <-. lia. }
  destruct R5 as (v & R5). destruct (R_sweeps 10000 2 t5 _ R5 ltac:(phases)) as (p6 & R6). split; [exists p6; exact R6|].
  assert (R7 : R 10000 (ended 10000 t6) p6) by (apply R_end; [exact R6|vm_compute; reflexivity]).
  exact (R_sweeps 10000 6 _ _ R7 ltac:(phases)).
Qed.
(** Also after a complete collection the list is not ordered, and two adjacent blocks which were
    both freed by sweeps are not joined. *)
Theorem C10_free_list_refuted : exists Fl_head s L F, reach Fl_head anywhere s L /\ gc_phase s = Phase_mark /\ free_list Fl_head s F /\
  (forall F', free_list Fl_head s F' -> F' = F) /\ ~ address_ordered F /\ ~ coalesced s F.
Proof.
  destruct trace_reach as [_ (ps & L & RL & _)]. exists 10000, t7, L, [30977; 20481; 30721].
  assert (FL : free_list 10000 t7 [30977; 20481; 30721]) by (vm_compute; repeat split; discriminate).
  split; [exact RL|]. split; [vm_compute; reflexivity|]. split; [exact FL|]. split; [|split].
  - intros F' X. eapply linked_unique; eauto.
  - intros X. apply StronglySorted_inv in X as [_ X]. inversion X as [|? ? X1 _]. lia.
  - intros X. apply (X 30721 30977); [now right; right; left|now left|]. vm_compute. reflexivity.
Qed.

(** Examples: the hypotheses are met by states in which blocks were allocated and freed. *)
Example C09_reachable : exists s L, reach 10000 anywhere s L /\ List.map b_ptr L = [30721; 30977] /\ free_list 10000 s [] /\ gc_phase s = Phase_sweep.
Proof.
  assert (R0 : R 10000 t0 []) by (exists []; split; [apply reach_init; lia|reflexivity]).
  assert (NM : forall s, malloc_ok 10000 s 4096 None 255) by (intros s a b E; discriminate).
  assert (R1 : R 10000 t1 [30977]) by (apply R_alloc; [exact R0|lia|apply NM|vm_compute; reflexivity]).
  assert (R2 : R 10000 t2 [30721; 30977]) by (apply R_alloc; [exact R1|lia|apply NM|vm_compute; reflexivity]).
  destruct (R_end _ _ _ R2 eq_refl) as (L & RL & EL). exists (ended 10000 t2), L. split; [exact RL|]. split; [exact EL|]. split; [vm_compute; reflexivity|vm_compute; reflexivity].
Qed.
Example C10_reachable : exists s L, reach 10000 (sweep_side 10000) s L /\ List.map b_ptr L = [20792] /\ free_list 10000 s [20481] /\ gc_phase s = Phase_mark.
Proof.
  set (s := new_state 10000 (init_major_heap 10000 20480 512) 4096 None 200).
  assert (E : alloc_shr 10000 10 (init_major_heap 10000 20480 512) 4096 None 200 0 = Ret (Allocated 20792, s)).
  { unfold s, new_state. assert (EP : new_ptr 10000 (init_major_heap 10000 20480 512) 4096 None 200 = Some 20792) by (vm_compute; reflexivity). unfold new_ptr in EP.
    destruct (alloc_shr 10000 10 (init_major_heap 10000 20480 512) 4096 None 200 0) as [[[v|] s']| | |]; cbn [allocated] in *; try discriminate. congruence. }
  exists s. eexists. split.
  - eapply reach_step; [apply (reach_init 10000 _ 20480 512); lia|].
    eapply step_alloc; [| | | |exact E]; [lia|lia|intros a b X; discriminate|intros a X; discriminate].
  - split; [reflexivity|]. split; [vm_compute; repeat split; discriminate|vm_compute; reflexivity].
Qed.

Print Assumptions C09_blocks_intact.
Print Assumptions C09_heap_is_tiled.
Print Assumptions C09_allocation.
Print Assumptions C09_sweep_frees_white.
Print Assumptions C10_free_list_partial.
Print Assumptions C10_free_list_refuted.
