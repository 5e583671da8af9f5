(** C11: Is_in_heap is exact. *)
From Coq Require Import Sorting.Permutation Sorting.Sorted.
From Verif Require Import Base ArrayLib Pagetable_Model.

(** * Specification *)

(** one heap extension: the increment in force, malloc's answer (0: none), the junk found in a grown
    table, the number of words asked for *)
Record extension := Ext { e_incr : Z; e_raw : Z; e_junk : nat -> Z * Z; e_request : Z }.

(** a history of extensions after the initial heap; the blocks handed to the allocator, latest first *)
Fixpoint extend (l : list extension) (given : list (Z * Z)) (s : st) : outcome (list (Z * Z) * st) :=
  match l with
  | [] => Ret (given, s)
  | e :: l =>
      do (h, s) <- expand_heap (e_incr e) (e_raw e) (e_junk e) (e_request e) s;
      extend l (match h with Some b => b :: given | None => given end) s
  end.

(** the memory malloc was asked for and gave: from the address to the end; nothing if not asked or NULL *)
Definition malloc_region (incr raw bytes : Z) : list (Z * Z) :=
  match round_heap_chunk_size incr bytes with
  | Some size => if raw =? 0 then [] else [(raw, raw + (size + head_size) + Page_size)]
  | None => []
  end.
Definition ext_region (e : extension) : list (Z * Z) := malloc_region (e_incr e) (e_raw e) ((e_request e + 1) * 8).
Definition disjoint (r r' : Z * Z) : Prop := snd r <= fst r' \/ snd r' <= fst r.
(** malloc gives addresses of user space, and never memory it has given before *)
Definition malloc_ok (regions : list (Z * Z)) : Prop :=
  Forall (fun r => 0 < fst r /\ snd r < two63) regions /\ ForallOrdPairs disjoint regions.

(** an increment in force: a positive multiple of the page size *)
Definition good_incr (i : Z) : Prop := 0 < i /\ (Page_size | i).
Definition ext_ok (e : extension) : Prop := good_incr (e_incr e) /\ 0 <= e_request e.

(** the address [p] belongs to a block handed over, its header included *)
Definition in_block (p : Z) (b : Z * Z) : Prop := fst b - 8 <= p < fst b + 8 * snd b.

(** * Proofs *)
Lemma shiftr_page p : RawPage p = p / 4096.
Proof. unfold RawPage, Page_log. now rewrite Z.shiftr_div_pow2. Qed.

Lemma round_ok incr b size : good_incr incr -> 0 < b -> round_heap_chunk_size incr b = Some size ->
  b <= size /\ 0 < size /\ (4096 | size).
Proof.
  unfold good_incr, round_heap_chunk_size, Page_log, Page_size. intros [I D] B H.
  destruct (Z.ltb_spec b incr).
  - injection H as <-. repeat split; try lia; assumption.
  - destruct (b <=? Heap_chunk_max); [|discriminate].
    rewrite Z.shiftr_div_pow2, Z.shiftl_mul_pow2 in H by lia. change (2 ^ 12) with 4096 in H.
    assert (size = (b + 4096 - 1) / 4096 * 4096) as -> by congruence.
    split; [lia|]. split; [lia|]. eexists. reflexivity.
Qed.

Lemma aligned_ok raw : let mem := aligned_malloc raw head_size + head_size in
  (4096 | mem) /\ raw + head_size < mem <= raw + head_size + 4096.
Proof.
  unfold aligned_malloc, head_size, Page_size. cbn zeta.
  replace (((raw + 16) / 4096 + 1) * 4096 - 16 + 16) with (((raw + 16) / 4096 + 1) * 4096) by lia.
  split; [eexists; reflexivity|lia].
Qed.

Definition pages (c : Z * Z) : Z * Z := (RawPage (fst c), RawPage (fst c + snd c)).
Definition chunk_of (b : Z * Z) : Z * Z := (fst b - 8, 8 * (snd b + 1)).
Definition good_chunk (c : Z * Z) : Prop := 0 < fst c /\ 0 < snd c /\ (4096 | fst c) /\ (4096 | snd c) /\ fst c + snd c < two63.
Definition inside (c r : Z * Z) : Prop := fst r <= fst c /\ fst c + snd c <= snd r.
Definition apart (c c' : Z * Z) : Prop := fst c + snd c <= fst c' \/ fst c' + snd c' <= fst c.
Definition before (c c' : Z * Z) : Prop := fst c + snd c <= fst c'.

(** the entries of the table are the chunks in order of addition *)
Record inv (cs : list (Z * Z)) (s : st) : Prop := Inv {
  i_cur : p_cur s = zlen cs;
  i_tab : p_cur s <= zlen (p_table s);
  i_cap : 0 < zlen (p_table s);
  i_ent : forall i, 0 <= i < zlen cs -> zget (p_table s) i = option_map pages (zget (rev cs) i);
  i_perm : Permutation (chunks s) cs;
  i_sort : StronglySorted before (chunks s);
  i_good : Forall good_chunk cs;
  i_end : exists c, In c cs /\ heap_end s = fst c + snd c;
  i_max : forall c, In c cs -> fst c + snd c <= heap_end s
}.

Lemma good_in c p : good_chunk c -> 0 <= p ->
  (fst (pages c) <= RawPage p < snd (pages c) <-> fst c <= p < fst c + snd c).
Proof.
  intros (A & B & (x & C) & (y & D) & _) P. unfold pages. cbn [fst snd]. rewrite !shiftr_page. destruct c as [a n]. cbn in *. subst. lia.
Qed.

Lemma any_entry_ok t p : forall k i, 0 <= i -> i + Z.of_nat k <= zlen t ->
  exists b, any_entry t p i k = Ret b /\
    (b = true <-> exists j e, i <= j < i + Z.of_nat k /\ zget t j = Some e /\ fst e <= p < snd e).
Proof.
  induction k as [|k IH]; intros i I K.
  - exists false. split; [reflexivity|]. split; [discriminate|]. intros (j & e & J & _). lia.
  - cbn [any_entry]. destruct (zget_some t i ltac:(lia)) as (e & E). unfold sub_raw at 1. rewrite E. cbn [bind].
    destruct ((fst e <=? p) && (p <? snd e)) eqn:H.
    + exists true. split; [reflexivity|]. split; [|reflexivity]. intros _. exists i, e. split; [lia|]. split; [exact E|lia].
    + destruct (IH (i + 1) ltac:(lia) ltac:(lia)) as (b & B & S'). exists b. split; [exact B|]. rewrite S'.
      split; intros (j & e' & J & E' & P).
      * exists j, e'. split; [lia|auto].
      * destruct (Z.eq_dec j i) as [->|N].
        { rewrite E in E'. injection E' as <-. lia. }
        exists j, e'. split; [lia|auto].
Qed.

Lemma loop_ok t n p : n <= zlen t -> forall fuel i, 0 <= i -> (Z.to_nat (n - i) < fuel)%nat ->
  exists b, in_heap_loop fuel t n p i = Ret b /\
    (b = true <-> exists j e, i <= j < n /\ zget t j = Some e /\ fst e <= p < snd e).
Proof.
  intros N. induction fuel as [|fuel IH]; intros i I F; [lia|]. cbn [in_heap_loop].
  destruct (Z.ltb_spec (i + 63) n).
  - destruct (any_entry_ok t p 64 i I ltac:(lia)) as (b & B & S'). rewrite B. cbn [bind]. destruct b.
    + exists true. split; [reflexivity|]. split; [|reflexivity]. intros _.
      destruct (proj1 S' eq_refl) as (j & e & J & Q). exists j, e. split; [lia|exact Q].
    + destruct (IH (i + 64) ltac:(lia) ltac:(lia)) as (b & B' & S''). exists b. split; [exact B'|]. rewrite S''.
      split; intros (j & e & J & Q); exists j, e; (split; [|exact Q]); [lia|].
      destruct (Z.lt_ge_cases j (i + 64)); [|lia]. exfalso.
      assert (false = true) by (apply S'; exists j, e; split; [lia|exact Q]). discriminate.
  - destruct ((1 <=? n - i) && (n - i <=? 63)) eqn:E.
    + destruct (any_entry_ok t p (Z.to_nat (n - i)) i I ltac:(lia)) as (b & B & S'). exists b. split; [exact B|].
      rewrite S'. replace (i + Z.of_nat (Z.to_nat (n - i))) with n by lia. reflexivity.
    + exists false. split; [reflexivity|]. split; [discriminate|]. intros (j & e & J & _). lia.
Qed.

Lemma sorted_first c l x : StronglySorted before (c :: l) -> Forall good_chunk (c :: l) -> In x (c :: l) -> fst c <= fst x.
Proof.
  intros S' G [<-|X]; [lia|]. inversion S' as [|? ? _ F]; subst. rewrite Forall_forall in F. specialize (F _ X).
  inversion G as [|? ? (A & B & _)]; subst. unfold before in F. lia.
Qed.

Lemma is_in_heap_ok cs s p : inv cs s -> 0 <= p ->
  exists b, is_in_heap s p = Ret b /\ (b = true <-> exists c, In c cs /\ fst c <= p < fst c + snd c).
Proof.
  intros I P. destruct I as [C T K E PM SO G EN M].
  assert (forall c, In c cs -> heap_start s <= fst c) as HS.
  { intros c X. unfold heap_start. apply Permutation_sym in PM.
    pose proof (Permutation_in _ PM X) as X'. assert (Forall good_chunk (chunks s)) as G'.
    { apply Forall_forall. intros y Y. rewrite Forall_forall in G. apply G. apply Permutation_sym in PM. eapply Permutation_in; eauto. }
    destruct (chunks s) as [|[a n] l]; [destruct X'|]. exact (sorted_first _ _ _ SO G' X'). }
  unfold is_in_heap. destruct ((p >=? heap_start s) && (p <? heap_end s)) eqn:B.
  - unfold p_table_in_heap.
    destruct (loop_ok (p_table s) (p_cur s) (RawPage p) T (S (Z.to_nat (p_cur s))) 0 ltac:(lia) ltac:(lia)) as (b & L & S').
    exists b. split; [exact L|]. rewrite S'. rewrite C. rewrite Forall_forall in G. split.
    + intros (j & e & J & E' & Q). rewrite E in E' by lia.
      destruct (zget (rev cs) j) as [c|] eqn:R; [|discriminate]. injection E' as <-.
      assert (In c cs) as X by (apply in_rev; now apply zget_In in R). exists c. split; [exact X|]. now apply good_in; auto.
    + intros (c & X & Q). apply in_rev in X. destruct (In_zget _ _ X) as (j & J). pose proof (zget_range _ _ _ J) as R.
      assert (zlen (rev cs) = zlen cs) as RL by (unfold zlen; now rewrite rev_length).
      exists j, (pages c). split; [lia|]. rewrite E, J by lia. split; [reflexivity|]. apply good_in; auto. apply G. now apply in_rev.
  - exists false. split; [reflexivity|]. split; [discriminate|]. intros (c & X & Q).
    specialize (HS _ X). specialize (M _ X). lia.
Qed.

Lemma add_pages_ok junk s cs c (ce := RawPage (fst c + snd c)) :
  p_cur s = zlen cs -> p_cur s <= zlen (p_table s) -> 0 < zlen (p_table s) ->
  (forall i, 0 <= i < zlen cs -> zget (p_table s) i = option_map pages (zget (rev cs) i)) ->
  exists t, p_table_add_pages junk s (fst c) (fst c + snd c) = Ret (St (heap_end s) (chunks s) t (p_cur s + 1)) /\
    zlen cs + 1 <= zlen t /\
    forall i, 0 <= i < zlen (c :: cs) -> zget t i = option_map pages (zget (rev (c :: cs)) i).
Proof.
  intros C T K E. unfold p_table_add_pages.
  set (t := if p_cur s =? zlen (p_table s) then p_table_update_size junk (p_table s) else p_table s).
  assert (zlen cs < zlen t /\ forall i, 0 <= i < zlen cs -> zget t i = option_map pages (zget (rev cs) i)) as [T1 E1].
  { unfold t. destruct (Z.eqb_spec (p_cur s) (zlen (p_table s))) as [Q|Q]; [|split; [lia|exact E]].
    unfold p_table_update_size. split.
    - rewrite zlen_app. unfold zlen at 3. rewrite map_length, seq_length. unfold zlen in *. lia.
    - intros i I. rewrite zget_app. destruct (Z.ltb_spec i (zlen (p_table s))); [now apply E|lia]. }
  clearbody t. destruct (zset_some t (p_cur s) (pages c) ltac:(pose proof (zlen_nonneg cs); lia)) as (t' & Z1 & Z2 & Z3).
  unfold update_raw. fold ce. unfold pages in Z1 at 1. fold ce in Z1. rewrite Z1. cbn [bind].
  exists t'. split; [reflexivity|]. split; [lia|]. intros i I. rewrite zlen_cons in I. rewrite Z3. cbn [rev]. rewrite zget_app.
  assert (zlen (rev cs) = zlen cs) as RL by (unfold zlen; now rewrite rev_length). rewrite RL.
  destruct (Z.eqb_spec i (p_cur s)) as [Q|Q], (Z.ltb_spec i (zlen cs)) as [Q'|Q']; try lia.
  - replace (i - zlen cs) with 0 by lia. reflexivity.
  - apply E1. lia.
Qed.

Lemma link_perm mem size : forall l, Permutation (link_chunk l mem size) ((mem, size) :: l).
Proof.
  induction l as [|[a n] l IH]; cbn; [reflexivity|]. destruct (a <? mem); [|reflexivity].
  rewrite IH. apply perm_swap.
Qed.
Lemma link_sorted mem size : 0 < size -> forall l, StronglySorted before l -> Forall (fun c => apart c (mem, size) /\ 0 < snd c) l ->
  StronglySorted before (link_chunk l mem size).
Proof.
  intros SZ. induction l as [|[a n] l IH]; intros S' F; cbn.
  - constructor; constructor.
  - inversion S' as [|? ? S1 F1]; subst. inversion F as [|? ? [A P] F2]; subst. unfold apart in A. cbn in A, P.
    destruct (Z.ltb_spec a mem).
    + constructor; [now apply IH|]. apply Forall_forall. intros x X. apply (Permutation_in _ (link_perm _ _ _)) in X.
      destruct X as [<-|X]; [unfold before; cbn; lia|]. rewrite Forall_forall in F1. now apply F1.
    + constructor; [exact S'|]. constructor; [unfold before; cbn; lia|]. apply Forall_forall. intros x X.
      rewrite Forall_forall in F1. specialize (F1 _ X). unfold before in *. cbn in *. lia.
Qed.

Lemma inv_add junk cs s mem size : inv cs s -> good_chunk (mem, size) -> Forall (fun c => apart c (mem, size)) cs ->
  let s1 := if mem <? heap_start s then St (heap_end s) ((mem, size) :: chunks s) (p_table s) (p_cur s)
            else St (if mem >=? heap_end s then mem + size else heap_end s) (link_chunk (chunks s) mem size) (p_table s) (p_cur s) in
  exists s2, p_table_add_pages junk s1 mem (mem + size) = Ret s2 /\ inv ((mem, size) :: cs) s2.
Proof.
  intros [C T K E PM SO G EN M] GC AP s1.
  assert (p_table s1 = p_table s /\ p_cur s1 = p_cur s) as [P1 P2] by (unfold s1; now destruct (mem <? heap_start s)).
  destruct (add_pages_ok junk s1 cs (mem, size)) as (t & A & B & D); rewrite ?P1, ?P2; auto.
  cbn [fst snd] in A. rewrite A. eexists. split; [reflexivity|].
  assert (Forall (fun c => apart c (mem, size)) (chunks s)) as AP'.
  { apply Forall_forall. intros x X. rewrite Forall_forall in AP. apply AP. eapply Permutation_in; eauto. }
  assert (Forall good_chunk (chunks s)) as G'.
  { apply Forall_forall. intros x X. rewrite Forall_forall in G. apply G. eapply Permutation_in; eauto. }
  assert (0 < size) as SZ by apply GC.
  destruct EN as (ce & EN1 & EN2).
  constructor; cbn [p_cur p_table chunks heap_end].
  - rewrite P2, C, zlen_cons. lia.
  - rewrite P2, C. lia.
  - pose proof (zlen_nonneg cs). lia.
  - exact D.
  - unfold s1. destruct (mem <? heap_start s); cbn [chunks].
    + now apply perm_skip.
    + rewrite link_perm. now apply perm_skip.
  - unfold s1. destruct (Z.ltb_spec mem (heap_start s)) as [Q|Q]; cbn [chunks].
    + constructor; [exact SO|]. apply Forall_forall. intros x X. unfold before. cbn.
      rewrite Forall_forall in AP'. specialize (AP' _ X). unfold apart in AP'. cbn in AP'.
      assert (heap_start s <= fst x) as Y.
      { unfold heap_start. destruct (chunks s) as [|[a n] l]; [destruct X|]. exact (sorted_first _ _ _ SO G' X). }
      rewrite Forall_forall in G'. destruct (G' _ X) as (? & ? & _). lia.
    + apply link_sorted; auto. apply Forall_forall. intros x X. rewrite Forall_forall in AP', G'. split; [now apply AP'|]. now apply G'.
  - now constructor.
  - unfold s1. destruct (Z.ltb_spec mem (heap_start s)) as [Q|Q]; cbn [heap_end].
    + exists ce. split; [now right|exact EN2].
    + destruct (mem >=? heap_end s) eqn:Q'.
      * exists (mem, size). split; [now left|reflexivity].
      * exists ce. split; [now right|exact EN2].
  - assert (heap_start s <= fst ce /\ 0 < snd ce) as [Y Y'].
    { apply Permutation_sym in PM. pose proof (Permutation_in _ PM EN1) as X. unfold heap_start.
      rewrite Forall_forall in G'. split; [|now apply G'].
      destruct (chunks s) as [|[a n] l]; [destruct X|]. apply (sorted_first _ _ _ SO); auto. apply Forall_forall; exact G'. }
    rewrite Forall_forall in AP. pose proof (AP _ EN1) as APe. unfold apart in APe. cbn in APe.
    unfold s1. intros x [<-|X].
    + cbn [fst snd]. destruct (Z.ltb_spec mem (heap_start s)) as [Q|Q]; cbn [heap_end]; [lia|].
      destruct (mem >=? heap_end s) eqn:Q'; lia.
    + specialize (M _ X). destruct (mem <? heap_start s); cbn [heap_end]; [exact M|].
      destruct (mem >=? heap_end s) eqn:Q'; lia.
Qed.

Lemma chunk_of_block mem size : (8 | size) -> chunk_of (mem + 8, Wosize_bhsize size) = (mem, size).
Proof. intros (k & ->). unfold chunk_of, Wosize_bhsize. cbn [fst snd]. rewrite Z.div_mul by lia. f_equal; lia. Qed.
Lemma div8 n : (4096 | n) -> (8 | n).
Proof. intros (k & ->). exists (k * 512). lia. Qed.

(** one extension *)
Lemma expand_ok e rs given s : inv (map chunk_of given) s -> ext_ok e ->
  malloc_ok (ext_region e ++ rs) -> Forall2 inside (map chunk_of given) rs ->
  exists h s', expand_heap (e_incr e) (e_raw e) (e_junk e) (e_request e) s = Ret (h, s') /\
    let given' := match h with Some b => b :: given | None => given end in
    inv (map chunk_of given') s' /\ Forall2 inside (map chunk_of given') (ext_region e ++ rs) /\
    match h with Some b => e_request e <= snd b /\ (Page_size | fst b - 8) | None => True end.
Proof.
  intros I [GI RQ] [MO1 MO2] F2. unfold ext_region, malloc_region in *. unfold expand_heap, Bhsize_wosize.
  destruct (round_heap_chunk_size (e_incr e) ((e_request e + 1) * 8)) as [size|] eqn:R.
  2:{ exists None, s. cbn. auto. }
  destruct (round_ok (e_incr e) ((e_request e + 1) * 8) size GI ltac:(lia) R) as (R1 & R2 & R3).
  destruct (Z.eqb_spec (e_raw e) 0) as [Z0|Z0].
  { exists None, s. cbn. auto. }
  destruct (aligned_ok (e_raw e)) as (A1 & A2). set (mem := aligned_malloc (e_raw e) head_size + head_size) in *. clearbody mem.
  cbn [app] in *. inversion MO1 as [|? ? (M1 & M2) MO1']; subst. cbn [fst snd] in M1, M2.
  inversion MO2 as [|? ? MD MO2']; subst. unfold Page_size, head_size in *.
  assert (good_chunk (mem, size)) as GC by (unfold good_chunk; cbn; repeat split; auto; lia).
  destruct (inv_add (e_junk e) _ s mem size I GC) as (s2 & S1 & S2).
  { apply Forall_forall. intros x X. assert (exists r, In r rs /\ inside x r) as (r & RI & IN).
    { clear -F2 X. revert X. induction F2 as [|y r l l' IN F IH]; intros X; [destruct X|]. destruct X as [<-|X].
      - exists r. split; [now left|exact IN].
      - destruct (IH X) as (r' & ? & ?). exists r'. split; [now right|assumption]. }
    rewrite Forall_forall in MD. specialize (MD _ RI). unfold disjoint, inside, apart in *. cbn in *. lia. }
  cbn zeta in S1. rewrite S1. cbn [bind].
  exists (Some (mem + 8, Wosize_bhsize size)), s2. split; [reflexivity|]. cbn zeta.
  cbn [map]. rewrite chunk_of_block by now apply div8. split; [exact S2|]. split.
  - constructor; [|exact F2]. unfold inside. cbn. lia.
  - cbn [fst snd]. replace (mem + 8 - 8) with mem by lia. split; [|exact A1]. unfold Wosize_bhsize. lia.
Qed.

Lemma extend_ok : forall l rs given s, inv (map chunk_of given) s -> Forall ext_ok l ->
  malloc_ok (flat_map ext_region (rev l) ++ rs) -> Forall2 inside (map chunk_of given) rs ->
  exists given' s', extend l given s = Ret (given', s') /\ inv (map chunk_of given') s' /\
    Forall2 inside (map chunk_of given') (flat_map ext_region (rev l) ++ rs).
Proof.
  induction l as [|e l IH]; intros rs given s I EO MO F2; cbn [extend].
  - exists given, s. auto.
  - inversion EO as [|? ? EO1 EO2]; subst. cbn [rev] in MO. rewrite flat_map_app in MO. cbn [flat_map] in MO.
    rewrite app_nil_r, <- app_assoc in MO.
    assert (malloc_ok (ext_region e ++ rs)) as MO1.
    { destruct MO as [MA MB]. split.
      - now apply Forall_app in MA.
      - clear -MB. induction (flat_map ext_region (rev l)) as [|x y IH]; [exact MB|]. apply IH. now inversion MB. }
    destruct (expand_ok e rs given s I EO1 MO1 F2) as (h & s' & X & I' & F2' & _). rewrite X. cbn [bind].
    destruct (IH (ext_region e ++ rs) _ s' I' EO2 MO F2') as (g & s'' & Y1 & Y2 & Y3).
    exists g, s''. split; [exact Y1|]. split; [exact Y2|]. cbn [rev]. rewrite flat_map_app. cbn [flat_map].
    now rewrite app_nil_r, <- app_assoc.
Qed.

(** the initial heap *)
Lemma init_ok incr raw junk : good_incr incr -> malloc_ok (malloc_region incr raw incr) ->
  exists r, init_major_heap incr raw junk = Ret r /\
    match r with
    | Some (bp, w, s) => inv (map chunk_of [(bp, w)]) s /\ Forall2 inside (map chunk_of [(bp, w)]) (malloc_region incr raw incr)
    | None => True
    end.
Proof.
  intros GI [MO _]. unfold malloc_region in *. unfold init_major_heap.
  destruct (round_heap_chunk_size incr incr) as [size|] eqn:R; [|eexists; split; [reflexivity|exact I]].
  destruct (round_ok incr incr size GI (proj1 GI) R) as (R1 & R2 & R3).
  destruct (Z.eqb_spec raw 0) as [Z0|Z0]; [eexists; split; [reflexivity|exact I]|].
  destruct (aligned_ok raw) as (A1 & A2). set (mem := aligned_malloc raw head_size + head_size) in *. clearbody mem.
  inversion MO as [|? ? (M1 & M2) _]; subst. cbn [fst snd] in M1, M2. unfold Page_size, head_size in *.
  assert (good_chunk (mem, size)) as GC by (unfold good_chunk; cbn; repeat split; auto; lia).
  unfold p_table_init.
  destruct (add_pages_ok junk (St (mem + size) [(mem, size)] (map junk (seq 0 64)) 0) [] (mem, size)) as (t & A & B & D); cbn [p_cur p_table].
  - reflexivity.
  - apply zlen_nonneg.
  - unfold zlen. rewrite map_length, seq_length. lia.
  - intros i I. change (zlen (@nil (Z * Z))) with 0 in I. lia.
  - cbn [fst snd] in A. rewrite A. cbn [bind]. eexists. split; [reflexivity|]. cbn [map].
    rewrite chunk_of_block by now apply div8. cbn [chunks heap_end p_cur p_table]. split.
    + constructor; cbn [chunks heap_end p_cur p_table]; auto.
      * change (zlen (@nil (Z * Z))) with 0 in B. lia.
      * constructor; constructor.
      * exists (mem, size). split; [now left|reflexivity].
      * intros c [<-|[]]. cbn. lia.
    + constructor; [|constructor]. unfold inside. cbn. lia.
Qed.

(** * Theorems *)

(** Whatever the history of heap extensions, for every address Is_in_heap answers, and answers yes
    exactly for the addresses of the blocks handed to the allocator. *)
Theorem C11_exact : forall incr raw junk l bp w s0,
  good_incr incr -> Forall ext_ok l ->
  malloc_ok (flat_map ext_region (rev l) ++ malloc_region incr raw incr) ->
  init_major_heap incr raw junk = Ret (Some (bp, w, s0)) ->
  exists given s, extend l [(bp, w)] s0 = Ret (given, s) /\
    forall p, 0 <= p -> exists b, is_in_heap s p = Ret b /\ (b = true <-> exists blk, In blk given /\ in_block p blk).
Proof.
  intros incr raw junk l bp w s0 GI EO MO H.
  assert (malloc_ok (malloc_region incr raw incr)) as MO1.
  { destruct MO as [MA MB]. split.
    - now apply Forall_app in MA.
    - clear -MB. induction (flat_map ext_region (rev l)) as [|x y IH]; [exact MB|]. apply IH. now inversion MB. }
  destruct (init_ok incr raw junk GI MO1) as (r & R & Q). rewrite H in R. injection R as <-. destruct Q as [I F2].
  destruct (extend_ok l _ _ s0 I EO MO F2) as (given & s & X & I' & _).
  exists given, s. split; [exact X|]. intros p P. destruct (is_in_heap_ok _ _ p I' P) as (b & B & S').
  exists b. split; [exact B|]. rewrite S'. split.
  - intros (c & C & Q). apply in_map_iff in C as (blk & <- & Y). exists blk. split; [exact Y|].
    unfold in_block, chunk_of in *. cbn [fst snd] in *. lia.
  - intros (blk & Y & Q). exists (chunk_of blk). split; [now apply in_map|]. unfold in_block, chunk_of in *. cbn [fst snd] in *. lia.
Qed.

(** The list of chunks that marking and sweeping walk consists of exactly the chunks of those blocks,
    by increasing address and without overlap; heap_start and heap_end are its bounds. *)
Theorem C11_chunks : forall incr raw junk l bp w s0 given s,
  good_incr incr -> Forall ext_ok l ->
  malloc_ok (flat_map ext_region (rev l) ++ malloc_region incr raw incr) ->
  init_major_heap incr raw junk = Ret (Some (bp, w, s0)) ->
  extend l [(bp, w)] s0 = Ret (given, s) ->
  Permutation (chunks s) (map (fun b => (fst b - 8, 8 * (snd b + 1))) given) /\
  StronglySorted (fun c c' => fst c + snd c <= fst c') (chunks s) /\
  Forall (fun c => heap_start s <= fst c /\ fst c + snd c <= heap_end s) (chunks s).
Proof.
  intros incr raw junk l bp w s0 given s GI EO MO H X.
  assert (malloc_ok (malloc_region incr raw incr)) as MO1.
  { destruct MO as [MA MB]. split.
    - now apply Forall_app in MA.
    - clear -MB. induction (flat_map ext_region (rev l)) as [|x y IH]; [exact MB|]. apply IH. now inversion MB. }
  destruct (init_ok incr raw junk GI MO1) as (r & R & Q). rewrite H in R. injection R as <-. destruct Q as [I F2].
  destruct (extend_ok l _ _ s0 I EO MO F2) as (given' & s' & X' & I' & _). rewrite X in X'. injection X' as <- <-.
  destruct I'. split; [assumption|]. split; [assumption|]. apply Forall_forall. intros c C. split.
  - unfold heap_start. assert (Forall good_chunk (chunks s)).
    { apply Forall_forall. intros y Y. rewrite Forall_forall in i_good0. apply i_good0. eapply Permutation_in; eauto. }
    destruct (chunks s) as [|[a n] cs]; [destruct C|]. exact (sorted_first (a, n) cs c i_sort0 H0 C).
  - apply i_max0. eapply Permutation_in; eauto.
Qed.

(** A block handed over has at least the size asked for, lies within what malloc gave, and starts a page. *)
Theorem C11_block : forall e s bp w s',
  ext_ok e -> expand_heap (e_incr e) (e_raw e) (e_junk e) (e_request e) s = Ret (Some (bp, w), s') ->
  e_request e <= w /\ (Page_size | bp - 8) /\
  exists a b, In (a, b) (ext_region e) /\ a <= bp - 8 /\ bp + 8 * w <= b.
Proof.
  intros e s bp w s' [GI RQ] H. unfold ext_region, malloc_region. unfold expand_heap, Bhsize_wosize in H.
  destruct (round_heap_chunk_size (e_incr e) ((e_request e + 1) * 8)) as [size|] eqn:R; [|discriminate].
  destruct (round_ok (e_incr e) ((e_request e + 1) * 8) size GI ltac:(lia) R) as (R1 & R2 & R3).
  destruct (e_raw e =? 0) eqn:Z0; [discriminate|].
  destruct (aligned_ok (e_raw e)) as (A1 & A2). set (mem := aligned_malloc (e_raw e) head_size + head_size) in *. clearbody mem.
  set (o := p_table_add_pages _ _ _ _) in H. clearbody o. destruct o as [s2| | |]; try discriminate H. cbn [bind] in H.
  assert (bp = mem + 8 /\ w = Wosize_bhsize size) as [-> ->] by (split; congruence).
  unfold Page_size, head_size in *. replace (mem + 8 - 8) with mem by lia. apply div8 in R3 as (k & ->).
  unfold Wosize_bhsize. rewrite Z.div_mul by lia. split; [lia|]. split; [exact A1|].
  eexists _, _. split; [now left|]. lia.
Qed.

(** The increment fixed at start-up is a positive multiple of the page size, whatever was asked for. *)
Theorem C11_start_increment : forall words, 0 <= words -> good_incr (init_increment words).
Proof.
  intros words W. unfold good_incr, init_increment, norm_heapincr, Page_log, Page_size.
  rewrite Z.shiftr_div_pow2, !Z.shiftl_mul_pow2 by lia. change (2 ^ 12) with 4096.
  change Heap_chunk_min with 1024. change Heap_chunk_max with (2 ^ 57).
  set (i := (words + 1 * 4096 - 1) / 4096 * 4096).
  assert (0 <= i /\ exists k, i = k * 4096) as [I (k & K)] by (split; [unfold i; lia|eexists; reflexivity]).
  clearbody i. destruct (Z.ltb_spec i 1024).
  - cbn. split; [lia|]. exists 2. reflexivity.
  - destruct (Z.gtb_spec i (2 ^ 57)).
    + split; [reflexivity|]. exists (2 ^ 48). reflexivity.
    + split; [lia|]. exists (k * 8). lia.
Qed.

(** gc_set may leave an increment that is not a multiple of the page size (it clamps to a bound that is
    a number of words); a small chunk added then is not recognised as part of the heap. *)
Theorem C11_gc_set_refuted : exists words incr raw junk bp w s0 e given s p blk,
  0 <= words /\ good_incr incr /\ 0 <= e_request e /\
  e_incr e = set_increment words /\
  malloc_ok (ext_region e ++ malloc_region incr raw incr) /\
  init_major_heap incr raw junk = Ret (Some (bp, w, s0)) /\
  extend [e] [(bp, w)] s0 = Ret (given, s) /\
  In blk given /\ in_block p blk /\ is_in_heap s p = Ret false.
Proof.
  exists 0, 8192, 40960, (fun _ => (0, 0)), 45064, 1023.
  eexists. exists (Ext 1024 81920 (fun _ => (0, 0)) 10). eexists _, _, 86028, (86024, 127).
  split; [lia|]. split; [split; [lia|]; exists 2; reflexivity|]. split; [cbn; lia|]. split; [reflexivity|].
  split.
  { split.
    - repeat constructor; cbn; unfold two63; lia.
    - repeat constructor; unfold disjoint; cbn; lia. }
  split; [vm_compute; reflexivity|]. split; [vm_compute; reflexivity|].
  split; [now left|]. split; [unfold in_block; cbn; lia|]. vm_compute. reflexivity.
Qed.

(** * The hypotheses are met *)
Definition ex_exts : list extension :=
  [Ext 8192 40960 (fun _ => (0, 9)) 10; Ext 8192 0 (fun _ => (0, 0)) 10; Ext 8192 200000 (fun _ => (0, 0)) 5000;
   Ext 8192 65000 (fun _ => (0, 0)) 7].
Example C11_ex_hyps : good_incr 8192 /\ Forall ext_ok ex_exts /\
  malloc_ok (flat_map ext_region (rev ex_exts) ++ malloc_region 8192 100000 8192).
Proof.
  assert (good_incr 8192) as G by (split; [lia|]; exists 2; reflexivity).
  split; [exact G|]. split; [unfold ex_exts; repeat (apply Forall_cons; [split; [exact G|cbn; lia]|]); apply Forall_nil|]. split.
  - repeat constructor; cbn; unfold two63; lia.
  - repeat constructor; unfold disjoint; cbn; lia.
Qed.
Example C11_ex_run : exists bp w s0 given s,
  init_major_heap 8192 100000 (fun n => (Z.of_nat n, 1000)) = Ret (Some (bp, w, s0)) /\
  extend ex_exts [(bp, w)] s0 = Ret (given, s) /\ length given = 4%nat /\
  is_in_heap s 46000 = Ret true /\ is_in_heap s 60000 = Ret false /\ is_in_heap s 210000 = Ret true.
Proof.
  do 5 eexists. split; [vm_compute; reflexivity|]. split; [vm_compute; reflexivity|].
  repeat split; vm_compute; reflexivity.
Qed.

Print Assumptions C11_exact.
Print Assumptions C11_chunks.
Print Assumptions C11_block.
Print Assumptions C11_start_increment.
Print Assumptions C11_gc_set_refuted.
