(** C32: dynamic arrays are total functions from the natural numbers with a default value. *)
From Verif Require Import Base ArrayLib Hash_Model Copy_Model Copy_Proofs Dynarray_Model.

Section Props.
Context {V : Type}.
(** the value of a dynamic array at index i *)
Definition at_ (b : dyn V) (i : Z) : V := match zget (arr b) i with Some v => v | None => dflt b end.
Definition ok (b : dyn V) : Prop := zlen (arr b) <= maxLen.

Lemma tab_from_ok f (g : Z -> V) k : forall i, (forall j, i <= j < i + Z.of_nat k -> f j = Ret (g j)) ->
  exists l, tab_from k i f = Ret l /\ zlen l = Z.of_nat k /\ forall j, zget l j = if (0 <=? j) && (j <? Z.of_nat k) then Some (g (i + j)) else None.
Proof.
  induction k as [|k IH]; intros i H; cbn [tab_from].
  - exists []. split; [reflexivity|]. split; [reflexivity|]. intros j. destruct (Z.leb_spec 0 j), (Z.ltb_spec j (Z.of_nat 0)); cbn [andb]; try lia; apply zget_none; unfold zlen; cbn; lia.
  - rewrite H by lia. cbn [bind]. destruct (IH (i + 1)) as (l & -> & L & G). { intros j Hj. apply H. lia. }
    cbn [bind]. exists (g i :: l). split; [reflexivity|]. split; [rewrite zlen_cons; lia|]. intros j. rewrite zget_cons, G.
    destruct (Z.eqb_spec j 0) as [->|].
    + destruct (Z.leb_spec 0 0), (Z.ltb_spec 0 (Z.of_nat (S k))); cbn [andb]; try lia. now rewrite Z.add_0_r.
    + destruct (Z.leb_spec 0 (j - 1)), (Z.ltb_spec (j - 1) (Z.of_nat k)), (Z.leb_spec 0 j), (Z.ltb_spec j (Z.of_nat (S k))); cbn [andb]; try lia; try reflexivity.
      f_equal. f_equal. lia.
Qed.
Lemma tabulate_ok f (g : Z -> V) n : 0 <= n <= maxLen -> (forall j, 0 <= j < n -> f j = Ret (g j)) ->
  exists l, tabulate_ n f = Ret l /\ zlen l = n /\ forall j, zget l j = if (0 <=? j) && (j <? n) then Some (g j) else None.
Proof.
  intros Hn H. unfold tabulate_. rewrite Z.gtb_ltb. destruct (Z.ltb_spec n 0), (Z.ltb_spec maxLen n); try lia. cbn [orb].
  destruct (tab_from_ok f g (Z.to_nat n) 0) as (l & E & L & G). { intros j Hj. apply H. lia. }
  exists l. rewrite Z2Nat.id in L, G by lia. auto.
Qed.
Lemma sub_chk_at (b : dyn V) i : 0 <= i -> sub b i = Ret (at_ b i).
Proof.
  intros H. unfold sub, sub_chk, at_. destruct (zget (arr b) i); [reflexivity|]. destruct (Z.ltb_spec i 0); [lia|reflexivity].
Qed.
Lemma expand_ok (b : dyn V) n : zlen (arr b) <= n <= maxLen ->
  exists l, expand (arr b) (bound b) n (dflt b) = Ret l /\ zlen l = n /\ forall j, 0 <= j < n -> zget l j = Some (at_ b j).
Proof.
  intros H. unfold expand. pose proof (zlen_nonneg (arr b)).
  destruct (tabulate_ok (fun i => if i <? bound b then sub_chk (arr b) i else Ret (dflt b)) (at_ b) n) as (l & E & L & G); [lia| |].
  - intros j Hj. unfold bound, sub_chk, at_. destruct (Z.ltb_spec j (zlen (arr b))).
    + now destruct (zget_some (arr b) j) as [x ->]; [lia|].
    + now rewrite zget_none by lia.
  - exists l. split; [assumption|]. split; [assumption|]. intros j Hj. rewrite G. now destruct (Z.leb_spec 0 j), (Z.ltb_spec j n); try lia.
Qed.

(** ** update *)
(** Writing at i >= 0 changes the value at i and no other; the array is made longer when i is at or
    beyond the bound.  The only other outcomes: Subscript for i < 0, and Size (Overflow for
    i = maxInt) when the inner array would have to be longer than Array.maxLen. *)
Theorem C32_update : forall (b : dyn V) i v, ok b -> in_int i ->
  if i <? 0 then update b i v = Raise Subscript
  else if i <? bound b then
    exists b', update b i v = Ret b' /\ ok b' /\ default b' = default b /\ bound b' = bound b /\
      forall j, 0 <= j -> sub b' j = if j =? i then Ret v else sub b j
  else if Z.max (bound b + bound b) (i + 1) <=? maxLen then
    exists b', update b i v = Ret b' /\ ok b' /\ default b' = default b /\ bound b' = Z.max (bound b + bound b) (i + 1) /\
      forall j, 0 <= j -> sub b' j = if j =? i then Ret v else sub b j
  else update b i v = if i =? two62 - 1 then Raise Overflow else Raise Size.
Proof.
  intros b i v Hok Hi. unfold ok, maxLen in Hok. unfold update, bound. set (len := zlen (arr b)) in *.
  assert (HL : 0 <= len) by apply zlen_nonneg. rewrite Z.geb_leb. destruct (Z.ltb_spec i 0).
  - destruct (Z.leb_spec len i); [lia|]. cbn [bind]. unfold update_chk. rewrite zset_none by lia. reflexivity.
  - destruct (Z.leb_spec len i).
    + destruct (Z.ltb_spec i len); [lia|]. rewrite iadd_ok by (unfold in_int, two62; lia). cbn [bind].
      destruct (Z.leb_spec (Z.max (len + len) (i + 1)) maxLen).
      * rewrite iadd_ok by (unfold in_int, two62, maxLen in *; lia). cbn [bind].
        assert (EM : (if len + len >? i + 1 then len + len else i + 1) = Z.max (len + len) (i + 1)) by (rewrite Z.gtb_ltb; destruct (Z.ltb_spec (i + 1) (len + len)); lia).
        rewrite EM. destruct (expand_ok b (Z.max (len + len) (i + 1))) as (l & E & L & G). { fold len. lia. }
        change (bound b) with len in E. rewrite E. cbn [bind]. unfold update_chk.
        destruct (zset_some l i v) as (l' & -> & L' & G'); [lia|]. cbn [bind]. exists (Block l' (dflt b)). split; [reflexivity|].
        split; [unfold ok; cbn [arr]; lia|]. split; [reflexivity|]. cbn [arr]. split; [lia|].
        intros j Hj. rewrite !sub_chk_at by assumption. unfold at_ at 1. cbn [arr dflt]. rewrite G'. destruct (Z.eqb_spec j i); [reflexivity|].
        destruct (Z.lt_ge_cases j (Z.max (len + len) (i + 1))).
        -- now rewrite G by lia.
        -- rewrite zget_none by lia. unfold at_. rewrite zget_none by (fold len; lia). reflexivity.
      * unfold iadd. destruct (in_intb (i + 1)) eqn:I; cbn [bind].
        -- apply in_intb_spec in I. unfold in_int in I. destruct (Z.eqb_spec i (two62 - 1)); [lia|].
           assert (EM : (if len + len >? i + 1 then len + len else i + 1) = Z.max (len + len) (i + 1)) by (rewrite Z.gtb_ltb; destruct (Z.ltb_spec (i + 1) (len + len)); lia).
           rewrite EM. unfold expand, tabulate_. rewrite Z.gtb_ltb. destruct (Z.ltb_spec maxLen (Z.max (len + len) (i + 1))); [|lia]. rewrite orb_true_r. reflexivity.
        -- assert (NI : ~ in_int (i + 1)) by (rewrite <- in_intb_spec; congruence). unfold in_int in *. destruct (Z.eqb_spec i (two62 - 1)); [reflexivity|lia].
    + destruct (Z.ltb_spec i len); [|lia]. cbn [bind]. unfold update_chk. destruct (zset_some (arr b) i v) as (l' & -> & L' & G'); [fold len; lia|].
      cbn [bind]. exists (Block l' (dflt b)). split; [reflexivity|]. split; [unfold ok, maxLen; cbn [arr]; lia|]. split; [reflexivity|]. split; [assumption|].
      intros j Hj. rewrite !sub_chk_at by assumption. unfold at_. cbn [arr dflt]. rewrite G'. now destruct (Z.eqb_spec j i).
Qed.
(** reading *)
Theorem C32_sub : forall (b : dyn V) i, (i < 0 -> sub b i = Raise Subscript) /\ (0 <= i -> exists v, sub b i = Ret v) /\
  (bound b <= i -> sub b i = Ret (default b)).
Proof.
  intros b i. split; [|split].
  - intros H. unfold sub, sub_chk. rewrite zget_none by lia. now destruct (Z.ltb_spec i 0); [|lia].
  - intros H. rewrite sub_chk_at by assumption. eauto.
  - intros H. unfold bound in H. pose proof (zlen_nonneg (arr b)). rewrite sub_chk_at by lia. unfold at_. now rewrite zget_none by lia.
Qed.
(** making arrays *)
Theorem C32_array : forall sz (d : V),
  if (0 <=? sz) && (sz <=? maxLen) then
    exists b, Dynarray_Model.array sz d = Ret b /\ ok b /\ default b = d /\ bound b = sz /\ forall i, 0 <= i -> sub b i = Ret d
  else Dynarray_Model.array sz d = Raise Size.
Proof.
  intros sz d. unfold Dynarray_Model.array, Hash_Model.array. rewrite Z.gtb_ltb.
  destruct (Z.leb_spec 0 sz), (Z.leb_spec sz maxLen), (Z.ltb_spec sz 0), (Z.ltb_spec maxLen sz); cbn [andb orb bind]; try lia; try reflexivity.
  assert (L : zlen (repeat d (Z.to_nat sz)) = sz) by (unfold zlen; rewrite repeat_length; lia).
  eexists. split; [reflexivity|]. split; [unfold ok; cbn [arr]; lia|]. split; [reflexivity|]. split; [exact L|].
  intros i Hi. rewrite sub_chk_at by assumption. unfold at_. cbn [arr dflt]. destruct (zget (repeat d (Z.to_nat sz)) i) as [x|] eqn:G; [|reflexivity].
  apply zget_In, repeat_spec in G. congruence.
Qed.
Theorem C32_fromList : forall (l : list V) d, zlen l <= maxLen ->
  exists b, fromList l d = Ret b /\ ok b /\ default b = d /\ forall i, 0 <= i -> sub b i = Ret (nth (Z.to_nat i) l d).
Proof.
  intros l d H. unfold fromList. rewrite Z.gtb_ltb. destruct (Z.ltb_spec maxLen (zlen l)); [lia|]. eexists. split; [reflexivity|]. split; [exact H|]. split; [reflexivity|].
  intros i Hi. rewrite sub_chk_at by assumption. unfold at_, zget. cbn [arr dflt]. destruct (Z.ltb_spec i 0); [lia|].
  destruct (nth_error l (Z.to_nat i)) as [x|] eqn:E.
  - f_equal. symmetry. now apply nth_error_nth.
  - f_equal. symmetry. apply nth_overflow. now apply nth_error_None.
Qed.
Theorem C32_tabulate : forall n (f : Z -> V) d, 0 <= n <= maxLen ->
  exists b, Dynarray_Model.tabulate n (fun i => Ret (f i)) d = Ret b /\ ok b /\ default b = d /\
    forall i, 0 <= i -> sub b i = Ret (if i <? n then f i else d).
Proof.
  intros n f d H. unfold Dynarray_Model.tabulate. destruct (tabulate_ok (fun i => Ret (f i)) f n H) as (l & -> & L & G); [reflexivity|].
  cbn [bind]. eexists. split; [reflexivity|]. split; [unfold ok; cbn [arr]; lia|]. split; [reflexivity|]. intros i Hi.
  rewrite sub_chk_at by assumption. unfold at_. cbn [arr dflt]. rewrite G. destruct (Z.leb_spec 0 i); [|lia]. cbn [andb]. now destruct (i <? n).
Qed.
(** subArray(a, m, n) holds the values at m, ..., n-1 (the default for negative indices), and the
    default from index n-m on *)
Theorem C32_subArray : forall (b : dyn V) lo hi, ok b -> in_int lo -> in_int hi -> 0 <= hi - lo <= maxLen ->
  exists b', subArray b lo hi = Ret b' /\ ok b' /\ default b' = default b /\
   forall i, 0 <= i -> sub b' i = if (i <? hi - lo) && (0 <=? lo + i) then sub b (lo + i) else Ret (default b).
Proof.
  intros b lo hi Hok Hlo Hhi H. unfold subArray, isub.
  assert (I : in_int (hi - lo)) by (unfold in_int, two62, maxLen in *; lia). apply in_intb_spec in I as I'. rewrite I'. cbn [bind].
  destruct (tabulate_ok (fun i => match (do k <- iadd i lo; sub_chk (arr b) k) with Raise _ => Ret (dflt b) | r => r end)
     (fun i => if 0 <=? lo + i then at_ b (lo + i) else dflt b) (hi - lo) H) as (l & -> & L & G).
  - intros j Hj. unfold iadd. destruct (in_intb (j + lo)) eqn:IJ; cbn [bind].
    + rewrite (Z.add_comm j lo). unfold sub_chk, at_. destruct (Z.leb_spec 0 (lo + j)).
      * now destruct (zget (arr b) (lo + j)).
      * now rewrite zget_none by lia.
    + assert (NI : ~ in_int (j + lo)) by (rewrite <- in_intb_spec; congruence). unfold in_int in *. lia.
  - cbn [bind]. eexists. split; [reflexivity|]. split; [unfold ok; cbn [arr]; lia|]. split; [reflexivity|]. intros i Hi.
    rewrite sub_chk_at by assumption. unfold at_ at 1. cbn [arr dflt]. rewrite G. destruct (Z.leb_spec 0 i); [|lia]. cbn [andb].
    destruct (Z.ltb_spec i (hi - lo)); cbn [andb]; [|reflexivity]. destruct (Z.leb_spec 0 (lo + i)); [|reflexivity]. now rewrite sub_chk_at by assumption.
Qed.
Theorem C32_subArray_size : forall (b : dyn V) lo hi, in_int (hi - lo) -> hi < lo -> subArray b lo hi = Raise Size.
Proof.
  intros b lo hi I H. unfold subArray, isub. apply in_intb_spec in I. rewrite I. cbn [bind]. unfold tabulate_.
  destruct (Z.ltb_spec (hi - lo) 0); [reflexivity|lia].
Qed.

(** ** Whole histories *)
(** any sequence of updates (refused ones included), the last write wins *)
Fixpoint run (os : list (Z * V)) (b : dyn V) : outcome (dyn V) :=
  match os with
  | [] => Ret b
  | (i, v) :: os => match update b i v with Ret b' => run os b' | Raise Subscript => run os b | r => r end
  end.
Fixpoint last_write (os : list (Z * V)) (i : Z) (v0 : V) : V :=
  match os with [] => v0 | (j, v) :: os => last_write os i (if i =? j then v else v0) end.
Theorem C32_history : forall os (b : dyn V), ok b -> Forall (fun o => in_int (fst o) /\ 2 * fst o + 2 <= maxLen) os ->
  exists b', run os b = Ret b' /\ default b' = default b /\
    forall i v0, 0 <= i -> sub b i = Ret v0 -> sub b' i = Ret (last_write os i v0).
Proof.
  induction os as [|[i v] os IH]; intros b Hok V2.
  - exists b. split; [reflexivity|]. split; [reflexivity|]. intros i v0 _ ->. reflexivity.
  - inversion V2 as [|? ? [Hi Hm] Hos]; subst. cbn [fst run] in *. pose proof (C32_update b i v Hok Hi) as U.
    pose proof (zlen_nonneg (arr b)) as HN. unfold bound in U. destruct (Z.ltb_spec i 0).
    + rewrite U. destruct (IH b Hok Hos) as (b' & E & D & S). exists b'. split; [assumption|]. split; [assumption|].
      intros k v0 Hk Hs. cbn [last_write]. destruct (Z.eqb_spec k i); [lia|]. now apply S.
    + assert (X : exists b', update b i v = Ret b' /\ ok b' /\ default b' = default b /\
         forall j, 0 <= j -> sub b' j = if j =? i then Ret v else sub b j).
      { destruct (Z.ltb_spec i (zlen (arr b))).
        - destruct U as (b' & E & O' & D & B' & S). exists b'. repeat (split; [assumption|]). assumption.
        - destruct (Z.leb_spec (Z.max (zlen (arr b) + zlen (arr b)) (i + 1)) maxLen); [|lia].
          destruct U as (b' & E & O' & D & B' & S). exists b'. repeat (split; [assumption|]). assumption. }
      destruct X as (b1 & -> & O1 & D1 & S1). destruct (IH b1 O1 Hos) as (b' & E & D & S). exists b'. split; [assumption|].
      split; [congruence|]. intros k v0 Hk Hs. cbn [last_write]. apply S; [assumption|]. rewrite S1 by assumption. now destruct (Z.eqb_spec k i).
Qed.
End Props.

Example C32_history_nonvacuous : exists b b', Dynarray_Model.array 2 0 = Ret b /\ run [(1, 5); (7, 8); (1, 6); (-3, 9)] b = Ret b' /\
  List.map (sub b') [0; 1; 2; 7; 8; 1000] = List.map Ret [0; 6; 0; 8; 0; 0] /\ sub b' (-1) = Raise Subscript.
Proof. eexists. eexists. repeat (split; [reflexivity|]). reflexivity. Qed.
Example C32_subArray_nonvacuous : exists b b', fromList [10; 11; 12; 13] 0 = Ret b /\ subArray b 1 3 = Ret b' /\
  List.map (sub b') [0; 1; 2] = [Ret 11; Ret 12; Ret 0].
Proof. eexists. eexists. repeat (split; [reflexivity|]). reflexivity. Qed.
(** Dynarray.sig says that the values in the range [0,n-m] equal the values of the array in the range
    [m,n]; the last one is left out *)
Theorem C32_subArray_doc_refuted : exists (b : dyn Z) m n b', ok b /\ m <= n /\ subArray b m n = Ret b' /\
  exists i, 0 <= i <= n - m /\ sub b' i <> sub b (m + i).
Proof.
  exists (Block [10; 11; 12; 13] 0), 1, 3, (Block [11; 12] 0). split; [unfold ok, zlen, maxLen; cbn; lia|]. split; [lia|]. split; [reflexivity|].
  exists 2. split; [lia|]. vm_compute. discriminate.
Qed.
(** An update inside Array.maxLen may be refused: growing doubles the inner array whenever that is
    more than what is needed. *)
Theorem C32_update_size_refuted : exists sz i (b : dyn Z), Dynarray_Model.array sz 0 = Ret b /\ i + 1 <= maxLen /\ update b i 1 = Raise Size.
Proof.
  pose proof (C32_array (V := Z) 9007199254740992 0) as A. change ((0 <=? 9007199254740992) && (9007199254740992 <=? maxLen)) with true in A. cbn iota in A.
  destruct A as (b & E & O & _ & B & _). exists 9007199254740992, 9007199254740992, b. split; [assumption|]. split; [unfold maxLen; lia|].
  pose proof (C32_update b 9007199254740992 1 O ltac:(unfold in_int, two62; lia)) as U. rewrite B in U.
  change (9007199254740992 <? 0) with false in U. change (9007199254740992 <? 9007199254740992) with false in U.
  change (Z.max (9007199254740992 + 9007199254740992) (9007199254740992 + 1) <=? maxLen) with false in U. cbn iota in U. exact U.
Qed.
Print Assumptions C32_update.
Print Assumptions C32_sub.
Print Assumptions C32_array.
Print Assumptions C32_fromList.
Print Assumptions C32_tabulate.
Print Assumptions C32_subArray.
Print Assumptions C32_subArray_size.
Print Assumptions C32_history.
Print Assumptions C32_subArray_doc_refuted.
Print Assumptions C32_update_size_refuted.
