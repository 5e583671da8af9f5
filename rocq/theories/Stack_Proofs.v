(** The stack in memory behaves like the stack of values and handlers. *)
From Verif Require Import Base Stack_Model Stack_Spec.

Fixpoint fl (H : Z) (hs : list (handler * list Z)) : list word :=
  match hs with
  | [] => []
  | ((pc, env, x), b) :: r => WPc pc :: WPtr (H - words r) :: WVal env :: WVal x :: map WVal b ++ fl H r
  end.
Definition flat (H : Z) (s : hst) : list word := map WVal (cur s) ++ fl H (hs s).
Lemma fl_len H hs : Z.of_nat (length (fl H hs)) = words hs.
Proof. induction hs as [|[[[pc env] x] b] r IH]; auto. cbn [fl words length]. rewrite app_length, map_length. lia. Qed.
Lemma flat_len H s : Z.of_nat (length (flat H s)) = depth s.
Proof. unfold flat, depth. rewrite app_length, map_length, Nat2Z.inj_add, fl_len. lia. Qed.
Lemma words_pos hs : 0 <= words hs.
Proof. induction hs as [|[h b] r IH]; cbn [words]; lia. Qed.

Record rel (s : hst) (c : cst) (A : list word) : Prop := {
  r_mem : mem c = A ++ flat (high c) s;
  r_sp : sp c = low c + Z.of_nat (length A);
  r_trap : trapsp c = high c - words (hs s);
  r_size : Threshold_words <= high c - low c }.

(** ** Access *)
Lemma rd_at c A w B a : mem c = A ++ w :: B -> a = low c + Z.of_nat (length A) -> rd c a = Ret w.
Proof.
  intros HM ->. unfold rd, high. rewrite HM, app_length. cbn [length].
  assert ((low c <=? low c + Z.of_nat (length A)) && (low c + Z.of_nat (length A) <? low c + Z.of_nat (length A + S (length B))) = true) as -> by lia.
  replace (Z.to_nat (low c + Z.of_nat (length A) - low c)) with (length A) by lia. rewrite nth_error_app2 by lia. now rewrite Nat.sub_diag.
Qed.
Lemma set_nth_at {T} (A : list T) w B w' : set_nth (A ++ w :: B) (length A) w' = A ++ w' :: B.
Proof. induction A as [|x A IH]; cbn; congruence. Qed.
Lemma wr_at c A w B a w' : mem c = A ++ w :: B -> a = low c + Z.of_nat (length A) ->
  wr c a w' = Ret (mkC (low c) (A ++ w' :: B) (sp c) (trapsp c)).
Proof.
  intros HM ->. unfold wr, high. rewrite HM, app_length. cbn [length].
  assert ((low c <=? low c + Z.of_nat (length A)) && (low c + Z.of_nat (length A) <? low c + Z.of_nat (length A + S (length B))) = true) as -> by lia.
  replace (Z.to_nat (low c + Z.of_nat (length A) - low c)) with (length A) by lia. now rewrite set_nth_at.
Qed.
Lemma snoc {T} (A : list T) n : (S n <= length A)%nat -> exists A' w, A = A' ++ [w] /\ length A = S (length A').
Proof.
  intros H. destruct (exists_last (l := A)) as (A' & w & ->). { destruct A; cbn in H; [lia|discriminate]. }
  exists A', w. split; auto. rewrite app_length. cbn. lia.
Qed.

Lemma high_eq c A s : mem c = A ++ flat (high c) s -> high c = low c + Z.of_nat (length A) + depth s.
Proof. intros H. unfold high at 1. rewrite H, app_length, Nat2Z.inj_add, flat_len. lia. Qed.

Lemma high_mem a m s t : high (mkC a m s t) = a + Z.of_nat (length m).
Proof. reflexivity. Qed.
Lemma push_ok s c A v : rel s c A -> (1 <= length A)%nat ->
  exists c' A', push c v = Ret c' /\ rel (mkH (v :: cur s) (hs s)) c' A' /\ length A = S (length A').
Proof.
  intros [HM HS HT HZ] HA. destruct (snoc A 0 HA) as (A' & w & -> & LA).
  rewrite app_length in HS, LA. cbn [length] in HS, LA. rewrite <- app_assoc in HM. cbn [app] in HM.
  assert (HE : high c = low c + Z.of_nat (length (mem c))) by reflexivity. rewrite HM, app_length in HE. cbn [length] in HE.
  set (H := high c) in *.
  unfold push. erewrite wr_at; cycle 1. { exact HM. } { cbn [low set_sp]. lia. }
  eexists _, A'. split; [reflexivity|].
  split; [|rewrite app_length; cbn [length]; lia].
  cbn [set_sp low mem sp trapsp].
  assert (EH : high (mkC (low c) (A' ++ WVal v :: flat H s) (sp c - 1) (trapsp c)) = H). { rewrite high_mem, app_length. cbn [length]. lia. }
  constructor; rewrite ?EH; cbn [low mem sp trapsp hs]; auto; try lia.
Qed.
Lemma pushtrap_ok s c A pc env x : rel s c A -> (4 <= length A)%nat ->
  exists c' A', pushtrap c pc env x = Ret c' /\ rel (mkH [] (((pc, env, x), cur s) :: hs s)) c' A' /\ length A = (4 + length A')%nat.
Proof.
  intros [HM HS HT HZ] HA.
  assert (exists A' w1 w2 w3 w4, A = A' ++ [w1; w2; w3; w4] /\ length A = (4 + length A')%nat) as (A' & w1 & w2 & w3 & w4 & -> & LA).
  { destruct (snoc A 3 HA) as (A4 & w4 & -> & L4). destruct (snoc A4 2) as (A3 & w3 & -> & L3); [lia|]. destruct (snoc A3 1) as (A2 & w2 & -> & L2); [lia|].
    destruct (snoc A2 0) as (A1 & w1 & -> & L1); [lia|]. exists A1, w1, w2, w3, w4. rewrite <- !app_assoc. cbn [app]. split; auto. rewrite !app_length in *. cbn in *. lia. }
  rewrite app_length in HS, LA. cbn [length] in HS, LA. rewrite <- app_assoc in HM. cbn [app] in HM.
  assert (HE : high c = low c + Z.of_nat (length A' + 4) + depth s). { unfold high at 1. rewrite HM, !app_length. cbn [length]. pose proof (flat_len (high c) s). lia. }
  set (H := high c) in *.
  unfold pushtrap. erewrite wr_at; cycle 1. { exact HM. } { cbn. lia. } cbn [bind set_sp low sp trapsp].
  erewrite wr_at with (A := A' ++ [WPc pc]); cycle 1. { cbn [mem]. rewrite <- app_assoc. reflexivity. } { rewrite app_length. cbn. lia. } cbn [bind set_sp low sp trapsp].
  erewrite wr_at with (A := A' ++ [WPc pc; WPtr (trapsp c)]); cycle 1. { cbn [mem]. rewrite <- !app_assoc. reflexivity. } { rewrite app_length. cbn. lia. } cbn [bind set_sp low sp trapsp].
  erewrite wr_at with (A := A' ++ [WPc pc; WPtr (trapsp c); WVal env]); cycle 1. { cbn [mem]. rewrite <- !app_assoc. reflexivity. } { rewrite app_length. cbn. lia. } cbn [bind set_trap low sp trapsp mem].
  eexists _, A'. split; [reflexivity|].
  assert (EH : high (mkC (low c) ((A' ++ [WPc pc; WPtr (trapsp c); WVal env]) ++ WVal x :: flat H s) (sp c - 4) (sp c - 4)) = H).
  { rewrite high_mem, !app_length. cbn [length]. pose proof (flat_len H s). lia. }
  split; [|rewrite app_length; cbn; lia].
  match goal with |- rel _ ?cc _ => change cc with (mkC (low c) ((A' ++ [WPc pc; WPtr (trapsp c); WVal env]) ++ WVal x :: flat H s) (sp c - 4) (sp c - 4)) end.
  constructor; cbn [low mem sp trapsp]; rewrite ?EH; auto; try lia.
  - rewrite <- app_assoc. cbn [app]. f_equal. unfold flat. cbn [cur hs map app fl]. rewrite HT. reflexivity.
  - cbn [hs words]. unfold depth in HE. lia.
Qed.
Lemma pop_ok s c A n : rel s c A -> (n <= length (cur s))%nat ->
  exists A', rel (mkH (skipn n (cur s)) (hs s)) (pop c (Z.of_nat n)) A' /\ (length A <= length A')%nat.
Proof.
  intros [HM HS HT HZ] HN. exists (A ++ map WVal (firstn n (cur s))).
  assert (EH : high (pop c (Z.of_nat n)) = high c) by reflexivity. split; [|rewrite app_length; lia].
  constructor; rewrite ?EH; cbn [pop set_sp low mem sp trapsp hs]; auto.
  - rewrite HM. unfold flat. cbn [cur hs]. rewrite <- app_assoc. f_equal. rewrite app_assoc, <- map_app, firstn_skipn. reflexivity.
  - rewrite app_length, map_length, firstn_length. lia.
Qed.

(** position n of the flat list *)
Lemma get_split H n v : forall r l, get l r n = Some v ->
  exists X Y, map WVal l ++ fl H r = X ++ WVal v :: Y /\ length X = n.
Proof.
  assert (G : forall (l : list Z) (B : list word) (n : nat), nth_error l n = Some v -> exists X Y, map WVal l ++ B = X ++ WVal v :: Y /\ length X = n).
  { intros l B k E. apply nth_error_split in E as (l1 & l2 & -> & L). exists (map WVal l1), (map WVal l2 ++ B).
    rewrite map_app, <- app_assoc. cbn. split; auto. now rewrite map_length. }
  intros r. revert n. induction r as [|[[[pc env] x] b] r IH]; intros n l; cbn [get]; destruct (Nat.ltb_spec n (length l)) as [HL | HL]; auto.
  - discriminate.
  - destruct (Nat.ltb_spec n (length l + 4)); [discriminate|]. intros E. destruct (IH _ _ E) as (X & Y & E1 & E2).
    exists (map WVal l ++ WPc pc :: WPtr (H - words r) :: WVal env :: WVal x :: X), Y. cbn [fl]. rewrite E1, <- app_assoc. split; auto.
    rewrite app_length, map_length. cbn. lia.
Qed.
Lemma put_split H n v : forall r l l' r', put l r n v = Some (l', r') ->
  words r' = words r /\ exists X w Y, map WVal l ++ fl H r = X ++ w :: Y /\ length X = n /\ map WVal l' ++ fl H r' = X ++ WVal v :: Y.
Proof.
  assert (G : forall (l : list Z) (B : list word) (n : nat), (n < length l)%nat -> exists X w Y, map WVal l ++ B = X ++ w :: Y /\ length X = n /\ map WVal (set_nth l n v) ++ B = X ++ WVal v :: Y).
  { intros l B k E. destruct (nth_error l k) as [w|] eqn:EN; [|apply nth_error_None in EN; lia].
    apply nth_error_split in EN as (l1 & l2 & -> & L). exists (map WVal l1), (WVal w), (map WVal l2 ++ B).
    subst k. rewrite set_nth_at, !map_app, <- !app_assoc. cbn. split; auto. split; auto. now rewrite map_length. }
  intros r. revert n. induction r as [|[[[pc env] x] b] r IH]; intros n l l' r'; cbn [put]; destruct (Nat.ltb_spec n (length l)) as [HL | HL]; auto.
  - intros [= <- <-]. auto.
  - discriminate.
  - intros [= <- <-]. auto.
  - destruct (Nat.ltb_spec n (length l + 4)); [discriminate|]. destruct (put b r (n - length l - 4) v) as [[b' r1]|] eqn:E; [|discriminate]. intros [= <- <-].
    destruct (IH _ _ _ _ E) as (W & X & w & Y & E1 & E2 & E3).
    assert (LB : length b' = length b).
    { pose proof (f_equal (@length word) E1) as Q1. pose proof (f_equal (@length word) E3) as Q3. rewrite !app_length, !map_length in Q1, Q3. cbn in Q1, Q3.
      pose proof (fl_len H r). pose proof (fl_len H r1). lia. }
    split. { cbn [words]. lia. }
    exists (map WVal l ++ WPc pc :: WPtr (H - words r) :: WVal env :: WVal x :: X), w, Y. cbn [fl]. rewrite E1, E3, W, <- !app_assoc. split; auto. split; auto.
    rewrite app_length, map_length. cbn. lia.
Qed.
Lemma access_ok s c A n v : rel s c A -> get (cur s) (hs s) n = Some v -> access c (Z.of_nat n) = Ret v.
Proof.
  intros [HM HS HT HZ] HG. destruct (get_split (high c) _ _ _ _ HG) as (X & Y & E1 & E2). unfold access, rd_val. unfold flat in HM. rewrite E1 in HM.
  erewrite (rd_at c (A ++ X)); cycle 1. { rewrite <- app_assoc. exact HM. } { rewrite app_length. lia. } reflexivity.
Qed.
Lemma assign_ok s c A n v l r : rel s c A -> put (cur s) (hs s) n v = Some (l, r) ->
  exists c', assign c (Z.of_nat n) v = Ret c' /\ rel (mkH l r) c' A.
Proof.
  intros [HM HS HT HZ] HG. destruct (put_split (high c) _ _ _ _ _ _ HG) as (W & X & w & Y & E1 & E2 & E3). unfold assign.
  pose proof HM as HM2. unfold flat in HM2. rewrite E1 in HM2.
  erewrite (wr_at c (A ++ X)); cycle 1. { rewrite <- app_assoc. exact HM2. } { rewrite app_length. lia. }
  eexists. split; [reflexivity|].
  assert (EH : high (mkC (low c) ((A ++ X) ++ WVal v :: Y) (sp c) (trapsp c)) = high c).
  { rewrite high_mem, app_length. unfold high. rewrite HM2, !app_length. cbn [length]. lia. }
  constructor; rewrite ?EH; cbn [low mem sp trapsp hs]; auto; [|lia].
  unfold flat. cbn [cur hs]. rewrite E3, <- app_assoc. reflexivity.
Qed.
Lemma poptrap_ok s c A h b r : rel s c A -> cur s = [] -> hs s = (h, b) :: r ->
  exists c' A', poptrap c = Ret c' /\ rel (mkH b r) c' A' /\ (length A <= length A')%nat.
Proof.
  intros [HM HS HT HZ] EC EH. destruct h as [[pc env] x]. unfold flat in HM. rewrite EC, EH in HM. cbn [map app fl] in HM.
  unfold poptrap, rd_ptr. erewrite (rd_at c (A ++ [WPc pc])); cycle 1. { rewrite <- app_assoc. exact HM. } { rewrite app_length. cbn. lia. } cbn [bind].
  eexists _, (A ++ [WPc pc; WPtr (high c - words r); WVal env; WVal x]). split; [reflexivity|]. split; [|rewrite app_length; lia].
  constructor; cbn [set_sp set_trap low mem sp trapsp hs]; auto.
  - rewrite HM, <- app_assoc. reflexivity.
  - rewrite app_length. cbn. lia.
Qed.
Lemma raise_ok s c A base : rel s c A -> 0 <= base -> exists s' c' A' o, sop (Raise_ base) s = Some ([OHandler o], s') /\
  raise base c = Ret (o, c') /\ rel s' c' A' /\ (length A <= length A')%nat.
Proof.
  intros [HM HS HT HZ] HB. unfold raise. cbn [set_sp sp]. assert (EH : high (set_sp c (trapsp c)) = high c) by reflexivity. rewrite EH.
  pose proof (high_eq _ _ _ HM) as HH. unfold depth in HH.
  assert (HM2 : mem c = (A ++ map WVal (cur s)) ++ fl (high c) (hs s)) by (rewrite HM; unfold flat; now rewrite app_assoc).
  cbn [sop]. destruct (base <? words (hs s)) eqn:EB.
  - assert (trapsp c >=? high c - base = false) as -> by lia.
    destruct (hs s) as [|[[[pc env] x] b] r] eqn:EHS. { cbn in EB. lia. }
    cbn [fl words] in *. set (B := A ++ map WVal (cur s)) in *.
    assert (TB : trapsp c = low c + Z.of_nat (length B)). { unfold B. rewrite app_length, map_length. lia. }
    exists (mkH b r). unfold rd_pc, rd_ptr, rd_val.
    erewrite (rd_at (set_sp c (trapsp c)) B); cycle 1. { cbn. exact HM2. } { cbn. exact TB. } cbn [bind].
    erewrite (rd_at (set_sp c (trapsp c)) (B ++ [WPc pc])); cycle 1. { cbn [set_sp mem]. rewrite <- app_assoc. exact HM2. } { cbn [set_sp low]. rewrite app_length. cbn. lia. } cbn [bind].
    erewrite (rd_at (set_sp c (trapsp c)) (B ++ [WPc pc; WPtr (high c - words r)])); cycle 1. { cbn [set_sp mem]. rewrite <- app_assoc. exact HM2. } { cbn [set_sp low]. rewrite app_length. cbn. lia. } cbn [bind].
    erewrite (rd_at (set_sp c (trapsp c)) (B ++ [WPc pc; WPtr (high c - words r); WVal env])); cycle 1. { cbn [set_sp mem]. rewrite <- app_assoc. exact HM2. } { cbn [set_sp low]. rewrite app_length. cbn. lia. } cbn [bind].
    eexists _, (B ++ [WPc pc; WPtr (high c - words r); WVal env; WVal x]), _. split; [reflexivity|]. split; [reflexivity|]. split.
    + constructor; cbn [set_sp set_trap low mem sp trapsp hs]; auto.
      * change (high (set_sp _ _)) with (high c). rewrite HM2, <- app_assoc. reflexivity.
      * rewrite app_length. cbn. lia.
    + unfold B. rewrite !app_length. lia.
  - assert (trapsp c >=? high c - base = true) as -> by lia.
    eexists _, _, (A ++ map WVal (cur s)), None. split; [reflexivity|]. split; [reflexivity|]. split.
    + constructor; cbn [set_sp low mem sp trapsp hs]; auto. rewrite app_length, map_length. lia.
    + rewrite app_length. lia.
Qed.

(** ** Reallocation *)
Lemma relocate_ok addr s0 t H' H : forall hs A fuel, (length hs < fuel)%nat -> H' = addr + Z.of_nat (length A) + words hs ->
  relocate fuel (mkC addr (A ++ fl H hs) s0 t) H' H (H' - words hs) = Ret (mkC addr (A ++ fl H' hs) s0 t).
Proof.
  induction hs as [|[[[pc env] x] b] r IH]; intros A fuel HF HE.
  - destruct fuel; [cbn in HF; lia|]. cbn [relocate words]. rewrite Z.sub_0_r, Z.ltb_irrefl. reflexivity.
  - destruct fuel as [|fuel]; [cbn in HF; lia|]. cbn [words] in *. pose proof (words_pos r). cbn [relocate].
    assert (H' - (4 + Z.of_nat (length b) + words r) <? H' = true) as -> by lia. cbn [fl].
    unfold rd_ptr. erewrite (rd_at _ (A ++ [WPc pc])); cycle 1. { cbn [mem]. rewrite <- app_assoc. reflexivity. } { cbn [low]. rewrite app_length. cbn [length]. lia. } cbn [bind].
    erewrite (wr_at _ (A ++ [WPc pc])); cycle 1. { cbn [mem]. rewrite <- app_assoc. reflexivity. } { cbn [low]. rewrite app_length. cbn [length]. lia. } cbn [bind low sp trapsp].
    erewrite (rd_at _ (A ++ [WPc pc])); cycle 1. { cbn [mem]. reflexivity. } { cbn [low]. rewrite app_length. cbn [length]. lia. } cbn [bind].
    replace (H' - (H - (H - words r))) with (H' - words r) by lia.
    specialize (IH (A ++ WPc pc :: WPtr (H' - words r) :: WVal env :: WVal x :: map WVal b) fuel).
    rewrite <- app_assoc. cbn [app]. rewrite <- !app_assoc in IH. cbn [app] in IH. rewrite IH; auto.
    + cbn in HF. lia.
    + rewrite app_length. cbn [length]. rewrite map_length. lia.
Qed.
Lemma hs_len hs H : (4 * length hs <= length (fl H hs))%nat.
Proof. induction hs as [|[[[pc env] x] b] r IH]; cbn; [lia|]. rewrite app_length. lia. Qed.
Lemma realloc_ok s c A addr junk : rel s c A -> (forall n, 0 <= n -> Z.of_nat (length (junk n)) = n) ->
  realloc_stack addr junk c = Raise OutOfMemory /\ Max_stack_words <= high c - low c \/
  exists c' A', realloc_stack addr junk c = Ret c' /\ rel s c' A' /\ Threshold_words <= Z.of_nat (length A').
Proof.
  intros [HM HS HT HZ] HJ. unfold realloc_stack. assert (sp c <? low c = false) as -> by lia.
  destruct (high c - low c >=? Max_stack_words) eqn:EX; [left; split; auto; lia|]. right.
  pose proof (high_eq _ _ _ HM) as HH.
  assert (EU : skipn (Z.to_nat (sp c - low c)) (mem c) = flat (high c) s).
  { rewrite HM, HS. replace (Z.to_nat (low c + Z.of_nat (length A) - low c)) with (length A) by lia. rewrite skipn_app, skipn_all, Nat.sub_diag. reflexivity. }
  rewrite EU, flat_len. set (size := (high c - low c) * 2). set (j := junk (size - depth s)).
  assert (LJ : Z.of_nat (length j) = size - depth s). { unfold j. apply HJ. unfold size. unfold depth in *. pose proof (words_pos (hs s)). lia. }
  set (H' := addr + size). unfold flat at 1 2. rewrite !app_assoc.
  replace (H' - (high c - trapsp c)) with (H' - words (hs s)) by lia.
  rewrite relocate_ok.
  - eexists _, j. split; [reflexivity|].
    assert (EH : high (mkC addr ((j ++ map WVal (cur s)) ++ fl H' (hs s)) (H' - (high c - sp c)) (H' - words (hs s))) = H').
    { unfold high. cbn [low mem]. rewrite !app_length, map_length. pose proof (fl_len H' (hs s)). unfold H', depth in *. lia. }
    split.
    + constructor; rewrite ?EH; cbn [low mem sp trapsp].
      * unfold flat. now rewrite app_assoc.
      * rewrite HS. unfold H'. lia.
      * reflexivity.
      * unfold H', size. unfold depth in *. pose proof (words_pos (hs s)). lia.
    + unfold size, depth in *. pose proof (words_pos (hs s)). lia.
  - rewrite app_length. pose proof (hs_len (hs s) (high c)). lia.
  - unfold H'. rewrite app_length, map_length. unfold depth in LJ. lia.
Qed.
Lemma check_ok s c A addr junk : rel s c A -> (forall n, 0 <= n -> Z.of_nat (length (junk n)) = n) ->
  check addr junk c = Raise OutOfMemory /\ Max_stack_words - Threshold_words < depth s \/
  exists c' A', check addr junk c = Ret c' /\ rel s c' A' /\ Threshold_words <= Z.of_nat (length A').
Proof.
  intros HR HJ. unfold check. destruct (sp c <? low c + Threshold_words) eqn:E.
  { destruct (realloc_ok s c A addr junk HR HJ) as [(-> & HX) | HX]; [left|now right]. split; auto.
    destruct HR as [HM HS HT HZ]. pose proof (high_eq _ _ _ HM). lia. }
  right. exists c, A. split; auto. split; auto. destruct HR. lia.
Qed.

(** ** Traces *)
Theorem run_ok : forall l room s c A os s', rel s c A -> room <= Z.of_nat (length A) -> fits room l -> junk_ok l -> bases_ok l ->
  srun l s = Some (os, s') ->
  crun l c = Raise OutOfMemory /\ Max_stack_words - Threshold_words < deepest l s \/ exists c' A', crun l c = Ret (os, c') /\ rel s' c' A'.
Proof.
  induction l as [|o l IH]; intros room s c A os s' HR HA HF HJ HB HS.
  - injection HS as <- <-. right. exists c, A. auto.
  - cbn [srun] in HS. destruct (sop o s) as [[a s1]|] eqn:E1; [|discriminate]. destruct (srun l s1) as [[b s2]|] eqn:E2; [|discriminate]. injection HS as <- <-.
    destruct HF as (HN & HF).
    assert (HJ' : junk_ok l) by (intros ad j n Hi; eapply HJ; right; eauto). assert (HB' : bases_ok l) by (intros x Hx; apply HB; now right).
    assert (G : cop o c = Raise OutOfMemory /\ Max_stack_words - Threshold_words < depth s \/ exists c1 A1, cop o c = Ret (a, c1) /\ rel s1 c1 A1 /\
      (match o with Check _ _ => Threshold_words | _ => room - needs o end) <= Z.of_nat (length A1)).
    { destruct o; cbn [cop sop needs] in *.
      - injection E1 as <- <-. destruct (push_ok s c A v HR ltac:(lia)) as (c1 & A1 & -> & R1 & L). right. exists c1, A1. split; auto. split; auto. lia.
      - destruct (Nat.leb_spec n (length (cur s))); [|discriminate]. injection E1 as <- <-. destruct (pop_ok s c A n HR H) as (A1 & R1 & L). right. exists (pop c (Z.of_nat n)), A1. split; auto. split; auto. lia.
      - destruct (get (cur s) (hs s) n) as [v|] eqn:EG; [|discriminate]. injection E1 as <- <-. rewrite (access_ok _ _ _ _ _ HR EG). right. exists c, A. split; auto. split; auto. lia.
      - destruct (put (cur s) (hs s) n v) as [[l1 r1]|] eqn:EG; [|discriminate]. injection E1 as <- <-. destruct (assign_ok _ _ _ _ _ _ _ HR EG) as (c1 & -> & R1). right. exists c1, A. split; auto. split; auto. lia.
      - injection E1 as <- <-. destruct (pushtrap_ok s c A pc env extra HR ltac:(lia)) as (c1 & A1 & -> & R1 & L). right. exists c1, A1. split; auto. split; auto. lia.
      - destruct (cur s) eqn:EC; [|discriminate]. destruct (hs s) as [|[h b0] r] eqn:EH; [discriminate|]. injection E1 as <- <-.
        destruct (poptrap_ok s c A h b0 r HR EC EH) as (c1 & A1 & -> & R1 & L). right. exists c1, A1. split; auto. split; auto. lia.
      - destruct (raise_ok s c A base HR) as (s3 & c1 & A1 & o & X1 & X2 & X3 & X4). { apply HB. now left. }
        cbn [sop] in X1. rewrite X1 in E1. injection E1 as <- <-. rewrite X2. right. exists c1, A1. split; auto. split; auto. lia.
      - injection E1 as <- <-. destruct (check_ok s c A addr junk HR) as [(-> & HX) | (c1 & A1 & -> & R1 & L)]; [intros n Hn; eapply HJ; [now left | auto] | now left |].
        right. exists c1, A1. auto. }
    cbn [crun]. destruct G as [(-> & HX) | (c1 & A1 & -> & R1 & L1)]; [left; split; auto; cbn [deepest]; rewrite E1; lia|]. cbn [bind].
    destruct (IH _ _ _ _ _ _ R1 L1 HF HJ' HB' E2) as [(-> & HX) | (c2 & A2 & -> & R2)]; [left; split; auto; cbn [deepest]; rewrite E1; lia|]. right. exists c2, A2. auto.
Qed.
Lemma init_rel addr junk : Z.of_nat (length junk) = Stack_words -> rel (mkH [] []) (init_stack addr junk) junk.
Proof.
  intros H. assert (EH : high (init_stack addr junk) = addr + Stack_words) by (unfold high; cbn [init_stack low mem]; lia).
  constructor; rewrite ?EH; cbn [init_stack low mem sp trapsp hs words].
  - unfold flat. cbn. now rewrite app_nil_r.
  - lia.
  - lia.
  - unfold Stack_words, Threshold_words. cbn. lia.
Qed.
