(** Proofs about Lexgen.sml, part 3: the construction of the automaton. *)
From Coq Require Import Sorting.Sorted.
From Verif Require Import Base Lex_Model Lex_Spec Lex_Proofs Lex_Encode.

(** ** split_trans_set *)
Lemma split_gen l : forall act ps n qs, foldL split_step (act, ps) l = (n, qs) ->
  (forall p, In p qs <-> In p ps \/ In (OnChars p) l) /\
  n <= act /\ (forall a, In (ToAction a) l -> n <= a) /\ (n = act \/ In (ToAction n) l).
Proof.
  induction l as [|t l IH]; cbn [foldL]; intros act ps n qs H.
  - injection H as <- <-. cbn. split; [tauto|]. split; [lia|]. split; [tauto|auto].
  - destruct t as [p|a]; cbn [split_step] in H.
    + destruct (IH _ _ _ _ H) as (A & B & C & D). split; [|split; [|split]].
      * intros q. rewrite A. cbn. intuition congruence.
      * lia.
      * intros a [[=]|Ha]. auto.
      * destruct D; [auto|]. right. now right.
    + assert (E : foldL split_step (Z.min a act, ps) l = (n, qs)).
      { destruct (Z.ltb_spec a act); [rewrite Z.min_l by lia|rewrite Z.min_r by lia]; exact H. }
      destruct (IH _ _ _ _ E) as (A & B & C & D). split; [|split; [|split]].
      * intros q. rewrite A. cbn. intuition congruence.
      * lia.
      * intros a' [[= ->]|Ha]; [lia|auto].
      * destruct D as [D|D]; [|right; now right].
        destruct (Z.min_spec a act) as [[_ E1]|[_ E1]]; rewrite E1 in D; [right; left; congruence|auto].
Qed.

Lemma split_spec st n ps : split_trans_set st = (n, ps) ->
  (forall p, In p ps <-> In (OnChars p) st) /\
  (forall a, In (ToAction a) st -> n <= a) /\
  ((n = no_action) \/ In (ToAction n) st).
Proof.
  intros H. destruct (split_gen _ _ _ _ _ H) as (A & B & C & D). split; [|split; [exact C|exact D]].
  intros p. rewrite A. cbn. tauto.
Qed.

(** ** transition_from *)

(** the set reached from position [p] on character [c] *)
Definition step_in (chars : list (list Z)) (follow : list (list transition)) (p c : Z) (x : transition) : Prop :=
  exists cl, asub chars p = Ret cl /\ In c cl /\ tin follow p x.

Lemma add_chars_spec follow pos cl : forall tr tr',
  appM (fun c tr => do old <- asub tr c; do f <- asub follow pos; aupd tr c (merge_trans old f)) cl tr = Ret tr' ->
  length tr' = length tr /\
  forall c x, tin tr' c x <-> tin tr c x \/ (In c cl /\ tin follow pos x).
Proof.
  induction cl as [|c0 cl IH]; cbn [appM]; intros tr tr' H.
  - injection H as <-. split; [auto|]. intros; cbn; tauto.
  - destruct (asub tr c0) as [old|?| |] eqn:E1; cbn [bind] in H; try discriminate.
    destruct (asub follow pos) as [f|?| |] eqn:E2; cbn [bind] in H; try discriminate.
    destruct (aupd tr c0 (merge_trans old f)) as [tr1|?| |] eqn:E3; cbn [bind] in H; try discriminate.
    destruct (IH _ _ H) as [L1 T1]. destruct (aupd_spec _ _ _ _ E3) as (_ & L2 & _).
    split; [congruence|]. intros c x. rewrite T1, (tin_upd _ _ _ _ E3 c x).
    destruct (Z.eqb_spec c c0) as [->|N].
    + rewrite in_merge.
      assert (TR : tin tr c0 x <-> In x old).
      { unfold tin. rewrite E1. split; [intros (l & [= <-] & Hx); auto|eauto]. }
      assert (TF : tin follow pos x <-> In x f).
      { unfold tin. rewrite E2. split; [intros (l & [= <-] & Hx); auto|eauto]. }
      cbn [In]. rewrite TF, TR. tauto.
    + cbn [In]. intuition congruence.
Qed.

Lemma add_pos_spec chars follow ps : forall tr tr',
  appM (add_pos chars follow) ps tr = Ret tr' ->
  length tr' = length tr /\
  forall c x, tin tr' c x <-> tin tr c x \/ exists p, In p ps /\ step_in chars follow p c x.
Proof.
  induction ps as [|p ps IH]; cbn [appM]; intros tr tr' H.
  - injection H as <-. split; [auto|]. intros c x. split; [auto|]. intros [Hx|(p & [] & _)]; auto.
  - unfold add_pos in H at 1.
    destruct (asub chars p) as [cl|?| |] eqn:E1; cbn [bind] in H; try discriminate.
    match type of H with bind ?X _ = _ => destruct X as [tr1|?| |] eqn:E2 end; cbn [bind] in H; try discriminate.
    destruct (add_chars_spec _ _ _ _ _ E2) as [L1 T1]. destruct (IH _ _ H) as [L2 T2].
    split; [congruence|]. intros c x. rewrite T2, T1. split.
    + intros [[Hx|[Hx1 Hx2]]|(q & Hq & Hx)]; [auto| |]; right.
      * exists p. split; [now left|]. exists cl. auto.
      * exists q. split; [now right|auto].
    + intros [Hx|(q & [<-|Hq] & Hx)]; [auto| |].
      * destruct Hx as (cl' & Ec & Hc & Hf). rewrite E1 in Ec. injection Ec as <-. auto.
      * right. eauto.
Qed.

(** ** The memory of states *)
Fixpoint numbered (l : list (list transition * Z)) : Prop :=
  match l with [] => True | (_, n) :: r => n = Z.of_nat (length r) /\ numbered r end.

Definition mem_ok (m : mem) : Prop :=
  numbered (memory m) /\ NoDup (map fst (memory m)) /\ next m = Z.of_nat (length (memory m)) /\
  (forall x, In x (todo m) -> In x (memory m)).

Definition extends (m m' : mem) : Prop := forall x, In x (memory m) -> In x (memory m').

Lemma set_eqb_spec a b : set_eqb a b = true <-> a = b.
Proof. unfold set_eqb. destruct (list_eq_dec trans_eq_dec a b); split; congruence. Qed.

Lemma mem_find_some l st n : mem_find l st = Some n -> In (st, n) l.
Proof.
  induction l as [|[k v] l IH]; cbn; [discriminate|].
  destruct (set_eqb st k) eqn:E; [|auto]. apply set_eqb_spec in E as ->. intros [= ->]. auto.
Qed.
Lemma mem_find_none l st : mem_find l st = None -> ~ In st (map fst l).
Proof.
  induction l as [|[k v] l IH]; cbn; [auto|].
  destruct (set_eqb st k) eqn:E; [discriminate|]. intros H [->|H1]; [|now apply IH].
  assert (set_eqb st st = true) by now apply set_eqb_spec. congruence.
Qed.

Lemma numbered_range l st n : numbered l -> In (st, n) l -> 0 <= n < Z.of_nat (length l).
Proof.
  induction l as [|[k v] l IH]; cbn [numbered In length]; [tauto|].
  intros [-> N] [[= <- <-]|H]; [lia|]. specialize (IH N H). lia.
Qed.
Lemma numbered_unique l a b n : numbered l -> In (a, n) l -> In (b, n) l -> a = b.
Proof.
  induction l as [|[k v] l IH]; cbn [numbered In]; [tauto|].
  intros [-> N] [H1|H1] [H2|H2].
  - congruence.
  - injection H1 as <- <-. apply numbered_range in H2; [lia|auto].
  - injection H2 as <- <-. apply numbered_range in H1; [lia|auto].
  - auto.
Qed.
Lemma numbered_all l i : numbered l -> 0 <= i < Z.of_nat (length l) -> exists st, In (st, i) l.
Proof.
  induction l as [|[k v] l IH]; cbn [numbered In length]; [lia|].
  intros [-> N] R. destruct (Z.eq_dec i (Z.of_nat (length l))) as [->|Ne]; [eauto|].
  destruct IH as [st H]; [auto|lia|eauto].
Qed.

Lemma get_state_spec st m n m' : get_state st m = (n, m') -> mem_ok m ->
  mem_ok m' /\ extends m m' /\ In (st, n) (memory m') /\
  (forall x, In x (memory m') -> In x (memory m) \/ (x = (st, n) /\ In x (todo m'))) /\
  (forall x, In x (todo m) -> In x (todo m')) /\
  next m' - Z.of_nat (length (todo m')) = next m - Z.of_nat (length (todo m)).
Proof.
  unfold get_state, mem_ok, extends. intros H (A & B & C & D).
  destruct (mem_find (memory m) st) as [k|] eqn:E.
  - injection H as <- <-. apply mem_find_some in E. repeat split; auto.
  - injection H as <- <-. cbn [memory todo next numbered map fst length]. apply mem_find_none in E.
    split; [|split; [|split; [|split; [|split]]]].
    + split; [auto|]. split; [now constructor|]. split; [lia|].
      intros x [<-|Hx]; [now left|right; auto].
    + intros x Hx. now right.
    + now left.
    + intros x [<-|Hx]; [|auto]. right. split; [auto|now left].
    + intros x Hx. now right.
    + lia.
Qed.

Lemma goto_state_spec t m mv m' : goto_state t m = (mv, m') -> mem_ok m ->
  mem_ok m' /\ extends m m' /\
  (t = [] /\ mv = Backtrack \/ t <> [] /\ exists j, mv = Goto j /\ In (t, j) (memory m')) /\
  (forall x, In x (memory m') -> In x (memory m) \/ (fst x = t /\ t <> [] /\ In x (todo m'))) /\
  (forall x, In x (todo m) -> In x (todo m')) /\
  next m' - Z.of_nat (length (todo m')) = next m - Z.of_nat (length (todo m)).
Proof.
  intros H M. destruct t as [|t ts]; cbn in H.
  - injection H as <- <-. unfold extends. split; [auto|]. split; [auto|]. split; [auto|]. split; [auto|]. split; auto.
  - destruct (get_state (t :: ts) m) as [n m1] eqn:E. injection H as <- <-.
    destruct (get_state_spec _ _ _ _ E M) as (A & B & C & D & F & G).
    split; [auto|]. split; [auto|]. split; [right; split; [discriminate|eauto]|]. split; [|auto].
    intros x Hx. destruct (D x Hx) as [H1|[-> H1]]; [auto|]. right. split; [auto|]. split; [discriminate|auto].
Qed.

(** ** Filling the 256 moves *)
Definition shift_step (tr : list (list transition)) (i : Z) (s : list automata_move * mem)
  : outcome (list automata_move * mem) :=
  let '(shift, m1) := s in
  do t <- asub tr i;
  let '(mv, m2) := goto_state t m1 in
  do shift1 <- aupd shift i mv;
  Ret (shift1, m2).

Definition move_ok (M : list (list transition * Z)) (t : list transition) (mv : automata_move) : Prop :=
  t = [] /\ mv = Backtrack \/ t <> [] /\ exists j, mv = Goto j /\ In (t, j) M.

Lemma move_ok_mono M M' t mv : (forall x, In x M -> In x M') -> move_ok M t mv -> move_ok M' t mv.
Proof. intros I [H|(N & j & E & H)]; [left; auto|right]. split; [auto|]. eauto. Qed.

Lemma shift_steps tr n : forall i shift m shift' m',
  forM (shift_step tr) i n (shift, m) = Ret (shift', m') ->
  0 <= i -> mem_ok m ->
  (forall k, 0 <= k < i -> exists t mv, asub tr k = Ret t /\ asub shift k = Ret mv /\ move_ok (memory m) t mv) ->
  length shift' = length shift /\ mem_ok m' /\ extends m m' /\
  (forall k, 0 <= k < i + Z.of_nat n -> exists t mv, asub tr k = Ret t /\ asub shift' k = Ret mv /\ move_ok (memory m') t mv) /\
  (forall x, In x (memory m') -> In x (memory m) \/ (In x (todo m') /\ fst x <> [] /\ exists k, asub tr k = Ret (fst x))) /\
  (forall x, In x (todo m) -> In x (todo m')) /\
  next m' - Z.of_nat (length (todo m')) = next m - Z.of_nat (length (todo m)).
Proof.
  induction n as [|n IH]; intros i shift m shift' m' H Hi M K.
  - cbn in H. injection H as <- <-. split; [auto|]. split; [auto|]. split; [now unfold extends|].
    split; [intros k Hk; apply K; lia|]. split; [auto|]. split; auto.
  - cbn [forM] in H. unfold shift_step in H at 1.
    destruct (asub tr i) as [t|?| |] eqn:E1; cbn [bind] in H; try discriminate.
    destruct (goto_state t m) as [mv m1] eqn:E2.
    destruct (aupd shift i mv) as [shift1|?| |] eqn:E3; cbn [bind] in H; try discriminate.
    destruct (goto_state_spec _ _ _ _ E2 M) as (A & B & C & D & F & G).
    destruct (aupd_spec _ _ _ _ E3) as (R & L & S1 & S2).
    destruct (IH (i + 1) shift1 m1 shift' m' H) as (P1 & P2 & P3 & P4 & P5 & P6 & P7); [lia|auto| |].
    { intros k Hk. destruct (Z.eq_dec k i) as [->|Ne].
      - exists t, mv. split; [auto|]. split; [auto|]. exact C.
      - destruct (K k) as (t' & mv' & K1 & K2 & K3); [lia|]. exists t', mv'. split; [auto|].
        split; [rewrite S2; auto|]. eapply move_ok_mono; [exact B|exact K3]. }
    split; [congruence|]. split; [auto|]. split; [unfold extends in *; auto|].
    split; [intros k Hk; apply P4; lia|]. split; [|split; [auto|lia]].
    intros x Hx. destruct (P5 x Hx) as [H1|H1]; [|auto].
    destruct (D x H1) as [H2|(H2 & H3 & H4)]; [auto|]. right. split; [auto|]. subst t. split; [auto|eauto].
Qed.

Lemma shift_steps_ret tr n : forall i shift m, 0 <= i ->
  i + Z.of_nat n <= Z.of_nat (length tr) -> i + Z.of_nat n <= Z.of_nat (length shift) ->
  exists r, forM (shift_step tr) i n (shift, m) = Ret r.
Proof.
  induction n as [|n IH]; intros i shift m Hi L1 L2; cbn [forM]; [eauto|].
  unfold shift_step at 1. destruct (asub_ret tr i) as [t ->]; [lia|]. cbn [bind].
  destruct (goto_state t m) as [mv m1].
  destruct (aupd_ret shift i mv) as [shift1 E]; [lia|]. rewrite E. cbn [bind].
  destruct (aupd_spec _ _ _ _ E) as (_ & L & _). apply IH; lia.
Qed.

(** ** translate_state *)

(** the state with set [st] is rightly translated to [a], [M] being the memory *)
Definition state_ok (chars : list (list Z)) (follow : list (list transition))
    (M : list (list transition * Z)) (st : list transition) (a : automata) : Prop :=
  exists n ps, split_trans_set st = (n, ps) /\
  match a with
  | Perform k => ps = [] /\ k = n
  | Shift what moves =>
      ps <> [] /\ what = (if n =? no_action then No_remember else Remember n) /\
      length moves = 256%nat /\
      forall c, 0 <= c < 256 -> exists t mv,
        (forall x, In x t <-> exists p, In p ps /\ step_in chars follow p c x) /\
        asub moves c = Ret mv /\ move_ok M t mv
  end.

Lemma state_ok_mono chars follow M M' st a :
  (forall x, In x M -> In x M') -> state_ok chars follow M st a -> state_ok chars follow M' st a.
Proof.
  intros I (n & ps & E & H). exists n, ps. split; [auto|]. destruct a as [k|what moves]; [auto|].
  destruct H as (H1 & H2 & H3 & H4). split; [auto|]. split; [auto|]. split; [auto|].
  intros c Hc. destruct (H4 c Hc) as (t & mv & A & B & C). exists t, mv. split; [auto|]. split; [auto|].
  eapply move_ok_mono; eauto.
Qed.

(** sets that can be reached in one step from [st] *)
Definition succ_of chars follow (st t : list transition) : Prop :=
  t <> [] /\ exists tr n ps k, split_trans_set st = (n, ps) /\
    appM (add_pos chars follow) ps (repeat [] 256) = Ret tr /\ asub tr k = Ret t.

Lemma translate_spec chars follow st m a m' :
  translate_state chars follow st m = Ret (a, m') -> mem_ok m ->
  mem_ok m' /\ extends m m' /\ state_ok chars follow (memory m') st a /\
  (forall x, In x (memory m') -> In x (memory m) \/ (In x (todo m') /\ succ_of chars follow st (fst x))) /\
  (forall x, In x (todo m) -> In x (todo m')) /\
  next m' - Z.of_nat (length (todo m')) = next m - Z.of_nat (length (todo m)).
Proof.
  unfold translate_state. destruct (split_trans_set st) as [n ps] eqn:E. intros H M.
  destruct ps as [|p0 ps0].
  - injection H as <- <-. split; [auto|]. split; [now unfold extends|].
    split; [exists n, []; auto|]. split; [auto|]. split; auto.
  - set (ps := p0 :: ps0) in *. assert (Hps : ps <> []) by discriminate. clearbody ps.
    unfold transition_from in H.
    destruct (appM (add_pos chars follow) ps (repeat [] 256)) as [tr|?| |] eqn:E1; cbn [bind] in H; try discriminate.
    change (forM _ 0 256 (repeat Backtrack 256, m))
      with (forM (shift_step tr) 0 256 (repeat Backtrack 256, m)) in H.
    destruct (forM (shift_step tr) 0 256 (repeat Backtrack 256, m)) as [[moves m1]|?| |] eqn:E2; cbn [bind] in H; try discriminate.
    injection H as <- <-.
    destruct (add_pos_spec _ _ _ _ _ E1) as [L1 T1].
    destruct (shift_steps _ _ _ _ _ _ _ E2) as (P1 & P2 & P3 & P4 & P5 & P6 & P7); [lia|auto|intros; lia|].
    split; [auto|]. split; [auto|]. split; [|split; [|split; auto]].
    + exists n, ps. split; [auto|]. split; [auto|]. split; [auto|]. split; [rewrite P1; apply repeat_length|].
      intros c Hc. destruct (P4 c) as (t & mv & Q1 & Q2 & Q3); [lia|]. exists t, mv.
      split; [|split; auto]. intros x. transitivity (tin tr c x).
      { unfold tin. rewrite Q1. split; [eauto|]. intros (l & [= <-] & Hx). auto. }
      rewrite T1. split; [|auto]. intros [Hx|Hx]; [now apply tin_repeat in Hx|auto].
    + intros x Hx. destruct (P5 x Hx) as [H1|(H1 & H2 & k & H3)]; [auto|]. right. split; [auto|].
      split; [auto|]. exists tr, n, ps, k. auto.
Qed.

(** ** map_on_states *)
Lemma map_on_states_spec chars follow fuel : forall m l m',
  map_on_states fuel (translate_state chars follow) m = Ret (l, m') -> mem_ok m ->
  mem_ok m' /\ extends m m' /\
  (forall a i, In (a, i) l -> exists st, In (st, i) (memory m') /\ state_ok chars follow (memory m') st a) /\
  (forall st i, In (st, i) (todo m) -> exists a, In (a, i) l) /\
  (forall st i, In (st, i) (memory m') -> In (st, i) (memory m) \/ exists a, In (a, i) l).
Proof.
  induction fuel as [|fuel IH]; intros m l m' H M; cbn [map_on_states] in H; [discriminate|].
  destruct (todo m) as [|[st i] r] eqn:Et.
  - injection H as <- <-. split; [auto|]. split; [now unfold extends|]. split; [intros a i []|]. split; [intros st i []|auto].
  - destruct (translate_state chars follow st (mkMem (memory m) r (next m))) as [[a m1]|?| |] eqn:E1; cbn [bind] in H; try discriminate.
    destruct (map_on_states fuel (translate_state chars follow) m1) as [[l2 m2]|?| |] eqn:E2; cbn [bind] in H; try discriminate.
    injection H as <- <-.
    assert (M0 : mem_ok (mkMem (memory m) r (next m))).
    { destruct M as (A & B & C & D). split; [auto|]. split; [auto|]. split; [auto|]. cbn. intros x Hx. apply D. rewrite Et. now right. }
    destruct (translate_spec _ _ _ _ _ _ E1 M0) as (A & B & C & D & F & G).
    destruct (IH _ _ _ E2 A) as (P1 & P2 & P3 & P4 & P5).
    split; [auto|]. split; [unfold extends in *; cbn in *; auto|]. split; [|split].
    + intros a' i' [[= -> ->]|Hin]; [|eauto].
      exists st. split.
      * apply P2, B. cbn. apply M. rewrite Et. now left.
      * eapply state_ok_mono; [exact P2|exact C].
    + intros st' i' [[= -> ->]|Hin]; [exists a; now left|].
      destruct (P4 st' i') as [a' Ha]; [apply F; exact Hin|]. exists a'. now right.
    + intros st' i' Hin. destruct (P5 _ _ Hin) as [H1|[a' H1]].
      * destruct (D _ H1) as [H2|[H2 _]]; [auto|].
        right. destruct (P4 _ _ H2) as [a' Ha]. exists a'. now right.
      * right. exists a'. now right.
Qed.

(** ** The array of states *)
Lemma fill_states l : forall v v', appM (fun (x : automata * Z) v => aupd v (snd x) (fst x)) l v = Ret v' ->
  length v' = length v /\
  forall i a, asub v' i = Ret a -> In (a, i) l \/ (asub v i = Ret a /\ forall a', ~ In (a', i) l).
Proof.
  induction l as [|[a0 i0] l IH]; cbn [appM]; intros v v' H.
  - injection H as <-. split; [auto|]. intros i a E. right. auto.
  - cbn [fst snd] in H. destruct (aupd v i0 a0) as [v1|?| |] eqn:E; cbn [bind] in H; try discriminate.
    destruct (IH _ _ H) as [L1 T1]. destruct (aupd_spec _ _ _ _ E) as (_ & L & S1 & S2).
    split; [congruence|]. intros i a Ea. destruct (T1 i a Ea) as [H1|[H1 H2]]; [left; now right|].
    destruct (Z.eq_dec i i0) as [->|Ne].
    + rewrite S1 in H1. injection H1 as ->. left. now left.
    + right. rewrite S2 in H1 by auto. split; [auto|]. intros a' [[= -> ->]|Ha]; [congruence|]. now apply (H2 a').
Qed.

Lemma fill_states_ret l : forall v, (forall a i, In (a, i) l -> 0 <= i < Z.of_nat (length v)) ->
  exists v', appM (fun (x : automata * Z) v => aupd v (snd x) (fst x)) l v = Ret v'.
Proof.
  induction l as [|[a0 i0] l IH]; cbn [appM]; intros v R; [eauto|].
  cbn [fst snd]. destruct (aupd_ret v i0 a0) as [v1 E]; [apply (R a0); now left|]. rewrite E. cbn [bind].
  destruct (aupd_spec _ _ _ _ E) as (_ & L & _). apply IH. intros a i Hin. rewrite L. apply (R a). now right.
Qed.

(** ** The initial states *)
Definition init_step (x : name * regexp) (m : mem) : outcome (name * Z * mem) :=
  let '(n, m1) := get_state (firstpos (snd x)) m in Ret ((fst x, n), m1).

Lemma init_spec regs : forall l m, caml_map init_step regs reset_state_mem = Ret (l, m) ->
  mem_ok m /\
  Forall2 (fun (x : name * regexp) (y : name * Z) => fst x = fst y /\ In (firstpos (snd x), snd y) (memory m)) regs l /\
  (forall x, In x (memory m) -> In x (todo m) /\ exists e, In e regs /\ fst x = firstpos (snd e)) /\
  next m = Z.of_nat (length (todo m)).
Proof.
  induction regs as [|x regs IH]; intros l m H; cbn [caml_map] in H.
  - injection H as <- <-. split; [|split; [constructor|split; [cbn; tauto|reflexivity]]].
    unfold mem_ok. cbn. split; [auto|]. split; [constructor|]. split; [auto|tauto].
  - destruct (caml_map init_step regs reset_state_mem) as [[ys m1]|?| |] eqn:E1; cbn [bind] in H; try discriminate.
    unfold init_step in H at 1. destruct (get_state (firstpos (snd x)) m1) as [n m2] eqn:E2. cbn [bind] in H.
    injection H as <- <-. destruct (IH _ _ eq_refl) as (A & B & C & D).
    destruct (get_state_spec _ _ _ _ E2 A) as (P1 & P2 & P3 & P4 & P5 & P6).
    split; [auto|]. split; [|split].
    + constructor; [cbn; auto|]. eapply Forall2_impl; [|exact B]. intros a b [H1 H2]. auto.
    + intros y Hy. destruct (P4 y Hy) as [H1|[-> H1]].
      * destruct (C y H1) as (H2 & e & H3 & H4). split; [auto|]. exists e. split; [now right|auto].
      * split; [auto|]. exists x. split; [now left|reflexivity].
    + lia.
Qed.

Lemma init_ret regs : exists r, caml_map init_step regs reset_state_mem = Ret r.
Proof.
  induction regs as [|x regs [[ys m1] IH]]; cbn [caml_map]; [eauto|]. rewrite IH. cbn [bind].
  unfold init_step at 1. destruct (get_state (firstpos (snd x)) m1) as [n m2]. cbn [bind]. eauto.
Qed.

Lemma make_dfa_unfold fuel ld : make_dfa fuel ld =
  do (chars, regs, actions) <- encode_lexdef ld;
  do follow <- followpos (length chars) regs;
  do (initial, m0) <- caml_map init_step regs reset_state_mem;
  do (states, m1) <- map_on_states fuel (translate_state chars follow) m0;
  do v <- appM (fun (x : automata * Z) v => aupd v (snd x) (fst x)) states
            (repeat (Perform 0) (Z.to_nat (next m1)));
  Ret (mkDfa initial v actions).
Proof. reflexivity. Qed.

(** ** The result: there is a numbering of sets of positions [M] such that
    every state is the translation of its set *)
Lemma make_dfa_spec fuel ld d : make_dfa fuel ld = Ret d ->
  exists chars regs follow M,
    encode_lexdef ld = Ret (chars, regs, d_actions d) /\
    followpos (length chars) regs = Ret follow /\
    numbered M /\
    Forall2 (fun (x : name * regexp) (y : name * Z) => fst x = fst y /\ In (firstpos (snd x), snd y) M) regs (d_initial d) /\
    (forall st i, In (st, i) M -> exists a, asub (d_states d) i = Ret a /\ state_ok chars follow M st a).
Proof.
  rewrite make_dfa_unfold.
  destruct (encode_lexdef ld) as [[[chars regs] actions]|?| |] eqn:E1; cbn [bind]; try discriminate.
  destruct (followpos (length chars) regs) as [follow|?| |] eqn:E2; cbn [bind]; try discriminate.
  destruct (caml_map init_step regs reset_state_mem) as [[initial m0]|?| |] eqn:E3; cbn [bind]; try discriminate.
  destruct (map_on_states fuel (translate_state chars follow) m0) as [[states m1]|?| |] eqn:E4; cbn [bind]; try discriminate.
  destruct (appM _ states _) as [v|?| |] eqn:E5; cbn [bind]; try discriminate.
  intros [= <-]. cbn [d_actions d_initial d_states].
  destruct (init_spec _ _ _ E3) as (A & B & C & D).
  destruct (map_on_states_spec _ _ _ _ _ _ E4 A) as (P1 & P2 & P3 & P4 & P5).
  destruct (fill_states _ _ _ E5) as [L T]. rewrite repeat_length in L.
  exists chars, regs, follow, (memory m1). split; [auto|]. split; [auto|]. split; [apply P1|]. split.
  - eapply Forall2_impl; [|exact B]. intros a b [H1 H2]. auto.
  - intros st i Hin. destruct P1 as (Q1 & Q2 & Q3 & Q4).
    pose proof (numbered_range _ _ _ Q1 Hin) as R.
    destruct (asub_ret v i) as [a Ea]; [rewrite L, Q3; lia|].
    exists a. split; [auto|].
    assert (HA : exists a', In (a', i) states).
    { destruct (P5 st i Hin) as [H1|H1]; [|auto]. destruct (C _ H1) as [H2 _]. eapply P4; eauto. }
    destruct (T i a Ea) as [H1|[_ H1]]; [|destruct HA as [a' Ha]; destruct (H1 a' Ha)].
    destruct (P3 _ _ H1) as (st' & H2 & H3). rewrite (numbered_unique _ _ _ _ Q1 Hin H2). exact H3.
Qed.

(** ** Termination of the construction *)

Definition lt_trans (a b : transition) : Prop :=
  match a, b with
  | OnChars n, OnChars m => n < m
  | ToAction n, ToAction m => n < m
  | OnChars _, ToAction _ => True
  | ToAction _, OnChars _ => False
  end.

Definition ordered (l : list transition) : Prop := StronglySorted lt_trans l.

Lemma lt_trans_trans a b c : lt_trans a b -> lt_trans b c -> lt_trans a c.
Proof. destruct a, b, c; cbn; lia || tauto. Qed.
Lemma lt_trans_irrefl a : ~ lt_trans a a.
Proof. destruct a; cbn; lia. Qed.

Lemma ordered_cons t l : ordered l -> (forall x, In x l -> lt_trans t x) -> ordered (t :: l).
Proof. intros H1 H2. constructor; [auto|]. apply Forall_forall. auto. Qed.
Lemma ordered_inv t l : ordered (t :: l) -> ordered l /\ forall x, In x l -> lt_trans t x.
Proof. intros H. inversion H as [|? ? H1 H2]; subst. split; [auto|]. now apply Forall_forall. Qed.

Lemma merge_ordered s1 : forall s2, ordered s1 -> ordered s2 -> ordered (merge_trans s1 s2).
Proof.
  induction s1 as [|t1 r1 IH1]; intros s2 O1 O2.
  - now rewrite merge_nil_l.
  - induction s2 as [|t2 r2 IH2].
    + now rewrite merge_nil_r.
    + destruct (ordered_inv _ _ O1) as [O1' L1]. destruct (ordered_inv _ _ O2) as [O2' L2].
      assert (A : lt_trans t1 t2 -> ordered (t1 :: merge_trans r1 (t2 :: r2))).
      { intros L. apply ordered_cons; [now apply IH1|]. intros x. rewrite in_merge. intros [Hx|[<-|Hx]]; auto.
        eapply lt_trans_trans; eauto. }
      assert (B : lt_trans t2 t1 -> ordered (t2 :: merge_trans (t1 :: r1) r2)).
      { intros L. apply ordered_cons; [now apply IH2|]. intros x. rewrite in_merge. intros [[<-|Hx]|Hx]; auto.
        eapply lt_trans_trans; eauto. }
      assert (C : t1 = t2 -> ordered (t1 :: merge_trans r1 r2)).
      { intros ->. apply ordered_cons; [now apply IH1|]. intros x. rewrite in_merge. intros [Hx|Hx]; auto. }
      destruct t1 as [n1|n1], t2 as [n2|n2].
      * change (merge_trans (OnChars n1 :: r1) (OnChars n2 :: r2))
          with (if n1 =? n2 then OnChars n1 :: merge_trans r1 r2 else
                if n1 <? n2 then OnChars n1 :: merge_trans r1 (OnChars n2 :: r2)
                else OnChars n2 :: merge_trans (OnChars n1 :: r1) r2).
        destruct (Z.eqb_spec n1 n2) as [->|N]; [auto|].
        destruct (Z.ltb_spec n1 n2); [apply A; cbn; lia|apply B; cbn; lia].
      * apply A. exact I.
      * apply B. exact I.
      * change (merge_trans (ToAction n1 :: r1) (ToAction n2 :: r2))
          with (if n1 =? n2 then ToAction n1 :: merge_trans r1 r2 else
                if n1 <? n2 then ToAction n1 :: merge_trans r1 (ToAction n2 :: r2)
                else ToAction n2 :: merge_trans (ToAction n1 :: r1) r2).
        destruct (Z.eqb_spec n1 n2) as [->|N]; [auto|].
        destruct (Z.ltb_spec n1 n2); [apply A; cbn; lia|apply B; cbn; lia].
Qed.

Lemma ordered_nil : ordered [].
Proof. constructor. Qed.
Lemma ordered_one t : ordered [t].
Proof. constructor; constructor. Qed.
#[local] Hint Resolve merge_ordered ordered_nil ordered_one : core.

Lemma firstpos_ordered r : ordered (firstpos r).
Proof. induction r; cbn; auto. destruct (nullable r1); auto. Qed.

Definition all_ordered (v : list (list transition)) : Prop := forall i l, asub v i = Ret l -> ordered l.

Lemma all_ordered_upd v i l v' : aupd v i l = Ret v' -> ordered l -> all_ordered v -> all_ordered v'.
Proof.
  intros E O A j l' H. destruct (aupd_spec _ _ _ _ E) as (_ & _ & S1 & S2).
  destruct (Z.eq_dec j i) as [->|N]; [rewrite S1 in H; congruence|]. rewrite S2 in H by auto. eauto.
Qed.

Lemma fill_pos_ordered first ts : forall v v', ordered first -> all_ordered v ->
  appM (fill_pos first) ts v = Ret v' -> all_ordered v'.
Proof.
  induction ts as [|t ts IH]; cbn [appM]; intros v v' O A H; [injection H as <-; auto|].
  destruct (fill_pos first t v) as [v1|?| |] eqn:E; cbn [bind] in H; try discriminate.
  eapply IH; [exact O| |exact H]. destruct t as [p|a]; cbn in E; [|injection E as <-; auto].
  destruct (asub v p) as [old|?| |] eqn:E1; cbn [bind] in E; try discriminate.
  eapply all_ordered_upd; [exact E| |exact A]. apply merge_ordered; [auto|]. eapply A; eauto.
Qed.

Lemma fill_ordered r : forall v v', all_ordered v -> fill r v = Ret v' -> all_ordered v'.
Proof.
  induction r; cbn; intros v v' A H; try (injection H as <-; assumption).
  - destruct (fill r1 v) as [v1|?| |] eqn:E1; cbn in H; try discriminate.
    destruct (fill r2 v1) as [v2|?| |] eqn:E2; cbn in H; try discriminate.
    eapply fill_pos_ordered; [| |exact H]; [apply firstpos_ordered|eauto].
  - destruct (fill r1 v) as [v1|?| |] eqn:E1; cbn in H; try discriminate. eauto.
  - destruct (fill r v) as [v1|?| |] eqn:E1; cbn in H; try discriminate.
    eapply fill_pos_ordered; [| |exact H]; [apply firstpos_ordered|eauto].
Qed.

Lemma all_ordered_repeat n : all_ordered (repeat [] n).
Proof. intros i l E. apply asub_some in E as [_ E]. apply nth_error_In, repeat_spec in E. subst. auto. Qed.

Lemma followpos_ordered n l v : followpos n l = Ret v -> all_ordered v.
Proof.
  unfold followpos. generalize (all_ordered_repeat n). generalize (repeat (@nil transition) n).
  induction l as [|e l IH]; cbn; intros v0 A H; [injection H as <-; auto|].
  destruct (fill (snd e) v0) as [v1|?| |] eqn:E; cbn in H; try discriminate.
  eapply IH; [|exact H]. eapply fill_ordered; eauto.
Qed.

Lemma add_pos_ordered chars follow ps : all_ordered follow -> forall tr tr', all_ordered tr ->
  appM (add_pos chars follow) ps tr = Ret tr' -> all_ordered tr'.
Proof.
  intros F. induction ps as [|p ps IH]; cbn [appM]; intros tr tr' A H; [injection H as <-; auto|].
  unfold add_pos in H at 1.
  destruct (asub chars p) as [cl|?| |] eqn:E1; cbn [bind] in H; try discriminate.
  match type of H with bind ?X _ = _ => destruct X as [tr1|?| |] eqn:E2 end; cbn [bind] in H; try discriminate.
  eapply IH; [|exact H]. clear -F A E2. revert tr tr1 A E2.
  induction cl as [|c cl IH]; cbn [appM]; intros tr tr1 A H; [injection H as <-; auto|].
  destruct (asub tr c) as [old|?| |] eqn:E1; cbn [bind] in H; try discriminate.
  destruct (asub follow p) as [f|?| |] eqn:E2; cbn [bind] in H; try discriminate.
  destruct (aupd tr c (merge_trans old f)) as [tr2|?| |] eqn:E3; cbn [bind] in H; try discriminate.
  eapply IH; [|exact H]. eapply all_ordered_upd; [exact E3| |exact A]. apply merge_ordered; [eapply A; eauto|eapply F; eauto].
Qed.

(** the finitely many ordered lists over a list of transitions *)
Fixpoint sublists (l : list transition) : list (list transition) :=
  match l with [] => [[]] | t :: r => map (cons t) (sublists r) ++ sublists r end.

Lemma sublists_length l : length (sublists l) = (2 ^ length l)%nat.
Proof. induction l; cbn; [auto|]. rewrite app_length, map_length, IHl. lia. Qed.

Lemma sublists_nil l : In [] (sublists l).
Proof. induction l; cbn; [auto|]. rewrite in_app_iff. auto. Qed.

Lemma ordered_sublist U : ordered U -> forall st, ordered st -> (forall t, In t st -> In t U) -> In st (sublists U).
Proof.
  induction U as [|u U IH]; intros OU st OS I.
  - destruct st as [|t st]; [now left|]. destruct (I t (or_introl eq_refl)).
  - destruct (ordered_inv _ _ OU) as [OU' LU]. cbn. rewrite in_app_iff.
    destruct st as [|t st]; [right; apply sublists_nil|].
    destruct (ordered_inv _ _ OS) as [OS' LS].
    destruct (I t (or_introl eq_refl)) as [<-|Ht].
    + left. apply in_map, IH; [auto|auto|]. intros x Hx. destruct (I x (or_intror Hx)) as [<-|H]; [|auto].
      destruct (lt_trans_irrefl u). auto.
    + right. apply IH; [auto|auto|]. intros x [<-|Hx]; [auto|].
      destruct (I x (or_intror Hx)) as [<-|H]; [|auto].
      destruct (lt_trans_irrefl t). eapply lt_trans_trans; [apply LS, Hx|apply LU, Ht].
Qed.

Fixpoint upto (f : Z -> transition) (i : Z) (n : nat) : list transition :=
  match n with O => [] | S n' => f i :: upto f (i + 1) n' end.

Lemma in_upto f n : forall i k, i <= k < i + Z.of_nat n -> In (f k) (upto f i n).
Proof.
  induction n as [|n IH]; cbn [upto]; intros i k H; [lia|].
  destruct (Z.eq_dec k i) as [->|N]; [now left|]. right. apply IH. lia.
Qed.
Lemma upto_in f n : forall i t, In t (upto f i n) -> exists k, t = f k /\ i <= k < i + Z.of_nat n.
Proof.
  induction n as [|n IH]; cbn [upto In]; intros i t H; [tauto|].
  destruct H as [<-|H]; [exists i; split; [auto|lia]|].
  destruct (IH _ _ H) as (k & -> & R). exists k. split; [auto|lia].
Qed.

Definition universe (n k : Z) : list transition :=
  upto OnChars 0 (Z.to_nat n) ++ upto ToAction 0 (Z.to_nat k).

Lemma upto_ordered f n : (forall a b, a < b -> lt_trans (f a) (f b)) -> forall i, ordered (upto f i n).
Proof.
  intros F. induction n as [|n IH]; intros i; cbn [upto]; [constructor|].
  apply ordered_cons; [apply IH|]. intros x Hx. apply upto_in in Hx as (k & -> & R). apply F. lia.
Qed.

Lemma universe_ordered n k : ordered (universe n k).
Proof.
  unfold universe.
  assert (A : ordered (upto OnChars 0 (Z.to_nat n))) by (apply upto_ordered; cbn; auto).
  assert (B : ordered (upto ToAction 0 (Z.to_nat k))) by (apply upto_ordered; cbn; auto).
  assert (C : forall a b, In a (upto OnChars 0 (Z.to_nat n)) -> In b (upto ToAction 0 (Z.to_nat k)) -> lt_trans a b).
  { intros a b Ha Hb. apply upto_in in Ha as (? & -> & _). apply upto_in in Hb as (? & -> & _). exact I. }
  revert A C. induction (upto OnChars 0 (Z.to_nat n)) as [|t l IH]; cbn; intros A C; [exact B|].
  destruct (ordered_inv _ _ A) as [A1 A2]. apply ordered_cons.
  - apply IH; [auto|]. intros a b Ha Hb. apply C; auto.
  - intros x. rewrite in_app_iff. intros [Hx|Hx]; auto.
Qed.

Lemma universe_in n k t : In t (universe n k) <->
  match t with OnChars p => 0 <= p < n | ToAction a => 0 <= a < k end.
Proof.
  unfold universe. rewrite in_app_iff. destruct t as [p|a]; split.
  - intros [H|H]; apply upto_in in H as (q & [=] & R). subst. lia.
  - intros R. left. apply in_upto. lia.
  - intros [H|H]; apply upto_in in H as (q & [=] & R). subst. lia.
  - intros R. right. apply in_upto. lia.
Qed.

(** every state is an ordered list over the universe *)
Definition good_set (U : list transition) (st : list transition) : Prop :=
  ordered st /\ forall t, In t st -> In t U.
Definition mem_good (U : list transition) (m : mem) : Prop :=
  forall x, In x (memory m) -> good_set U (fst x).

Lemma mem_good_bound U m : ordered U -> mem_ok m -> mem_good U m ->
  (length (memory m) <= 2 ^ length U)%nat.
Proof.
  intros OU (_ & ND & _) G. rewrite <- (map_length fst), <- sublists_length.
  apply NoDup_incl_length; [exact ND|]. intros st Hst. apply in_map_iff in Hst as (x & <- & Hx).
  destruct (G x Hx). now apply ordered_sublist.
Qed.

Lemma add_chars_ret follow pos cl : (exists f, asub follow pos = Ret f) -> forall tr,
  (forall c, In c cl -> 0 <= c < Z.of_nat (length tr)) ->
  exists tr', appM (fun c tr => do old <- asub tr c; do f <- asub follow pos; aupd tr c (merge_trans old f)) cl tr = Ret tr'.
Proof.
  intros [f Ef]. set (F := fun c tr => _). induction cl as [|c cl IH]; intros tr R; cbn [appM]; [eauto|].
  assert (Rc : 0 <= c < Z.of_nat (length tr)) by (apply R; now left).
  destruct (asub_ret tr c Rc) as [old Eo].
  destruct (aupd_ret tr c (merge_trans old f) Rc) as [tr1 E].
  assert (EF : F c tr = Ret tr1) by (unfold F; rewrite Eo; cbn [bind]; rewrite Ef; exact E).
  rewrite EF. cbn [bind].
  destruct (aupd_spec _ _ _ _ E) as (_ & L & _). apply IH. intros c' Hc. rewrite L. apply R. now right.
Qed.

Section Build.
  Variables (chars : list (list Z)) (follow : list (list transition)) (K : Z).
  Hypothesis chars_range : forall cl c, In cl chars -> In c cl -> 0 <= c < 256.
  Hypothesis follow_length : length follow = length chars.
  Hypothesis follow_ordered : all_ordered follow.
  Let U := universe (Z.of_nat (length chars)) K.
  Hypothesis follow_in : forall p x, tin follow p x -> In x U.

  Lemma add_pos_ret ps : (forall p, In p ps -> 0 <= p < Z.of_nat (length chars)) -> forall tr, length tr = 256%nat ->
    exists tr', appM (add_pos chars follow) ps tr = Ret tr'.
  Proof.
    induction ps as [|p ps IH]; intros R tr L; cbn [appM]; [eauto|]. unfold add_pos at 1.
    assert (Rp : 0 <= p < Z.of_nat (length chars)) by (apply R; now left).
    destruct (asub_ret chars p Rp) as [cl Ec]. rewrite Ec. cbn [bind].
    destruct (add_chars_ret follow p cl) with (tr := tr) as [tr1 E1].
    - apply asub_ret. rewrite follow_length. exact Rp.
    - intros c Hc. rewrite L. apply asub_some in Ec as [_ Ec]. apply nth_error_In in Ec.
      specialize (chars_range cl c Ec Hc). lia.
    - rewrite E1. cbn [bind]. apply IH; [intros q Hq; apply R; now right|].
      destruct (add_chars_spec _ _ _ _ _ E1) as [-> _]. exact L.
  Qed.

  Lemma translate_ret st m : (forall t, In t st -> In t U) -> exists r, translate_state chars follow st m = Ret r.
  Proof.
    intros G. unfold translate_state. destruct (split_trans_set st) as [n ps] eqn:E.
    destruct (split_spec _ _ _ E) as (A & _).
    destruct ps as [|p0 ps0]; [eauto|]. set (ps := p0 :: ps0) in *. clearbody ps.
    unfold transition_from.
    destruct (add_pos_ret ps) with (tr := repeat (@nil transition) 256) as [tr Et].
    - intros p Hp. apply A, G in Hp. unfold U in Hp. apply universe_in in Hp. exact Hp.
    - apply repeat_length.
    - rewrite Et. cbn [bind].
      change (forM _ 0 256 (repeat Backtrack 256, m))
        with (forM (shift_step tr) 0 256 (repeat Backtrack 256, m)).
      destruct (add_pos_spec _ _ _ _ _ Et) as [L _].
      destruct (shift_steps_ret tr 256 0 (repeat Backtrack 256) m) as [[moves m1] Es].
      + lia.
      + rewrite L, repeat_length. lia.
      + rewrite repeat_length. lia.
      + rewrite Es. cbn [bind]. eauto.
  Qed.

  Lemma succ_good st t : succ_of chars follow st t -> good_set U t.
  Proof.
    intros (_ & tr & n & ps & k & E & Et & Ek). split.
    - eapply add_pos_ordered with (tr := repeat [] 256); [exact follow_ordered|apply all_ordered_repeat|exact Et|exact Ek].
    - intros x Hx. destruct (add_pos_spec _ _ _ _ _ Et) as [_ T].
      assert (H : tin tr k x) by (exists t; auto). apply T in H as [H|(p & Hp & cl & _ & _ & Hf)].
      + now apply tin_repeat in H.
      + eauto.
  Qed.

  Lemma map_on_states_ret fuel : forall m, mem_ok m -> mem_good U m ->
    (2 ^ length U + length (todo m) < fuel + Z.to_nat (next m))%nat ->
    exists r, map_on_states fuel (translate_state chars follow) m = Ret r.
  Proof.
    induction fuel as [|fuel IH]; intros m M G B.
    - exfalso. pose proof (mem_good_bound U m (universe_ordered _ _) M G).
      destruct M as (_ & _ & E & _). lia.
    - cbn [map_on_states]. destruct (todo m) as [|[st i] r] eqn:Et; [eauto|].
      assert (M0 : mem_ok (mkMem (memory m) r (next m))).
      { destruct M as (A1 & A2 & A3 & A4). split; [auto|]. split; [auto|]. split; [auto|]. cbn. intros x Hx. apply A4. rewrite Et. now right. }
      assert (Gst : good_set U st).
      { apply (G (st, i)). apply M. rewrite Et. now left. }
      destruct (translate_ret st (mkMem (memory m) r (next m)) (proj2 Gst)) as [[a m1] E1]. rewrite E1. cbn [bind].
      destruct (translate_spec _ _ _ _ _ _ E1 M0) as (P1 & P2 & P3 & P4 & P5 & P6).
      destruct (IH m1) as [[l m2] E2].
      + exact P1.
      + intros x Hx. destruct (P4 x Hx) as [H|[_ H]]; [now apply G|]. eapply succ_good; eauto.
      + cbn [todo next memory] in P6. cbn [length] in B.
        assert (0 <= next m) by (destruct M as (_ & _ & -> & _); lia).
        assert (0 <= next m1) by (destruct P1 as (_ & _ & -> & _); lia). lia.
      + rewrite E2. cbn [bind]. eauto.
  Qed.
End Build.

Lemma make_dfa_ret ld :
  (forall d c, In d ld -> In c (snd d) -> noname (fst c)) ->
  (forall cl c, In cl (all_classes ld) -> In c cl -> 0 <= c < 256) ->
  exists fuel0, forall fuel, (fuel0 <= fuel)%nat -> exists d, make_dfa fuel ld = Ret d.
Proof.
  intros N R. destruct (encode_lexdef_ret ld N) as [[[chars regs] actions] E1].
  destruct (encode_lexdef_spec _ _ _ _ E1) as (A1 & A2 & A3 & A4 & A5 & A6).
  destruct (followpos_ret (length chars) regs) as [follow E2].
  { intros e t He Ht. specialize (A5 e He t Ht). destruct t; cbn; auto. }
  destruct (init_ret regs) as [[initial m0] E3].
  destruct (followpos_spec _ _ _ E2) as [FL FT].
  set (U := universe (Z.of_nat (length chars)) (rule_count ld)).
  exists (S (2 ^ length U))%nat. intros fuel Hf. rewrite make_dfa_unfold, E1. cbn [bind]. rewrite E2. cbn [bind].
  rewrite E3. cbn [bind].
  destruct (init_spec _ _ _ E3) as (B1 & B2 & B3 & B4).
  destruct (map_on_states_ret chars follow (rule_count ld)) with (fuel := fuel) (m := m0) as [[states m1] E4].
  - intros cl c Hcl. apply R. now rewrite <- A1.
  - exact FL.
  - eapply followpos_ordered; eauto.
  - intros p x Hx. apply FT in Hx as (e & He & Hf'). apply fol_poss in Hf' as [_ Hx].
    apply universe_in. exact (A5 e He x Hx).
  - exact B1.
  - intros x Hx. destruct (B3 x Hx) as (_ & e & He & ->). split; [apply firstpos_ordered|].
    intros t Ht. apply universe_in. apply (A5 e He t). now apply firstpos_poss.
  - fold U. lia.
  - rewrite E4. cbn [bind].
    destruct (map_on_states_spec _ _ _ _ _ _ E4 B1) as (P1 & P2 & P3 & P4 & P5).
    destruct (fill_states_ret states (repeat (Perform 0) (Z.to_nat (next m1)))) as [v E5].
    + intros a i Hin. destruct (P3 _ _ Hin) as (st & H1 & _). destruct P1 as (Q1 & _ & Q3 & _).
      apply numbered_range in H1; [|exact Q1]. rewrite repeat_length. lia.
    + rewrite E5. cbn [bind]. eauto.
Qed.
