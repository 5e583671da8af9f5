(** C31: a Buffer holds exactly what has been added since it was last emptied. *)
From Verif Require Import Base ArrayLib Copy_Model Copy_Proofs Copy_Props Buffer_Model.

(** ** Specification: a buffer is a string *)
Inductive op := AddChar (c : byte) | AddString (x : list byte) | AddSubString (s : list byte) (off len : Z) | Clear | Reset | Contents | SizeOf.
Inductive answer := Unit | Str (s : list byte) | Int (n : Z) | Raised (e : exn).
(** what is appended *)
Definition text (o : op) : list byte :=
  match o with
  | AddChar c => [c] | AddString x => x | AddSubString s off len => firstn (Z.to_nat len) (skipn (Z.to_nat off) s)
  | _ => []
  end.
(** the argument of addSubString is a substring: 0 <= off, 0 <= len, off + len <= size s (Substring.sml);
    strings have at most maxSize bytes *)
Definition valid_op (o : op) : Prop :=
  match o with
  | AddSubString s off len => 0 <= off /\ 0 <= len /\ off + len <= zlen s /\ zlen s <= maxSize
  | AddString x => zlen x <= maxSize
  | _ => True
  end.
Definition spec_step (o : op) (s : list byte) : answer * list byte :=
  match o with
  | Clear | Reset => (Unit, [])
  | Contents => (Str s, s)
  | SizeOf => (Int (zlen s), s)
  | _ => if zlen s + zlen (text o) <=? maxSize then (Unit, s ++ text o) else (Raised Size, s)
  end.
Fixpoint spec_run (os : list op) (s : list byte) : list answer * list byte :=
  match os with
  | [] => ([], s)
  | o :: os => let (a, s) := spec_step o s in let (rest, s) := spec_run os s in (a :: rest, s)
  end.
(** the sizes reached stay below 2^31 *)
Fixpoint small (os : list op) (s : list byte) : Prop :=
  zlen s < 2147483648 /\
  match os with [] => True | o :: os => small os (snd (spec_step o s)) end.

(** ** The same history run by the model, with any bytes found in new strings *)
Definition model_step (junk : nat -> byte) (o : op) (b : buf) : outcome (answer * buf) :=
  let add r := match r with Ret b => Ret (Unit, b) | Raise e => Ret (Raised e, b) | UB => UB | Diverge => Diverge end in
  match o with
  | AddChar c => add (addChar junk b c)
  | AddString x => add (addString junk b x)
  | AddSubString s off len => add (addSubString junk b (s, off, len))
  | Clear => Ret (Unit, clear b)
  | Reset => Ret (Unit, reset junk b)
  | Contents => do s <- contents junk b; Ret (Str s, b)
  | SizeOf => Ret (Int (size b), b)
  end.
Fixpoint model_run (junk : nat -> nat -> byte) (os : list op) (b : buf) : outcome (list answer * buf) :=
  match os with
  | [] => Ret ([], b)
  | o :: os => do (a, b) <- model_step (junk O) o b; do (rest, b) <- model_run (fun n => junk (S n)) os b; Ret (a :: rest, b)
  end.

(** ** Proofs *)
Definition holds (b : buf) (s : list byte) : Prop :=
  bsize b = zlen s /\ firstn (Z.to_nat (zlen s)) (elts b) = s /\ 1 <= zlen (elts b) <= maxSize /\ 1 <= initial b <= maxSize.

Lemma zlen_create junk n : 0 <= n -> zlen (create_ junk n) = n.
Proof. intros H. unfold create_, zlen. rewrite map_length, seq_length. lia. Qed.
Lemma blit_lists src o1 dst o2 n : 0 <= o1 -> 0 <= o2 -> 0 <= n < 2147483648 -> o1 + n <= zlen src -> o2 + n <= zlen dst ->
  blit_ src o1 dst o2 n = Ret (splice src o1 dst o2 n).
Proof.
  intros H1 H2 Hn R1 R2. unfold blit_.
  destruct (C43_blit_string_partial _ [src; dst] 0 o1 1 o2 n src dst eq_refl eq_refl H1 H2 Hn R1 R2) as (st' & -> & L & G & F).
  cbn [bind]. destruct st' as [|x [|y [|z st']]]; unfold zlen in L; cbn [length] in L; try lia.
  unfold zget in G. cbn in G. now injection G as ->.
Qed.
Lemma holds_len b s : holds b s -> zlen s <= zlen (elts b).
Proof. intros (_ & F & _). rewrite <- F at 1. unfold zlen. rewrite firstn_length. lia. Qed.
Lemma roundUp_ok newSize : 1 <= newSize <= maxSize -> forall fuel n, 1 <= n -> in_int n -> two62 <= n * 2 ^ Z.of_nat fuel ->
  (exists r, roundUp (S fuel) newSize n = Ret r /\ newSize <= r <= maxSize) \/ roundUp (S fuel) newSize n = Raise Overflow.
Proof.
  intros HN. induction fuel as [|fuel IH]; intros n H1 Hi H.
  - exfalso. unfold in_int in Hi. change (2 ^ Z.of_nat 0) with 1 in H. lia.
  - remember (S fuel) as f eqn:Ef. cbn [roundUp]. destruct (Z.ltb_spec n newSize).
    + destruct (in_intb (2 * n)) eqn:I; [|now right]. apply in_intb_spec in I. subst f. apply IH; [lia|assumption|].
      rewrite Nat2Z.inj_succ, Z.pow_succ_r in H by lia. lia.
    + left. rewrite Z.gtb_ltb. destruct (Z.ltb_spec maxSize n); eexists; (split; [reflexivity|lia]).
Qed.
Lemma splice_prefix (src dst : list byte) s k : firstn (Z.to_nat k) src = s -> 0 <= k <= zlen src -> k <= zlen dst -> firstn (Z.to_nat k) (splice src 0 dst 0 k) = s.
Proof.
  intros H R1 R2. unfold splice. cbn [firstn Z.to_nat skipn app]. rewrite firstn_app.
  rewrite H. assert (length s = Z.to_nat k) by (rewrite <- H, firstn_length; unfold zlen in *; lia).
  rewrite firstn_all2 by lia. replace (Z.to_nat k - length s)%nat with O by lia. cbn [firstn]. now rewrite app_nil_r.
Qed.
Lemma zlen_splice (src dst : list byte) o1 o2 n : 0 <= o1 -> 0 <= o2 -> 0 <= n -> o1 + n <= zlen src -> o2 + n <= zlen dst ->
  zlen (splice src o1 dst o2 n) = zlen dst.
Proof. intros. unfold splice, zlen in *. rewrite !app_length, !firstn_length, !skipn_length. lia. Qed.
Lemma resize_ok junk b s more : holds b s -> zlen s < 2147483648 -> 0 <= more <= maxSize -> 1 <= zlen s + more ->
  (maxSize < zlen s + more -> resize junk b more = Raise Size) /\
  (zlen s + more <= maxSize -> exists b', resize junk b more = Ret b' /\ holds b' s /\ zlen s + more <= zlen (elts b')).
Proof.
  intros Hh Hs Hm H1. pose proof (holds_len _ _ Hh) as HL. destruct Hh as (E1 & E2 & E3 & E4). pose proof (zlen_nonneg s).
  unfold resize. rewrite E1. rewrite Z.gtb_ltb. split; intros HX.
  - destruct (Z.ltb_spec maxSize (zlen s + more)); [reflexivity|lia].
  - destruct (Z.ltb_spec maxSize (zlen s + more)); [lia|].
    set (r := match _ with Raise Overflow => _ | _ => _ end).
    assert (R : exists k, r = Ret k /\ zlen s + more <= k <= maxSize).
    { subst r. assert (I : in_int (2 * zlen (elts b))) by (unfold in_int, two62, maxSize in *; lia).
      pose proof I as I'. apply in_intb_spec in I'. rewrite I'.
      destruct (roundUp_ok (zlen s + more) ltac:(lia) 63 (2 * zlen (elts b))) as [(k & -> & Hk)| ->]; try lia; try assumption.
      - change (2 ^ Z.of_nat 63) with 9223372036854775808. unfold two62. lia.
      - eauto.
      - exists maxSize. split; [reflexivity|]. lia. }
    destruct R as (k & -> & Hk). cbn [bind].
    rewrite blit_lists; try lia; [|rewrite zlen_create; lia]. cbn [bind]. eexists. split; [reflexivity|].
    assert (Z1 : zlen (splice (elts b) 0 (create_ junk k) 0 (zlen s)) = k) by (rewrite zlen_splice; rewrite ?zlen_create; lia).
    cbn [elts]. split; [|lia]. split; [reflexivity|]. cbn [elts bsize initial]. split.
    + apply splice_prefix; [assumption|lia|rewrite zlen_create; lia].
    + lia.
Qed.
Lemma append_ok b s x off len : holds b s -> zlen s + len < 2147483648 -> 0 <= off -> 0 <= len -> off + len <= zlen x -> zlen s + len <= zlen (elts b) ->
  exists e, blit_ x off (elts b) (bsize b) len = Ret e /\
    holds (Buf e (bsize b + len) (initial b)) (s ++ firstn (Z.to_nat len) (skipn (Z.to_nat off) x)).
Proof.
  intros Hh Hs Ho Hl Hx HE. pose proof (holds_len _ _ Hh) as HL. destruct Hh as (E1 & E2 & E3 & E4). pose proof (zlen_nonneg s).
  rewrite blit_lists by lia. eexists. split; [reflexivity|].
  set (t := firstn (Z.to_nat len) (skipn (Z.to_nat off) x)).
  assert (LT : zlen t = len) by (unfold t, zlen in *; rewrite firstn_length, skipn_length; lia).
  split; [cbn [bsize]; rewrite zlen_app; lia|]. cbn [elts initial]. rewrite zlen_app, LT. split.
  - unfold splice. fold t. rewrite E1, E2. rewrite app_assoc, firstn_app.
    assert (LL : length (s ++ t) = Z.to_nat (zlen s + len)) by (rewrite app_length; unfold zlen in *; lia).
    rewrite firstn_all2 by lia. rewrite LL, Nat.sub_diag. cbn [firstn]. now rewrite app_nil_r.
  - rewrite zlen_splice by lia. lia.
Qed.
Lemma step_ok junk o b s : holds b s -> zlen s < 2147483648 -> zlen (snd (spec_step o s)) < 2147483648 -> valid_op o ->
  exists b', model_step junk o b = Ret (fst (spec_step o s), b') /\ holds b' (snd (spec_step o s)).
Proof.
  intros Hh Hs Hs' Hv. pose proof (zlen_nonneg s). pose proof (holds_len _ _ Hh) as HL. pose proof Hh as (E1 & E2 & E3 & E4).
  assert (Str : forall x off len, 0 <= off -> 0 <= len <= maxSize -> off + len <= zlen x ->
     let t := firstn (Z.to_nat len) (skipn (Z.to_nat off) x) in
     zlen (if zlen s + len <=? maxSize then s ++ t else s) < 2147483648 ->
     match addSubString junk b (x, off, len) with
     | Ret b' => zlen s + len <= maxSize /\ holds b' (s ++ t) | Raise e => e = Size /\ maxSize < zlen s + len | _ => False end).
  { intros x off len Ho Hl Hx t Ht. unfold addSubString. rewrite E1, Z.geb_leb.
    assert (LT : zlen t = len) by (unfold t, zlen in *; rewrite firstn_length, skipn_length; lia).
    destruct (Z.leb_spec (zlen (elts b)) (zlen s + len)).
    - destruct (resize_ok junk b s len Hh Hs ltac:(lia) ltac:(lia)) as [R1 R2].
      destruct (Z.leb_spec (zlen s + len) maxSize).
      + destruct (R2 ltac:(assumption)) as (b1 & -> & Hb1 & HE1). cbn [bind]. rewrite zlen_app in Ht.
        destruct (append_ok b1 s x off len Hb1) as (e & Ee & He); try lia. rewrite Ee. cbn [bind].
        split; [assumption|]. destruct Hb1 as (Q & _). now rewrite Q in He.
      + rewrite (R1 ltac:(assumption)). cbn [bind]. split; [reflexivity|assumption].
    - cbn [bind]. assert (zlen s + len <= maxSize) by lia. destruct (Z.leb_spec (zlen s + len) maxSize); [|lia]. rewrite zlen_app in Ht.
      destruct (append_ok b s x off len Hh) as (e & -> & He); try lia. cbn [bind]. split; [assumption|]. now rewrite E1 in He. }
  destruct o as [c|x|x off len| | | |]; cbn [model_step spec_step text valid_op] in *.
  - unfold addChar. change (zlen [c]) with 1 in *.
    assert (Put : forall b1, holds b1 s -> zlen s < zlen (elts b1) ->
       exists e, update_raw (elts b1) (bsize b1) c = Ret e /\ holds (Buf e (bsize b1 + 1) (initial b1)) (s ++ [c])).
    { intros b1 (F1 & F2 & F3 & F4) HL1. rewrite F1. unfold update_raw.
      destruct (zset_some (elts b1) (zlen s) c) as (e & -> & Le & Ge); [lia|]. exists e. split; [reflexivity|].
      split; [cbn [bsize]; rewrite zlen_app; unfold zlen; cbn [length]; lia|]. cbn [elts initial]. split; [|lia].
      apply list_ext. intros k. rewrite zget_firstn by (rewrite Le, zlen_app; change (zlen [c]) with 1; lia). rewrite zlen_app, zget_app. change (zlen [c]) with 1.
      rewrite Ge. assert (GS : forall k, zget s k = if k <? zlen s then zget (elts b1) k else None).
      { intros k'. rewrite <- F2 at 1. rewrite zget_firstn by lia. reflexivity. }
      destruct (Z.ltb_spec k (zlen s + 1)).
      - destruct (Z.eqb_spec k (zlen s)) as [->|].
        + destruct (Z.ltb_spec (zlen s) (zlen s)); [lia|]. now rewrite Z.sub_diag.
        + destruct (Z.ltb_spec k (zlen s)); [|lia]. rewrite GS. now destruct (Z.ltb_spec k (zlen s)); [|lia].
      - destruct (Z.ltb_spec k (zlen s)); [lia|]. unfold zget. destruct (Z.ltb_spec (k - zlen s) 0); [lia|].
        destruct (Z.to_nat (k - zlen s)) as [|[|j]] eqn:Ek; [lia|reflexivity|reflexivity]. }
    destruct (Z.eqb_spec (bsize b) (zlen (elts b))) as [Eq|Ne].
    + destruct (resize_ok junk b s 1 Hh Hs) as [R1 R2]; [unfold maxSize; lia|lia|].
      destruct (Z.leb_spec (zlen s + 1) maxSize) as [Le|Gt].
      * destruct (R2 Le) as (b1 & -> & Hb1 & HE1). cbn [bind]. destruct (Put b1 Hb1) as (e & -> & He); [lia|]. cbn [bind]. eauto.
      * rewrite (R1 Gt). cbn [bind fst snd]. eauto.
    + cbn [bind]. destruct (Put b Hh) as (e & -> & He); [lia|]. cbn [bind]. destruct (Z.leb_spec (zlen s + 1) maxSize); [|lia]. eauto.
  - assert (EA : addString junk b x = addSubString junk b (x, 0, zlen x)) by reflexivity. rewrite EA.
    specialize (Str x 0 (zlen x)). pose proof (zlen_nonneg x). cbn [Z.to_nat skipn] in Str.
    rewrite (firstn_all2 (n := Z.to_nat (zlen x)) x) in Str by (unfold zlen; lia).
    destruct (Z.leb_spec (zlen s + zlen x) maxSize); cbn [fst snd] in *;
    specialize (Str ltac:(lia) ltac:(lia) ltac:(lia) ltac:(assumption)); destruct (addSubString _ _ _) as [b'|e| |]; try tauto.
    + destruct Str. eauto.
    + destruct Str. lia.
    + destruct Str. lia.
    + destruct Str as [-> _]. eauto.
  - destruct Hv as (V1 & V2 & V3 & V4). specialize (Str x off len ltac:(lia) ltac:(lia) ltac:(lia)).
    set (t := firstn (Z.to_nat len) (skipn (Z.to_nat off) x)) in *.
    assert (LT : zlen t = len) by (unfold t, zlen in *; rewrite firstn_length, skipn_length; lia). rewrite LT in *. cbn beta zeta in Str.
    destruct (Z.leb_spec (zlen s + len) maxSize); cbn [fst snd] in *;
    specialize (Str ltac:(assumption)); destruct (addSubString _ _ _) as [b'|e| |]; try tauto.
    + destruct Str. eauto.
    + destruct Str. lia.
    + destruct Str. lia.
    + destruct Str as [-> _]. eauto.
  - eexists. split; [reflexivity|]. split; [reflexivity|]. cbn [snd fst clear elts initial]. split; [reflexivity|]. lia.
  - eexists. split; [reflexivity|]. split; [reflexivity|]. cbn [snd fst reset elts initial]. split; [reflexivity|]. rewrite zlen_create; lia.
  - unfold contents. rewrite E1. rewrite blit_lists; try lia; [|rewrite zlen_create; lia]. cbn [bind]. eexists. split; [|exact Hh]. f_equal. f_equal. cbn [fst]. f_equal.
    rewrite <- (firstn_all2 (n := Z.to_nat (zlen s)) (splice (elts b) 0 (create_ junk (zlen s)) 0 (zlen s))).
    + apply splice_prefix; [assumption|lia|rewrite zlen_create; lia].
    + assert (Z1 : zlen (splice (elts b) 0 (create_ junk (zlen s)) 0 (zlen s)) = zlen s) by (rewrite zlen_splice; rewrite ?zlen_create; lia).
      unfold zlen at 1 in Z1. lia.
  - eexists. split; [|exact Hh]. unfold size. now rewrite E1.
Qed.
Lemma run_ok os : forall junk b s, holds b s -> small os s -> Forall valid_op os ->
  exists b', model_run junk os b = Ret (fst (spec_run os s), b') /\ holds b' (snd (spec_run os s)).
Proof.
  induction os as [|o os IH]; intros junk b s Hh [Hs Sm] V; cbn [model_run spec_run].
  - eauto.
  - inversion V as [|? ? Vo Vos]; subst. assert (Hn : zlen (snd (spec_step o s)) < 2147483648) by (destruct os; apply Sm).
    destruct (step_ok (junk O) o b s Hh Hs Hn Vo) as (b1 & E & Hb1). rewrite E. cbn [bind].
    destruct (spec_step o s) as [a s1]. cbn [fst snd] in *.
    destruct (IH (fun n => junk (S n)) b1 s1 Hb1 Sm Vos) as (b2 & E2 & Hb2). rewrite E2. cbn [bind].
    destruct (spec_run os s1) as [rest s2]. cbn [fst snd] in *. eauto.
Qed.

(** ** The property, for buffers below 2 GB *)
Theorem C31_buffer_partial : forall hint junk0 junk os, 0 < hint <= maxSize -> Forall valid_op os -> small os [] ->
  exists b b', new junk0 hint = Ret b /\ model_run junk os b = Ret (fst (spec_run os []), b').
Proof.
  intros hint junk0 junk os Hh V S. unfold new. rewrite Z.gtb_ltb. destruct (Z.ltb_spec 0 hint), (Z.leb_spec hint maxSize); try lia. cbn [andb].
  assert (HB : holds (Buf (create_ junk0 hint) 0 hint) []).
  { split; [reflexivity|]. cbn [elts initial]. split; [reflexivity|]. rewrite zlen_create; lia. }
  destruct (run_ok os junk _ [] HB S V) as (b' & E & _). eauto.
Qed.
Theorem C31_new_size : forall junk hint, ~ (0 < hint <= maxSize) <-> new junk hint = Raise Size.
Proof.
  intros junk hint. unfold new. rewrite Z.gtb_ltb. destruct (Z.ltb_spec 0 hint), (Z.leb_spec hint maxSize); cbn [andb]; split; intros; try reflexivity; try discriminate; lia.
Qed.
Example C31_buffer_nonvacuous :
  let os := [AddString [1; 2; 3]; AddChar 4; Contents; AddSubString [5; 6; 7; 8] 1 2; SizeOf; Contents; Clear; AddChar 9; Contents; Reset; Contents] in
  Forall valid_op os /\ small os [] /\ fst (spec_run os []) =
    [Unit; Unit; Str [1; 2; 3; 4]; Unit; Int 6; Str [1; 2; 3; 4; 6; 7]; Unit; Unit; Str [9]; Unit; Str []].
Proof. split; [|split; [|reflexivity]]. { repeat constructor; cbn; unfold maxSize; lia. } repeat (split; [reflexivity|]). exact I. Qed.

(** Without the 2 GB limit the property fails: adding a string of 2^31 bytes to a new buffer makes
    blit_string copy ~2^31 bytes, i.e. is undefined behaviour. *)
Theorem C31_buffer_refuted : exists x, zlen x <= maxSize /\ forall junk0 junk b, new junk0 16 = Ret b -> addString junk b x = UB.
Proof.
  assert (EX : exists x : list byte, zlen x = 2147483648)
    by (exists (repeat 0 (Z.to_nat 2147483648)); unfold zlen; rewrite repeat_length; lia).
  destruct EX as [x L]. exists x.
  split; [rewrite L; unfold maxSize; lia|]. intros junk0 junk b Hn. unfold new in Hn.
  destruct (_ && _); [|discriminate]. injection Hn as <-.
  assert (HB : holds (Buf (create_ junk0 16) 0 16) []).
  { split; [reflexivity|]. cbn [elts initial]. split; [reflexivity|]. rewrite zlen_create; unfold maxSize; lia. }
  unfold addString. rewrite L. cbn [bsize elts]. rewrite zlen_create by lia. change (0 + 2147483648 >=? 16) with true. cbn iota.
  destruct (resize_ok junk _ [] 2147483648 HB) as [_ R]; try (change (zlen (@nil byte)) with 0; unfold maxSize; lia).
  destruct R as (b' & E & _); [change (zlen (@nil byte)) with 0; unfold maxSize; lia|]. rewrite E. cbn [bind].
  unfold blit_, blit_string. change (to_int32 2147483648) with (-2147483648). reflexivity.
Qed.
Print Assumptions C31_buffer_partial.
Print Assumptions C31_new_size.
Print Assumptions C31_buffer_refuted.
