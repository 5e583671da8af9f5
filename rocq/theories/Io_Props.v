(** C19: buffered output writes the file an unbuffered writer would; C20: buffered input delivers the
    bytes of the file.  Reference: Io_Spec. *)
From Verif Require Import Base ArrayLib Mem Io_Model Io_Spec Io_Out Io_In.

(** the full claim for a run of output operations: it succeeds, the position reported is the logical one,
    and after a final flush the file and the position are those of unbuffered writing *)
Definition output_exact (short : Z -> Z -> Z) (b f : list Z) (ops : list oop) : Prop :=
  exists c c', orun short ops (open_out b f) = Ret c /\
    pos_out c = snd (unbuffered_run ops (f, 0)) /\
    flush short c = Ret c' /\
    ofile c' = fst (unbuffered_run ops (f, 0)) /\
    pos_out c' = snd (unbuffered_run ops (f, 0)).
(** a schedule of short writes (reads): at least one byte per call *)
Definition schedule (s : Z -> Z -> Z) : Prop := forall t n, 0 < n -> 1 <= s t n <= n.

(** proved when every seek comes right after a flush (or another seek, or opening); blocks below 2^31
    bytes.  Missing: seeks on a channel with unwritten bytes (false, see below) *)
Theorem C19_output_partial : forall short b f ops, schedule short -> zlen b = IO_BUFFER_SIZE ->
  Forall op_ok ops -> flushed_seeks true ops -> output_exact short b f ops.
Proof.
  intros short b f ops SH L K T. pose proof (open_inv b f L) as V.
  assert (S : safe_run short ops (open_out b f)).
  { eapply (flushed_safe short SH); eauto. }
  destruct (run_ok short SH ops _ _ _ V K S) as (c & E & V').
  destruct (flush_ok short SH _ _ _ V') as (c' & E' & V2 & C2 & M2 & F2 & O2).
  assert (Q : ocur c = omax c).
  { clear - SH L K T E V. assert (H : forall l q c0 fs pos c, oinv c0 fs pos -> Forall op_ok l -> flushed_seeks q l ->
       ocur c0 = omax c0 -> (q = true -> omax c0 = 0) -> orun short l c0 = Ret c -> ocur c = omax c).
    { clear - SH. induction l as [|o l IH]; intros q c0 fs pos c V K T Q Z0 E; cbn [orun] in E; [congruence|].
      inversion_clear K as [|? ? K1 K2]. destruct o as [ch|w|s| |d]; cbn [op_ok ostep flushed_seeks] in *.
      - destruct (putch_ok short SH c0 fs pos ch V) as (c1 & E1 & V1 & Q1). rewrite E1 in E. cbn [bind] in E.
        eapply (IH false); eauto. discriminate.
      - destruct (putword_ok short SH c0 fs pos w V) as (c1 & E1 & V1 & Q1). rewrite E1 in E. cbn [bind] in E.
        eapply (IH false); eauto. discriminate.
      - destruct (output_ok short SH c0 fs pos s V K1 (or_introl Q)) as (c1 & E1 & V1 & Q1). rewrite E1 in E. cbn [bind] in E.
        eapply (IH false); eauto. discriminate.
      - destruct (flush_ok short SH c0 fs pos V) as (c1 & E1 & V1 & C1 & M1 & _). rewrite E1 in E. cbn [bind] in E.
        eapply (IH true); eauto. lia.
      - destruct T as [Tq T]. specialize (Z0 Tq). destruct (seek_ok short SH c0 fs pos d V K1) as (c1 & E1 & V1 & M1).
        rewrite E1 in E. cbn [bind] in E. specialize (M1 Z0). eapply (IH true); eauto. destruct V1. lia. }
    eapply (H ops true (open_out b f)); eauto. }
  exists c, c'. unfold pos_out. destruct V'. split; [exact E|]. split; [lia|]. split; [exact E'|]. split; [exact F2|]. lia.
Qed.
Example C19_output_ex : output_exact (fun t n => 1) (repeat 7 4096) [1; 2; 3]
  [OSeek 2; OChar 300; OInt (-2); OBlock (repeat 9 5000); OFlush; OSeek 0; OBlock [5]].
Proof.
  apply C19_output_partial.
  - intros t n H. lia.
  - reflexivity.
  - repeat constructor; vm_compute; reflexivity || discriminate.
  - cbn. tauto.
Qed.

(** with seeks anywhere, the position is exact and the file is exact when the channel is closed (flushed),
    provided it was not flushed before and the blocks are shorter than the buffer *)
Theorem C19_seek_partial : forall short b f ops, schedule short -> zlen b = IO_BUFFER_SIZE ->
  Forall op_ok ops -> Forall (fun o => match o with OFlush => False | OBlock s => zlen s < IO_BUFFER_SIZE | _ => True end) ops ->
  exists c c', orun short ops (open_out b f) = Ret c /\
    pos_out c = snd (unbuffered_run ops (f, 0)) /\
    flush short c = Ret c' /\
    ofile c' = fst (unbuffered_run ops (f, 0)).
Proof.
  intros short b f ops SH L K N. pose proof (open_inv b f L) as V.
  assert (S : safe_run short ops (open_out b f)).
  { generalize (open_out b f). clear V K. induction N as [|o ops H N IH]; intros c; cbn [safe_run]; [exact Logic.I|].
    split; [|intros; apply IH]. destruct o; cbn [safe]; auto. contradiction. }
  destruct (run_ok short SH ops _ _ _ V K S) as (c & E & V').
  destruct (flush_ok short SH _ _ _ V') as (c' & E' & V2 & C2 & M2 & F2 & O2).
  exists c, c'. unfold pos_out. destruct V'. split; [exact E|]. split; [lia|]. split; [exact E'|]. exact F2.
Qed.
Example C19_seek_ex : exists c c', orun (fun t n => n) [OBlock [1; 2; 3]; OSeek 1; OChar 9; OSeek 7; OInt 258; OSeek 0; OChar 4] (open_out (repeat 7 4096) []) = Ret c /\
    pos_out c = 1 /\ flush (fun t n => n) c = Ret c' /\ ofile c' = [4; 9; 3; 0; 0; 0; 0; 0; 0; 1; 2].
Proof.
  destruct (C19_seek_partial (fun t n => n) (repeat 7 4096) [] [OBlock [1; 2; 3]; OSeek 1; OChar 9; OSeek 7; OInt 258; OSeek 0; OChar 4])
    as (c & c' & A & B & D & E).
  - intros t n H. lia.
  - reflexivity.
  - repeat constructor; vm_compute; reflexivity || discriminate.
  - repeat constructor.
  - exists c, c'. split; [exact A|]. split; [exact B|]. split; [exact D|]. exact E.
Qed.

(** The full claim is false.  After a seek back into the buffer, a flush moves the position to the end of
    the bytes written: "ab", seek 0, flush, "c" yields "abc" instead of "cb" *)
Theorem C19_flush_refuted : exists ops, Forall op_ok ops /\
  ~ output_exact (fun t n => n) (repeat 0 4096) [] ops /\
  exists c c', orun (fun t n => n) ops (open_out (repeat 0 4096) []) = Ret c /\ flush (fun t n => n) c = Ret c' /\
    ofile c' = [97; 98; 99] /\ fst (unbuffered_run ops ([], 0)) = [99; 98].
Proof.
  exists [OBlock [97; 98]; OSeek 0; OFlush; OChar 99]. split; [|split].
  - repeat constructor; vm_compute; reflexivity || discriminate.
  - intros (c & c' & E & _ & E' & X & _). vm_compute in E.
    assert (c = ltac:(let t := type of E in match t with Ret ?x = _ => exact x end)) as -> by congruence.
    vm_compute in E'. assert (Y : ofile c' = [97; 98; 99]).
    { match type of E' with Ret ?x = _ => assert (c' = x) as -> by congruence end. reflexivity. }
    rewrite Y in X. vm_compute in X. discriminate X.
  - eexists _, _. split; [vm_compute; reflexivity|]. split; [vm_compute; reflexivity|]. split; vm_compute; reflexivity.
Qed.
(** After a seek back to the start of the buffer, a block of at least 4096 bytes is written directly while
    the buffer keeps its bytes, which are then written again after it *)
Theorem C19_block_refuted : exists ops, Forall op_ok ops /\
  exists c c', orun (fun t n => n) ops (open_out (repeat 0 4096) []) = Ret c /\ flush (fun t n => n) c = Ret c' /\
    ofile c' = repeat 120 4096 ++ [97] /\ fst (unbuffered_run ops ([], 0)) = repeat 120 4096.
Proof.
  exists [OChar 97; OSeek 0; OBlock (repeat 120 4096)]. split.
  - repeat constructor; vm_compute; reflexivity || discriminate.
  - eexists _, _. split; [vm_compute; reflexivity|]. split; [vm_compute; reflexivity|]. split; vm_compute; reflexivity.
Qed.
(** A block of 2^31 bytes is not written at all (the count becomes a negative int) *)
Theorem C19_huge_refuted : exists s, zlen s = 2 ^ 31 /\ forall short b f, zlen b = IO_BUFFER_SIZE ->
  exists c c', orun short [OBlock s] (open_out b f) = Ret c /\ flush short c = Ret c' /\ ofile c' = f /\
    pos_out c' = 2 ^ 31.
Proof.
  assert (exists n, Z.of_nat n = 2 ^ 31) as [n Hn] by (exists (Z.to_nat (2 ^ 31)); rewrite Z2Nat.id; [reflexivity|discriminate]).
  exists (repeat 0 n). assert (L : zlen (repeat 0 n) = 2 ^ 31) by (rewrite zlen_repeat; exact Hn).
  split; [exact L|]. generalize dependent (repeat 0 n). clear. intros s L short b f Lb.
  cbn [orun ostep]. unfold output, putblock. rewrite L. change (to_unsigned (2 ^ 31)) with (2 ^ 31).
  cbn [open_out ocur]. change ((0 =? 0) && (2 ^ 31 >=? IO_BUFFER_SIZE - 0)) with true. cbn iota.
  rewrite getn_ok by lia. cbn [bind]. change (Z.to_nat 0) with 0%nat. rewrite skipn_O.
  replace (Z.to_nat (2 ^ 31)) with (length s) by (unfold zlen in L; lia). rewrite firstn_all.
  unfold really_write. rewrite L. change (to_int (2 ^ 31) <=? 0) with true. cbn iota. cbn [bind].
  eexists _, _. split; [reflexivity|]. split; [reflexivity|]. split; reflexivity.
Qed.

(** C20: any file, any operations, any schedule of short reads and of data being ready *)
Theorem C20_input : forall f amount ready b ops, Forall (fun x => 0 <= x < 256) f -> schedule amount ->
  zlen b = IO_BUFFER_SIZE -> Forall iop_ok ops ->
  exists rs c pos, irun f amount ready ops (open_in b) = Ret (rs, c) /\ delivers_all f 0 ops rs pos.
Proof.
  intros f amount ready b ops FB AM L K. apply (irun_ok f amount ready AM FB); auto. now apply (open_in_inv f amount ready AM).
Qed.
Example C20_input_ex : exists rs c pos,
  irun (repeat 10 20) (fun t n => 1) (fun t => Z.even t)
    [IChar; ILine; IBlock 3; IInt; INoBlock 10; ISeek 17; IPos; IReally 5; IInt; ISeek 30; IChar] (open_in (repeat 7 4096)) = Ret (rs, c) /\
  delivers_all (repeat 10 20) 0 [IChar; ILine; IBlock 3; IInt; INoBlock 10; ISeek 17; IPos; IReally 5; IInt; ISeek 30; IChar] rs pos.
Proof.
  apply C20_input.
  - repeat constructor; discriminate.
  - intros t n H. lia.
  - reflexivity.
  - repeat constructor; vm_compute; reflexivity || discriminate.
Qed.
(** what is delivered: reading blocks until the empty block gives the whole file *)
Theorem C20_read_all : forall f amount ready b ns rs c, Forall (fun x => 0 <= x < 256) f -> schedule amount ->
  zlen b = IO_BUFFER_SIZE -> Forall (fun n => 0 < n < 2 ^ 31) ns ->
  irun f amount ready (map IBlock ns) (open_in b) = Ret (rs, c) ->
  exists ls, rs = map RBytes ls /\ (exists rest, f = concat ls ++ rest) /\ (last ls [0] = [] -> concat ls = f).
Proof.
  intros f amount ready b ns rs c FB AM L K E.
  destruct (C20_input f amount ready b (map IBlock ns) FB AM L) as (rs' & c' & pos & E' & D).
  { rewrite Forall_map. eapply Forall_impl; [|exact K]. cbn. intros a Ha. lia. }
  assert (rs' = rs) as -> by congruence. clear E E' c c' b L AM FB.
  assert (H : forall p, 0 <= p <= zlen f -> delivers_all f p (map IBlock ns) rs pos ->
    exists ls, rs = map RBytes ls /\ (exists rest, skipn (Z.to_nat p) f = concat ls ++ rest) /\
               (last ls [0] = [] -> concat ls = skipn (Z.to_nat p) f)).
  { clear D. revert rs. induction K as [|n ns Hn K IH]; intros rs p Hp D; cbn [map] in D; inversion D as [|? ? r p' ? rs' ? D1 D2]; subst.
    - exists []. split; [reflexivity|]. split; [eexists; reflexivity|]. cbn. discriminate.
    - inversion D1 as [| | | | |? l El Ln Z0| | | | | | | |]; subst. pose proof (zlen_nonneg l) as Nl.
      assert (Pl : p + zlen l <= zlen f).
      { assert (X : (length l <= length (skipn (Z.to_nat p) f))%nat) by (rewrite El; rewrite firstn_length; lia).
        rewrite skipn_length in X. unfold zlen in *. lia. }
      destruct (IH rs' (p + zlen l) ltac:(lia) D2) as (ls & -> & [rest R] & LA).
      assert (SK : skipn (Z.to_nat p) f = l ++ skipn (Z.to_nat (p + zlen l)) f).
      { rewrite <- (firstn_skipn (length l) (skipn (Z.to_nat p) f)) at 1. rewrite <- El. f_equal.
        apply list_ext. intros k. replace (length l) with (Z.to_nat (zlen l)) by (unfold zlen; lia).
        rewrite !zget_skipn by lia. destruct (Z.ltb_spec k 0); [reflexivity|].
        destruct (Z.ltb_spec (zlen l + k) 0); [lia|]. f_equal. lia. }
      exists (l :: ls). split; [reflexivity|]. cbn [concat]. split.
      + exists rest. rewrite SK, R. now rewrite app_assoc.
      + intros LL. rewrite SK. f_equal. destruct ls as [|l2 ls].
        * cbn in LL. subst l. destruct (Z0 eq_refl); [lia|]. cbn [concat]. symmetry. apply skipn_all2.
          unfold zlen in *. cbn. lia.
        * apply LA. exact LL. }
  destruct (H 0 ltac:(pose proof (zlen_nonneg f); lia) D) as (ls & A & B & C). exists ls. auto.
Qed.
Example C20_read_all_ex : exists c, irun [1; 2; 3] (fun t n => Z.min n 2) (fun _ => true) (map IBlock [5; 5; 5]) (open_in (repeat 7 4096)) =
  Ret (map RBytes [[1; 2]; [3]; []], c).
Proof. eexists. vm_compute. reflexivity. Qed.
(** without the bound: a request of 2^32 characters is truncated to 0, and reports the end of the file
    although there is data *)
Theorem C20_huge_refuted : exists f c, f <> [] /\
  irun f (fun t n => n) (fun _ => true) [IBlock (2 ^ 32)] (open_in (repeat 0 4096)) = Ret ([RBytes []], c) /\
  forall pos, ~ delivers_all f 0 [IBlock (2 ^ 32)] [RBytes []] pos.
Proof.
  exists [1]. eexists. split; [discriminate|]. split; [vm_compute; reflexivity|].
  intros pos D. inversion D as [|? ? ? ? ? ? ? D1 D2]; subst. inversion D1 as [| | | | |? l El Ln Z0| | | | | | | |]; subst.
  destruct (Z0 eq_refl) as [X|X]; [discriminate X|]. vm_compute in X. now apply X.
Qed.

Print Assumptions C19_output_partial.
Print Assumptions C19_seek_partial.
Print Assumptions C19_flush_refuted.
Print Assumptions C19_block_refuted.
Print Assumptions C19_huge_refuted.
Print Assumptions C20_input.
Print Assumptions C20_read_all.
Print Assumptions C20_huge_refuted.
