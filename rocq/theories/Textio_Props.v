(** C49: text streams deliver the characters of the file, whatever operations
    are combined, and write what the program outputs.  Reference:
    Textio_Spec. *)
From Verif Require Import Base ArrayLib Mem Io_Model Io_Props Io_In Textio_Model Textio_Spec Textio_Proofs.

(** what create_string_ returns: a string of the length asked for *)
Definition fresh (junk : Z -> list Z) : Prop := forall n, 0 <= n -> zlen (junk n) = n.
Lemma fresh_repeat x : fresh (fun n => repeat x (Z.to_nat n)).
Proof. intros n H. rewrite zlen_repeat. lia. Qed.

(** Every sequence of operations on a stream returns what the list of
    characters to come prescribes. *)
Theorem C49_input : forall f amount ready junk b ops,
  schedule amount -> fresh junk -> zlen b = IO_BUFFER_SIZE -> zlen f < 2 ^ 31 - 1 -> Forall top_ok ops ->
  exists rs s' cl' l', trun f amount ready junk ops (openIn b) = Ret (rs, s') /\ stream_run false f ops rs cl' l'.
Proof.
  intros f amount ready junk b ops AM JK Lb Lf K.
  assert (V : St f (open_in b) f).
  { exists 0. split; [apply (open_in_inv f amount ready AM); exact Lb|]. split; [apply zlen_nonneg|reflexivity]. }
  destruct (trun_ok f amount ready junk AM JK Lf ops false (open_in b) f K (fun _ => V)) as (rs & cl' & c' & l' & E & H & _).
  exists rs, (mkIn cl' c'), cl', l'. auto.
Qed.
Print Assumptions C49_input.

Definition ex_file : list Z := [97; 98; 10; 99; 100; 101; 10; 102].
Example C49_input_ex :
  exists s', trun ex_file (fun _ _ => 1) (fun t => Z.even t) (fun n => repeat 7 (Z.to_nat n))
    [TLookahead; TInputLine; TInputN 2; TEndOfStream; TInputNoBlock; TInput; TInputLine; TInputLine; TInputAll; TCloseIn; TInput1]
    (openIn (repeat 0 4096)) =
    Ret ([TrChar (Some 97); TrOption (Some [97; 98; 10]); TrString [99; 100]; TrBool false; TrOption (Some [101]);
          TrString [10]; TrOption (Some [102; 10]); TrOption None; TrString []; TrUnit; TrChar None], s').
Proof. vm_compute. eexists. reflexivity. Qed.

(** scanStream gives the scanner the characters to come, after any operations:
    the result is the scanner's on the list, or Fail if it goes back more than
    512 characters; later operations go on after the last character the
    scanner has seen. *)
Theorem C49_scan : forall (R : Type) (sc : scanner R) f amount ready junk b ops,
  schedule amount -> fresh junk -> zlen b = IO_BUFFER_SIZE -> zlen f < 2 ^ 31 - 1 -> Forall top_ok ops -> proper 0 sc ->
  exists rs s cl l, trun f amount ready junk ops (openIn b) = Ret (rs, s) /\ stream_run false f ops rs cl l /\
    match scan_list (if cl then [] else l) 0 sc with
    | Some (r, n) =>
        exists s2, scanStream f amount ready junk sc s = Ret (option_map fst r, s2) /\
          forall ops2, Forall top_ok ops2 ->
            exists rs2 s3 cl' l', trun f amount ready junk ops2 s2 = Ret (rs2, s3) /\
              stream_run cl (skipn (Z.to_nat n) l) ops2 rs2 cl' l'
    | None => scanStream f amount ready junk sc s = Raise FailExn
    end.
Proof.
  intros R sc f amount ready junk b ops AM JK Lb Lf K PR.
  assert (V : St f (open_in b) f).
  { exists 0. split; [apply (open_in_inv f amount ready AM); exact Lb|]. split; [apply zlen_nonneg|reflexivity]. }
  destruct (trun_ok f amount ready junk AM JK Lf ops false (open_in b) f K (fun _ => V)) as (rs & cl & c & l & E & H & V2).
  exists rs, (mkIn cl c), cl, l. split; [exact E|]. split; [exact H|]. destruct cl.
  - destruct (scan_closed f amount ready junk AM JK sc (junk 512) c PR) as (r & E1 & E2). rewrite E1. unfold scanStream. cbn [closed ic]. rewrite E2. cbn [bind].
    exists (mkIn true c). split; [now destruct r as [[x y]|]|]. intros ops2 K2.
    destruct (trun_ok f amount ready junk AM JK Lf ops2 true c l K2 ltac:(discriminate)) as (rs2 & cl' & c' & l' & E3 & H3 & _).
    exists rs2, (mkIn cl' c'), cl', l'. auto.
  - specialize (V2 eq_refl). pose proof (scanStream_ok f amount ready junk AM JK sc c l PR V2) as S.
    destruct (scan_list l 0 sc) as [[r n]|]; [|exact S]. destruct S as (c2 & E2 & B & V3). exists (mkIn false c2). split; [exact E2|].
    intros ops2 K2.
    destruct (trun_ok f amount ready junk AM JK Lf ops2 false c2 _ K2 (fun _ => V3)) as (rs2 & cl' & c' & l' & E3 & H3 & _).
    exists rs2, (mkIn cl' c'), cl', l'. auto.
Qed.
Print Assumptions C49_scan.

(** a scanner of one digit and all the digits after it, as those of Int: it looks
    at the character after the last digit; [m]: how many digits at most *)
Fixpoint digits (m : nat) (val : Z) (i : Z) : scanner Z :=
  match m with
  | O => ScDone (Some (val, i))
  | S m => ScGet i (fun r => match r with
                             | Some (c, j) => if (48 <=? c) && (c <=? 57) then digits m (10 * val + (c - 48)) j else ScDone (Some (val, i))
                             | None => ScDone (Some (val, i))
                             end)
  end.
Lemma digits_proper m : forall v i n, 0 <= i <= n -> proper n (digits m v i).
Proof.
  induction m as [|m IH]; intros v i n H; cbn [digits proper]; [exact Logic.I|]. split; [lia|]. split; [exact Logic.I|].
  intros c. destruct ((48 <=? c) && (c <=? 57)); [apply IH; lia|exact Logic.I].
Qed.
Example C49_scan_ex : scan_list [49; 50; 43; 51] 0 (digits 10 0 0) = Some (Some (12, 2), 3) /\ proper 0 (digits 10 0 0).
Proof. split; [vm_compute; reflexivity|apply digits_proper; lia]. Qed.

(** The character that ended the number is lost: on "1+2" scanning a number
    returns 1, having used one character, but the next character delivered is
    "2". *)
Theorem C49_scan_loses_refuted : exists (sc : scanner Z) f r n, proper 0 sc /\
  option_map fst (scan_list f 0 sc) = Some (Some (r, n)) /\ zget f n = Some 43 /\
  forall amount ready junk b, schedule amount -> fresh junk -> zlen b = IO_BUFFER_SIZE ->
    exists s2 s3, scanStream f amount ready junk sc (openIn b) = Ret (Some r, s2) /\
      input1 f amount ready s2 = Ret (Some 50, s3).
Proof.
  exists (digits 10 0 0), [49; 43; 50], 1, 1. split; [apply digits_proper; lia|]. split; [vm_compute; reflexivity|]. split; [reflexivity|].
  intros amount ready junk b AM JK Lb.
  destruct (C49_scan Z (digits 10 0 0) [49; 43; 50] amount ready junk b [] AM JK Lb) as (rs & s & cl & l & E & H & S);
    [vm_compute; reflexivity|constructor|apply digits_proper; lia|].
  cbn [trun] in E. injection E as <- <-. cbn [stream_run] in H. destruct H as [-> ->].
  change (scan_list (if false then [] else [49; 43; 50]) 0 (digits 10 0 0)) with (Some (Some (1, 1), 2)) in S. cbn iota in S.
  destruct S as (s2 & E2 & H2). exists s2. change (option_map fst (Some (1, 1))) with (Some 1) in E2.
  destruct (H2 [TInput1]) as (rs2 & s3 & cl' & l' & E3 & H3); [repeat constructor|].
  cbn [trun tstep bind] in E3. destruct (input1 [49; 43; 50] amount ready s2) as [[r s4]| | |] eqn:E4; cbn [bind] in E3; try discriminate E3.
  injection E3 as <- <-. cbn [stream_run stream_op] in H3. change (skipn (Z.to_nat 2) [49; 43; 50]) with [50] in H3.
  destruct H3 as (l1 & [X _] & _). injection X as ->. exists s4. split; [exact E2|reflexivity].
Qed.
Print Assumptions C49_scan_loses_refuted.

(** inputN with a length of 2^32, or any multiple of it, returns the empty
    string, whatever the stream holds: the length is truncated to 32 bits. *)
Lemma inputN_multiple : forall f amount ready junk b k, schedule amount -> fresh junk -> zlen b = IO_BUFFER_SIZE ->
  0 < k -> k * 2 ^ 32 <= 144115188075855863 ->
  exists s', inputN f amount ready junk (openIn b) (k * 2 ^ 32) = Ret ([], s').
Proof.
  intros f amount ready junk b k AM JK Lb Hk Hm. unfold inputN, Buffer_Model.maxSize.
  destruct (Z.ltb_spec (k * 2 ^ 32) 0); [lia|]. rewrite Z.gtb_ltb. destruct (Z.ltb_spec 144115188075855863 (k * 2 ^ 32)); [lia|].
  cbn [orb closed openIn ic]. cbn [inputN_loop]. destruct (Z.eqb_spec 0 (k * 2 ^ 32)); [lia|].
  unfold fast_input, Io_Model.input. rewrite Z.sub_0_r. assert (to_unsigned (k * 2 ^ 32) = 0) as -> by (unfold to_unsigned; change (2 ^ 32) with 4294967296; apply Z.mod_mul; lia).
  unfold getblock. cbn [open_in imax icur ibuf]. change (0 <=? 0 - 0) with true. cbn iota.
  rewrite getn_ok by (unfold IO_BUFFER_SIZE in *; lia). cbn [bind]. change (firstn (Z.to_nat 0) (skipn (Z.to_nat 0) b)) with (@nil Z).
  rewrite putn_ok by (rewrite ?JK by lia; change (zlen (@nil Z)) with 0; lia). cbn [bind]. change (zlen (@nil Z) =? 0) with true. cbn iota.
  rewrite (sub_ok junk JK _ [] (pre_nil _) ltac:(vm_compute; reflexivity) : sub_string_ junk _ 0 0 = Ret []). cbn [bind]. eauto.
Qed.
Theorem C49_inputN_refuted : exists n, 0 < n <= Buffer_Model.maxSize /\
  forall f amount ready junk b, schedule amount -> fresh junk -> zlen b = IO_BUFFER_SIZE -> f <> [] ->
    exists s', inputN f amount ready junk (openIn b) n = Ret ([], s') /\ Z.min n (zlen f) <> zlen (@nil Z).
Proof.
  exists (1 * 2 ^ 32). split; [unfold Buffer_Model.maxSize; lia|]. intros f amount ready junk b AM JK Lb Nf.
  destruct (inputN_multiple f amount ready junk b 1 AM JK Lb ltac:(lia) ltac:(lia)) as (s' & E). exists s'. split; [exact E|].
  destruct f as [|x f]; [congruence|]. unfold zlen. cbn [length]. lia.
Qed.
Print Assumptions C49_inputN_refuted.

(** Beyond the bound of C49_input: with 2^31 characters to come (or any number up
    to 127 * 2^25 - 128), inputAll passes a negative length to bcopy. *)
Lemma sub_huge junk tmp n : 2 ^ 31 <= n < 2 ^ 32 -> sub_string_ junk tmp 0 n = UB.
Proof.
  intros H. unfold sub_string_, blit_string_. assert (to_int n < 0) by (unfold to_int; lia).
  destruct (Z.ltb_spec (to_int n) 0); [reflexivity|lia].
Qed.
Lemma pow127_first : pow127 127.
Proof. exists 0. split; [lia|reflexivity]. Qed.
Lemma inputAll_huge : forall f amount ready junk b, schedule amount -> fresh junk -> zlen b = IO_BUFFER_SIZE ->
  2 ^ 31 <= zlen f < 127 * 2 ^ 25 - 127 -> inputAll f amount ready junk (openIn b) = UB.
Proof.
  intros f amount ready junk b AM JK Lb Lf. unfold inputAll. cbn [openIn closed ic].
  assert (V : St f (open_in b) f).
  { exists 0. split; [apply (open_in_inv f amount ready AM); exact Lb|]. split; [apply zlen_nonneg|reflexivity]. }
  destruct (inputAll_h_ok f amount ready junk AM JK (S (length f)) 127 (open_in b) f [] (junk 127) V (pre_nil _)) as (t & c' & E & P & B); try apply pow127_first;
    try (rewrite ?JK by lia; change (zlen (@nil Z)) with 0; unfold zlen in *; lia).
  change (zlen (@nil Z)) with 0 in *. cbn [app] in *. rewrite E, sub_huge by lia. reflexivity.
Qed.
Theorem C49_inputAll_refuted : exists f, zlen f = 2 ^ 31 /\
  forall amount ready junk b, schedule amount -> fresh junk -> zlen b = IO_BUFFER_SIZE ->
    inputAll f amount ready junk (openIn b) = UB.
Proof.
  assert (exists n, Z.of_nat n = 2 ^ 31) as [n Hn] by (exists (Z.to_nat (2 ^ 31)); rewrite Z2Nat.id; [reflexivity|discriminate]).
  exists (repeat 97 n). assert (L : zlen (repeat 97 n) = 2 ^ 31) by (rewrite zlen_repeat; exact Hn). split; [exact L|].
  intros amount ready junk b AM JK Lb. apply inputAll_huge; auto. rewrite L. lia.
Qed.
Print Assumptions C49_inputAll_refuted.
(** the same for a line that long *)
Lemma inputLine_huge : forall f amount ready junk b, schedule amount -> fresh junk -> zlen b = IO_BUFFER_SIZE ->
  ~ In 10 f -> 2 ^ 31 - 1 <= zlen f < 127 * 2 ^ 25 -> inputLine f amount ready junk (openIn b) = UB.
Proof.
  intros f amount ready junk b AM JK Lb N10 Lf. unfold inputLine, endOfStream. cbn [openIn closed].
  assert (V : St f (open_in b) f).
  { exists 0. split; [apply (open_in_inv f amount ready AM); exact Lb|]. split; [apply zlen_nonneg|reflexivity]. }
  destruct (lookahead_ok f amount ready junk AM JK (open_in b) f V) as (c1 & E1 & V1). change (openIn b) with (mkIn false (open_in b)). rewrite E1. cbn [bind].
  destruct (hd_error f) eqn:Hd; [|destruct f; [cbn in Lf; lia|discriminate Hd]]. cbn [ic].
  destruct (inputLine_h_ok f amount ready junk AM JK (S (length f)) 127 c1 f [] (junk 127) V1 (pre_nil _)) as (tmp & c' & t & l' & E & P & B & N & D); try apply pow127_first;
    try (rewrite ?JK by lia; change (zlen (@nil Z)) with 0; unfold zlen in *; lia).
  destruct D as [D|[-> _]]; [destruct N10; rewrite D; apply in_app_iff; right; now left|].
  change (zlen (@nil Z)) with 0 in *. cbn [app] in *. rewrite E, sub_huge by (rewrite zlen_app; change (zlen [10]) with 1; lia). reflexivity.
Qed.
Theorem C49_inputLine_refuted : exists f, zlen f = 2 ^ 31 - 1 /\
  forall amount ready junk b, schedule amount -> fresh junk -> zlen b = IO_BUFFER_SIZE ->
    inputLine f amount ready junk (openIn b) = UB.
Proof.
  assert (exists n, Z.of_nat n = 2 ^ 31 - 1) as [n Hn] by (exists (Z.to_nat (2 ^ 31 - 1)); rewrite Z2Nat.id; [reflexivity|discriminate]).
  exists (repeat 97 n). assert (L : zlen (repeat 97 n) = 2 ^ 31 - 1) by (rewrite zlen_repeat; exact Hn). split; [exact L|].
  intros amount ready junk b AM JK Lb. apply inputLine_huge; auto; [|rewrite L; lia].
  intros H. apply repeat_spec in H. discriminate H.
Qed.
Print Assumptions C49_inputLine_refuted.

(** ** Output *)
(** After closing or flushing, the file holds exactly what was output. *)
Theorem C49_output : forall short b ops, schedule short -> zlen b = IO_BUFFER_SIZE -> Forall oop_ok ops ->
  exists o o1 o2, wrun short false ops (openOut b) = Ret o /\
    closeOut short false o = Ret o1 /\ ofile (oc o1) = written ops /\
    flushOut short o = Ret o2 /\ ofile (oc o2) = written ops.
Proof.
  intros short b ops SH Lb K.
  assert (V : Wr false (openOut b) []).
  { split; [reflexivity|]. split; [apply (Io_Out.open_inv b []); exact Lb|]. split; [reflexivity|discriminate]. }
  destruct (wrun_ok short SH false ops _ _ V K) as (o & E & C & I & Q & _). cbn [app] in I.
  destruct (flush_wr short SH (oc o) _ I Q) as (c & E2 & _ & _ & F).
  exists o, (mkOut true c), (mkOut false c). split; [exact E|]. unfold closeOut, flushOut. rewrite C, E2. auto.
Qed.
Print Assumptions C49_output.
Example C49_output_ex : written [OOutput [1; 2]; OFlushOut; OOutput1 255; OOutput (repeat 9 5000)] = 1 :: 2 :: 255 :: repeat 9 5000 /\
  Forall oop_ok [OOutput [1; 2]; OFlushOut; OOutput1 255; OOutput (repeat 9 5000)].
Proof. split; [vm_compute; reflexivity|]. repeat constructor; vm_compute; try reflexivity; discriminate. Qed.

(** What is written to stdErr is there at once. *)
Theorem C49_stderr : forall short b ops, schedule short -> zlen b = IO_BUFFER_SIZE -> Forall oop_ok ops ->
  exists o, wrun short true ops (openOut b) = Ret o /\ ofile (oc o) = written ops.
Proof.
  intros short b ops SH Lb K.
  assert (V : Wr true (openOut b) []).
  { split; [reflexivity|]. split; [apply (Io_Out.open_inv b []); exact Lb|]. split; [reflexivity|reflexivity]. }
  destruct (wrun_ok short SH true ops _ _ V K) as (o & E & C & I & Q & F). exists o. split; [exact E|]. now apply F.
Qed.
Print Assumptions C49_stderr.
Example C49_stderr_ex : exists o, wrun (fun _ n => n) true [OOutput [1]; OOutput1 2] (openOut (repeat 0 4096)) = Ret o /\ ofile (oc o) = [1; 2].
Proof.
  destruct (C49_stderr (fun _ n => n) (repeat 0 4096) [OOutput [1]; OOutput1 2]) as (o & E & F).
  - intros t n H. lia.
  - reflexivity.
  - repeat constructor; vm_compute; try reflexivity; discriminate.
  - exists o. auto.
Qed.

(** After closeOut every output operation raises Io and the file does not
    change any more. *)
Theorem C49_closed_output : forall short err std o o1 w, closeOut short std o = Ret o1 ->
  wstep short err w o1 = Raise IoExn /\ closeOut short std o1 = Ret o1.
Proof.
  intros short err std o o1 w E. assert (C : oclosed o1 = true).
  { unfold closeOut in E. destruct (oclosed o) eqn:Co; [congruence|].
    destruct (if std then Ret (oc o) else flush short (oc o)); cbn [bind] in E; try discriminate E. now injection E as <-. }
  split; [|unfold closeOut; now rewrite C]. destruct w; cbn [wstep]; unfold output, output1, flushOut; now rewrite C.
Qed.
Print Assumptions C49_closed_output.

(** closeOut on stdOut does not flush: what was output appears only at exit. *)
Theorem C49_close_stdout_refuted : exists ops o o1, Forall oop_ok ops /\
  wrun (fun _ n => n) false ops (openOut (repeat 0 4096)) = Ret o /\ closeOut (fun _ n => n) true o = Ret o1 /\
  ofile (oc o1) = [] /\ written ops = [97] /\ flushOut (fun _ n => n) o1 = Raise IoExn.
Proof.
  exists [OOutput [97]]. eexists. eexists. split; [repeat constructor; vm_compute; reflexivity|].
  split; [vm_compute; reflexivity|]. split; [vm_compute; reflexivity|]. split; [reflexivity|]. split; reflexivity.
Qed.
Print Assumptions C49_close_stdout_refuted.
