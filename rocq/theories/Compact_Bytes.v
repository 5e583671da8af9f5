(** Proofs about the compact format: each code is read back. *)
From Verif Require Import Base ArrayLib Mem Io_Model Extern_Model Extern_Spec Extern_Tab Extern_Proofs Extern_In Compact_Model.

Lemma s64_step x c : s64 (s64 x * 256 + c) = s64 (x * 256 + c).
Proof. unfold s64, two63, two64. lia. Qed.
Lemma s64_add x y : s64 (s64 x + y) = s64 (x + y).
Proof. unfold s64, two63, two64. lia. Qed.
Lemma s64_mul x k : s64 (s64 x * k) = s64 (x * k).
Proof.
  apply s64_congr. unfold u64. rewrite <- (Z.mul_mod_idemp_l (s64 x)), <- (Z.mul_mod_idemp_l x) by (unfold two64; lia).
  fold (u64 (s64 x)). rewrite u64_s64. reflexivity.
Qed.
Lemma s64_s64 x : s64 (s64 x) = s64 x.
Proof. apply s64_id, s64_range. Qed.
Lemma more_bytes_ok val : forall n res r, s64 res = res ->
  more_bytes n res (be_bytes n val ++ r) = Ret (s64 (res * 2 ^ (8 * Z.of_nat n) + val mod 2 ^ (8 * Z.of_nat n)), r).
Proof.
  induction n as [|n IH]; intros res r E; cbn [more_bytes be_bytes app].
  - change (2 ^ (8 * Z.of_nat 0)) with 1. rewrite Z.mod_1_r, Z.mul_1_r, Z.add_0_r, E. reflexivity.
  - cbn [get_ch bind]. rewrite IH by apply s64_s64. do 2 f_equal.
    set (p := 2 ^ (8 * Z.of_nat n)). assert (P : 0 < p) by (apply Z.pow_pos_nonneg; lia).
    assert (EP : 2 ^ (8 * Z.of_nat (S n)) = 256 * p).
    { unfold p. replace (8 * Z.of_nat (S n)) with (8 + 8 * Z.of_nat n) by lia. rewrite Z.pow_add_r by lia. reflexivity. }
    rewrite EP. rewrite <- s64_add, s64_mul, s64_add. f_equal.
    rewrite (Z.mul_comm 256 p), Z.rem_mul_r by lia. lia.
Qed.
Lemma input_unsigned n val r : (1 <= n <= 4)%nat ->
  input_bytes n false (be_bytes n val ++ r) = Ret (val mod 2 ^ (8 * Z.of_nat n), r).
Proof.
  intros H. destruct n as [|n]; [lia|]. unfold input_bytes. cbn [be_bytes app get_ch bind].
  replace (S n - 1)%nat with n by lia. rewrite more_bytes_ok by (apply s64_id; unfold in_long, two63; lia).
  assert (n = 0 \/ n = 1 \/ n = 2 \/ n = 3)%nat as [->|[->|[->| ->]]] by lia; cbn -[Z.mul Z.div Z.modulo Z.add s64]; do 2 f_equal;
    (rewrite s64_id; [lia|unfold in_long, two63; lia]).
Qed.
Lemma input_signed n val r : (n = 1 \/ n = 2 \/ n = 4 \/ n = 8)%nat ->
  - 2 ^ (8 * Z.of_nat n - 1) <= val < 2 ^ (8 * Z.of_nat n - 1) ->
  input_bytes n true (be_bytes n val ++ r) = Ret (val, r).
Proof.
  intros H V. destruct n as [|n]; [lia|]. unfold input_bytes. cbn [be_bytes app get_ch bind].
  replace (S n - 1)%nat with n by lia. rewrite more_bytes_ok
    by (apply s64_id; unfold in_long, two63; destruct (Z.ltb_spec ((val / 2 ^ (8 * Z.of_nat n)) mod 256) 128); lia).
  do 2 f_equal.
  assert (n = 0 \/ n = 1 \/ n = 3 \/ n = 7)%nat as [->|[->|[->| ->]]] by lia.
  - change (2 ^ (8 * Z.of_nat 0)) with 1. change (2 ^ (8 * Z.of_nat 1 - 1)) with 128 in V.
    destruct (Z.ltb_spec ((val / 1) mod 256) 128); (rewrite s64_id; [lia|unfold in_long, two63; lia]).
  - change (2 ^ (8 * Z.of_nat 1)) with 256. change (2 ^ (8 * Z.of_nat 2 - 1)) with 32768 in V.
    destruct (Z.ltb_spec ((val / 256) mod 256) 128); (rewrite s64_id; [lia|unfold in_long, two63; lia]).
  - change (2 ^ (8 * Z.of_nat 3)) with 16777216. change (2 ^ (8 * Z.of_nat 4 - 1)) with 2147483648 in V.
    destruct (Z.ltb_spec ((val / 16777216) mod 256) 128); (rewrite s64_id; [lia|unfold in_long, two63; lia]).
  - change (2 ^ (8 * Z.of_nat 7)) with 72057594037927936. change (2 ^ (8 * Z.of_nat 8 - 1)) with 9223372036854775808 in V.
    destruct (Z.ltb_spec ((val / 72057594037927936) mod 256) 128); (rewrite s64_id; [lia|unfold in_long, two63; lia]).
Qed.

Lemma long_val_long v : Z.odd v = true -> 0 <= v < two64 -> Val_long (Long_val v) = v /\ - two62 <= Long_val v < two62.
Proof.
  intros O V. apply odd_mod in O. unfold Val_long, Long_val, u64, s64, two62, two63, two64 in *. lia.
Qed.

Section R.
Variables atoms start color num : Z.
Notation read := (read_compact atoms start color num).
Lemma with_inp_inp r inp : rinp (with_inp r inp) = inp. Proof. reflexivity. Qed.
Lemma with_inp2 r i j : with_inp (with_inp r i) j = with_inp r j. Proof. reflexivity. Qed.
Lemma mod_small c : 0 <= c < 256 -> c mod 256 = c. Proof. intros. lia. Qed.

Lemma read_int fuel r n rest : - two62 <= n < two62 -> rinp r = emit_int n ++ rest ->
  read (S fuel) r = Ret (Val_long n, with_inp r rest).
Proof.
  intros N E. cbn [read_compact]. rewrite E. unfold emit_int, putch_bytes, output_number, two62 in *.
  unfold PREFIX_SMALL_INT, PREFIX_SMALL_BLOCK, PREFIX_SMALL_STRING, CODE_INT8, CODE_INT16, CODE_INT32, CODE_INT64 in *.
  rewrite !Z.geb_leb in *.
  destruct ((0 <=? n) && (n <? 64)) eqn:C1.
  { cbn [app get_ch bind]. rewrite !Z.geb_leb. rewrite (mod_small (64 + n)) by lia. destruct (Z.leb_spec 64 (64 + n)); [|lia].
    destruct (Z.leb_spec 128 (64 + n)); [lia|]. do 3 f_equal. lia. }
  destruct ((-128 <=? n) && (n <? 128)) eqn:C2.
  { change (0 mod 256) with 0. cbn [app get_ch bind]. cbn [Z.geb Z.compare Z.eqb]. rewrite (input_signed 1 n rest); [reflexivity|auto|].
    change (2 ^ (8 * Z.of_nat 1 - 1)) with 128. lia. }
  destruct ((-32768 <=? n) && (n <? 32768)) eqn:C3.
  { change (1 mod 256) with 1. cbn [app get_ch bind]. cbn [Z.geb Z.compare Z.eqb Pos.compare Pos.compare_cont Pos.eqb].
    rewrite (input_signed 2 n rest); [reflexivity|auto|]. change (2 ^ (8 * Z.of_nat 2 - 1)) with 32768. lia. }
  destruct ((n <? -2147483648) || (2147483648 <=? n)) eqn:C4.
  { change (3 mod 256) with 3. cbn [app get_ch bind]. cbn [Z.geb Z.compare Z.eqb Pos.compare Pos.compare_cont Pos.eqb].
    rewrite (input_signed 8 n rest); [reflexivity|auto|]. change (2 ^ (8 * Z.of_nat 8 - 1)) with 9223372036854775808. lia. }
  change (2 mod 256) with 2. cbn [app get_ch bind]. cbn [Z.geb Z.compare Z.eqb Pos.compare Pos.compare_cont Pos.eqb].
  rewrite (input_signed 4 n rest); [reflexivity|auto|]. change (2 ^ (8 * Z.of_nat 4 - 1)) with 2147483648. lia.
Qed.
Lemma read_shared_ok fuel r d rest : 0 <= d < 2 ^ 32 -> rinp r = emit_shared d ++ rest ->
  read (S fuel) r = read_shared d (with_inp r rest).
Proof.
  intros D E. cbn [read_compact]. rewrite E. unfold emit_shared, output_number.
  unfold PREFIX_SMALL_INT, PREFIX_SMALL_BLOCK, PREFIX_SMALL_STRING, CODE_SHARED8, CODE_SHARED16, CODE_SHARED32 in *.
  destruct (Z.ltb_spec d 256); [|destruct (Z.ltb_spec d 65536)].
  - change (4 mod 256) with 4. cbn [app get_ch bind]. cbn [Z.geb Z.compare Z.eqb Pos.compare Pos.compare_cont Pos.eqb].
    rewrite (input_unsigned 1 d rest) by lia. cbn [bind]. change (2 ^ (8 * Z.of_nat 1)) with 256. rewrite Z.mod_small by lia. reflexivity.
  - change (5 mod 256) with 5. cbn [app get_ch bind]. cbn [Z.geb Z.compare Z.eqb Pos.compare Pos.compare_cont Pos.eqb].
    rewrite (input_unsigned 2 d rest) by lia. cbn [bind]. change (2 ^ (8 * Z.of_nat 2)) with 65536. rewrite Z.mod_small by lia. reflexivity.
  - change (6 mod 256) with 6. cbn [app get_ch bind]. cbn [Z.geb Z.compare Z.eqb Pos.compare Pos.compare_cont Pos.eqb].
    rewrite (input_unsigned 4 d rest) by lia. cbn [bind]. change (2 ^ (8 * Z.of_nat 4)) with (2 ^ 32). rewrite Z.mod_small by lia. reflexivity.
Qed.
Lemma read_block32 fuel r hd rest : 0 <= hd -> hd / 1024 < 2 ^ 22 -> rinp r = output_number CODE_BLOCK32 hd 4 ++ rest ->
  read (S fuel) r = read_block atoms start color num (read fuel) (Tag_hd hd) (Wosize_hd hd) (with_inp r rest).
Proof.
  intros P D E. cbn [read_compact]. rewrite E. unfold output_number.
  unfold PREFIX_SMALL_INT, PREFIX_SMALL_BLOCK, PREFIX_SMALL_STRING, CODE_BLOCK32 in *.
  change (8 mod 256) with 8. cbn [app get_ch bind]. cbn [Z.geb Z.compare Z.eqb Pos.compare Pos.compare_cont Pos.eqb].
  rewrite (input_unsigned 4 hd rest) by lia. cbn [bind]. change (2 ^ (8 * Z.of_nat 4)) with 4294967296. rewrite Z.mod_small by lia. reflexivity.
Qed.
Lemma read_small_block fuel r tag sz rest : 0 <= tag < 16 -> 0 <= sz < 8 -> rinp r = putch_bytes (PREFIX_SMALL_BLOCK + tag + 16 * sz) ++ rest ->
  read (S fuel) r = read_block atoms start color num (read fuel) tag sz (with_inp r rest).
Proof.
  intros T S E. cbn [read_compact]. rewrite E. unfold putch_bytes. unfold PREFIX_SMALL_INT, PREFIX_SMALL_BLOCK, PREFIX_SMALL_STRING in *.
  cbn [app get_ch bind]. rewrite mod_small by lia. rewrite !Z.geb_leb. destruct (Z.leb_spec 64 (128 + tag + 16 * sz)); [|lia].
  destruct (Z.leb_spec 128 (128 + tag + 16 * sz)); [|lia]. f_equal; lia.
Qed.
Lemma read_header fuel r hd rest : 0 <= hd -> hd / 1024 < 2 ^ 22 -> rinp r = emit_header hd (Tag_hd hd) (Wosize_hd hd) ++ rest ->
  read (S fuel) r = read_block atoms start color num (read fuel) (Tag_hd hd) (Wosize_hd hd) (with_inp r rest).
Proof.
  intros P D E. unfold emit_header in E. destruct ((Tag_hd hd <? 16) && (Wosize_hd hd <? 8)) eqn:C.
  - apply read_small_block; [unfold Tag_hd in *; lia|unfold Wosize_hd in *; lia|exact E].
  - now apply read_block32.
Qed.
Lemma read_len fuel r len rest : 0 <= len < 2 ^ 32 -> rinp r = emit_len len ++ rest ->
  read (S fuel) r = read_string start color num len (with_inp r rest).
Proof.
  intros D E. cbn [read_compact]. rewrite E. unfold emit_len, output_number, putch_bytes.
  unfold PREFIX_SMALL_INT, PREFIX_SMALL_BLOCK, PREFIX_SMALL_STRING, CODE_STRING8, CODE_STRING32 in *.
  destruct (Z.ltb_spec len 32); [|destruct (Z.ltb_spec len 256)].
  - cbn [app get_ch bind]. rewrite mod_small by lia. rewrite !Z.geb_leb. destruct (Z.leb_spec 64 (32 + len)); [lia|].
    destruct (Z.leb_spec 32 (32 + len)); [|lia]. f_equal; lia.
  - change (9 mod 256) with 9. cbn [app get_ch bind]. cbn [Z.geb Z.compare Z.eqb Pos.compare Pos.compare_cont Pos.eqb].
    rewrite (input_unsigned 1 len rest) by lia. cbn [bind]. change (2 ^ (8 * Z.of_nat 1)) with 256. rewrite Z.mod_small by lia. reflexivity.
  - change (10 mod 256) with 10. cbn [app get_ch bind]. cbn [Z.geb Z.compare Z.eqb Pos.compare Pos.compare_cont Pos.eqb].
    rewrite (input_unsigned 4 len rest) by lia. cbn [bind]. change (2 ^ (8 * Z.of_nat 4)) with (2 ^ 32). rewrite Z.mod_small by lia. reflexivity.
Qed.
Lemma read_double_ok fuel r rest : rinp r = putch_bytes CODE_DOUBLE ++ rest ->
  read (S fuel) r = read_double start color num (with_inp r rest).
Proof.
  intros E. cbn [read_compact]. rewrite E. unfold putch_bytes.
  unfold PREFIX_SMALL_INT, PREFIX_SMALL_BLOCK, PREFIX_SMALL_STRING, CODE_DOUBLE in *. change (11 mod 256) with 11. reflexivity.
Qed.
End R.
