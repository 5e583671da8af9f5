(** Proofs about the model of md5sum.c. *)
From Verif Require Import Base ArrayLib Md5_Model Md5_Spec.

(** ** Words *)
Lemma two32_pow : two32 = 2 ^ 32.
Proof. reflexivity. Qed.
Lemma u32_w32 z : u32 z = w32 z.
Proof. reflexivity. Qed.
Lemma w32_range z : 0 <= w32 z < 2 ^ 32.
Proof. unfold w32. apply Z.mod_pos_bound. reflexivity. Qed.
Lemma w32_add_l x y : w32 (w32 x + y) = w32 (x + y).
Proof. unfold w32. apply Zplus_mod_idemp_l. Qed.
Lemma w32_add_r x y : w32 (x + w32 y) = w32 (x + y).
Proof. unfold w32. apply Zplus_mod_idemp_r. Qed.

(** a lor b = a + b when b is below the lowest bit of a *)
Lemma lor_add a b n : 0 <= n -> 0 <= b < 2 ^ n -> Z.lor (a * 2 ^ n) b = a * 2 ^ n + b.
Proof.
  intros Hn Hb. rewrite <- Z.shiftl_mul_pow2 by assumption.
  symmetry. rewrite Z.add_nocarry_lxor.
  - apply Z.bits_inj'. intros k Hk. rewrite Z.lxor_spec, Z.lor_spec.
    destruct (Z.ltb_spec k n).
    + rewrite Z.shiftl_spec_low by assumption. now destruct (Z.testbit b k).
    + assert (Z.testbit b k = false) as ->; [|now destruct (Z.testbit (Z.shiftl a n) k)].
      rewrite <- (Z.mod_small b (2 ^ n)) by assumption. now apply Z.mod_pow2_bits_high.
  - apply Z.bits_inj'. intros k Hk. rewrite Z.land_spec, Z.bits_0.
    destruct (Z.ltb_spec k n).
    + now rewrite Z.shiftl_spec_low by assumption.
    + rewrite <- (Z.mod_small b (2 ^ n)) by assumption.
      rewrite (Z.mod_pow2_bits_high b n k) by lia. apply andb_false_r.
Qed.

Lemma rot_eq a s : 0 <= a < 2 ^ 32 -> 0 <= s <= 32 ->
  Z.lor (u32 (Z.shiftl a s)) (Z.shiftr a (32 - s)) = rotl a s.
Proof.
  intros Ha Hs. unfold rotl. rewrite Z.shiftl_mul_pow2, Z.shiftr_div_pow2 by lia.
  unfold u32. rewrite two32_pow.
  assert (E : 2 ^ 32 = 2 ^ (32 - s) * 2 ^ s) by (rewrite <- Z.pow_add_r by lia; f_equal; lia).
  rewrite E at 1 2. rewrite Z.mul_mod_distr_r by (apply Z.pow_nonzero; lia).
  apply lor_add; [lia|]. split; [apply Z.div_pos; [lia|apply Z.pow_pos_nonneg; lia]|].
  apply Z.div_lt_upper_bound; [apply Z.pow_pos_nonneg; lia|]. rewrite <- E. lia.
Qed.

(** ** A turn of the loop is an operation of the RFC *)
Lemma znth_nth (x : list Z) k : 0 <= k -> znth 0 x k = nth (Z.to_nat k) x 0.
Proof.
  intros Hk. unfold znth, zget. destruct (Z.ltb_spec k 0); [lia|].
  destruct (nth_error x (Z.to_nat k)) eqn:E.
  - symmetry. now apply nth_error_nth.
  - symmetry. apply nth_overflow. now apply nth_error_None.
Qed.

Definition fn (i : Z) : Z -> Z -> Z -> Z :=
  match Z.shiftr i 4 with 0 => F | 1 => G | 2 => H | 3 => I | _ => fun _ _ _ => 0 end.
Lemma turn_op x i a b c d t_x t_rot : zlen x = 16 ->
  zget tab i = Some (T (i + 1), t_x, t_rot) -> 0 <= t_x < 16 -> 0 <= t_rot <= 32 ->
  turn x i (a, b, c, d) = Ret (d, op (fn i) x a b c d t_x t_rot (i + 1), b, c).
Proof.
  intros L E Hx Hr. unfold turn. unfold sub_raw at 1. rewrite E. cbn [bind].
  rewrite (sub_raw_ok 0) by lia. cbn [bind]. rewrite znth_nth by lia.
  set (f := match Z.shiftr i 4 with 0 => _ | _ => _ end).
  assert (f = fn i b c d) as ->.
  { subst f. unfold fn. destruct (Z.shiftr i 4) as [|[[p|p|]|[p|p|]|]|p]; reflexivity. }
  unfold op. do 4 f_equal. rewrite rot_eq; [|rewrite u32_w32; apply w32_range|assumption].
  rewrite u32_w32, Z.add_comm. do 3 f_equal. rewrite !u32_w32, w32_add_r, w32_add_l. f_equal. lia.
Qed.

Lemma turns_line x n i r k1 k2 k3 k4 s1 s2 s3 s4 f : zlen x = 16 ->
  zget tab i = Some (T (i + 1), k1, s1) -> zget tab (i + 1) = Some (T (i + 1 + 1), k2, s2) ->
  zget tab (i + 2) = Some (T (i + 1 + 2), k3, s3) -> zget tab (i + 3) = Some (T (i + 1 + 3), k4, s4) ->
  (0 <= k1 < 16 /\ 0 <= k2 < 16 /\ 0 <= k3 < 16 /\ 0 <= k4 < 16) ->
  (0 <= s1 <= 32 /\ 0 <= s2 <= 32 /\ 0 <= s3 <= 32 /\ 0 <= s4 <= 32) ->
  fn i = f -> fn (i + 1) = f -> fn (i + 2) = f -> fn (i + 3) = f ->
  turns x (S (S (S (S n)))) i r = turns x n (i + 4) (line f x k1 k2 k3 k4 s1 s2 s3 s4 (i + 1) r).
Proof.
  intros L E1 E2 E3 E4 Hk Hs F1 F2 F3 F4. destruct r as [[[a b] c] d].
  cbn [turns]. rewrite (turn_op x i a b c d k1 s1) by (assumption || lia). cbn [bind].
  replace (i + 1 + 1) with (i + 2) by lia. replace (i + 2 + 1) with (i + 3) by lia.
  replace (i + 3 + 1) with (i + 4) by lia.
  rewrite (turn_op x (i + 1) _ _ _ _ k2 s2); [|assumption|assumption|lia|lia]. cbn [bind].
  rewrite (turn_op x (i + 2) _ _ _ _ k3 s3); [|assumption|replace (i + 2 + 1) with (i + 1 + 2) by lia; assumption|lia|lia]. cbn [bind].
  rewrite (turn_op x (i + 3) _ _ _ _ k4 s4); [|assumption|replace (i + 3 + 1) with (i + 1 + 3) by lia; assumption|lia|lia]. cbn [bind].
  f_equal. unfold line. rewrite F1, F2, F3, F4.
  replace (i + 1 + 2) with (i + 2 + 1) by lia. replace (i + 1 + 3) with (i + 3 + 1) by lia.
  reflexivity.
Qed.

Ltac one_line f :=
  erewrite (turns_line _ _ _ _ _ _ _ _ _ _ _ _ f);
  [cbn [Z.add Pos.add Pos.succ Pos.add_carry]|assumption|reflexivity|reflexivity|reflexivity|reflexivity|lia|lia|
   reflexivity|reflexivity|reflexivity|reflexivity].
Lemma turns_rounds x r : zlen x = 16 -> turns x 64 0 r = Ret (round4 x (round3 x (round2 x (round1 x r)))).
Proof.
  intros L.
  one_line F. one_line F. one_line F. one_line F. fold (round1 x r).
  one_line G. one_line G. one_line G. one_line G.
  one_line H. one_line H. one_line H. one_line H.
  one_line I. one_line I. one_line I. one_line I. reflexivity.
Qed.

(** ** Bytes and words *)
Lemma decode_words l : is_bytes l -> decode l = words l.
Proof.
  assert (forall n, (length l <= n)%nat -> is_bytes l -> decode l = words l) as X; [|eauto].
  intros n. revert l. induction n as [|n IH]; intros l Hn Hl.
  { destruct l; [reflexivity|cbn in Hn; lia]. }
  destruct l as [|b0 [|b1 [|b2 [|b3 r]]]]; try reflexivity. cbn [decode words].
  inversion_clear Hl as [|? ? B0 H1]. inversion_clear H1 as [|? ? B1 H2]. inversion_clear H2 as [|? ? B2 H3].
  inversion_clear H3 as [|? ? B3 H4]. f_equal; [|apply IH; [cbn in Hn; lia|assumption]].
  rewrite !Z.shiftl_mul_pow2 by lia.
  rewrite (Z.lor_comm b0), (lor_add b1 b0 8) by (change (2 ^ 8) with 256; lia).
  rewrite (Z.lor_comm _ (b2 * 2 ^ 16)), (lor_add b2 _ 16) by (change (2 ^ 8) with 256; change (2 ^ 16) with 65536; lia).
  rewrite (Z.lor_comm _ (b3 * 2 ^ 24)), (lor_add b3 _ 24)
    by (change (2 ^ 8) with 256; change (2 ^ 16) with 65536; change (2 ^ 24) with 16777216; lia).
  change (2 ^ 8) with 256; change (2 ^ 16) with 65536; change (2 ^ 24) with 16777216; lia.
Qed.
Lemma words_len l : forall n, length l = (4 * n)%nat -> length (words l) = n.
Proof.
  intros n. revert l. induction n as [|n IH]; intros l E; [destruct l; [reflexivity|discriminate]|].
  destruct l as [|b0 [|b1 [|b2 [|b3 r]]]]; cbn in E; try lia. cbn [words length]. f_equal. apply IH. lia.
Qed.
Lemma encode_le l : encode l = flat_map (le_bytes 4) l.
Proof.
  induction l as [|x l IH]; [reflexivity|]. cbn [encode flat_map le_bytes app]. rewrite !Z.shiftr_div_pow2 by lia.
  change (2 ^ 8) with 256. change (2 ^ 16) with (256 * 256). change (2 ^ 24) with (256 * 256 * 256).
  rewrite <- !Z.div_div by lia. rewrite IH. reflexivity.
Qed.

(** ** Blocks *)
Local Opaque round1 round2 round3 round4 turns decode words.
Lemma skipn_skipn' {A} (l : list A) : forall n m, skipn n (skipn m l) = skipn (m + n) l.
Proof. induction l as [|x l IH]; intros n [|m]; cbn; auto. now rewrite skipn_nil. Qed.
Lemma is_bytes_firstn n l : is_bytes l -> is_bytes (firstn n l).
Proof. intros B. rewrite <- (firstn_skipn n l) in B. now apply Forall_app in B. Qed.
Lemma is_bytes_skipn n l : is_bytes l -> is_bytes (skipn n l).
Proof. intros B. rewrite <- (firstn_skipn n l) in B. now apply Forall_app in B. Qed.

Lemma blocks_stop fuel m p e r : e <= p -> blocks (S fuel) m p e r = Ret r.
Proof. intros E. cbn [blocks]. destruct (Z.ltb_spec p e); [lia|]. reflexivity. Qed.
(** one turn of the loop over the blocks *)
Definition block_body (blk : list Z) (st : regs) : outcome regs :=
  let '(a, b, c, d) := st in
  do (a', b', c', d') <- turns (decode blk) 64 0 (a, b, c, d);
  Ret (u32 (a + a'), u32 (b + b'), u32 (c + c'), u32 (d + d')).
Lemma blocks_next fuel m p e r : p < e ->
  blocks (S fuel) m p e r = do blk <- getn m p 64; do r <- block_body blk r; blocks fuel m (p + 64) e r.
Proof.
  intros E. cbn [blocks]. destruct (Z.ltb_spec p e); [|lia]. destruct r as [[[a b] c] d]. unfold block_body.
  destruct (getn m p 64) as [blk| | |]; cbn [bind]; try reflexivity.
  destruct (turns (decode blk) 64 0 (a, b, c, d)) as [[[[a' b'] c'] d']| | |]; reflexivity.
Qed.
Lemma block_body_compress blk r : is_bytes blk -> length blk = 64%nat -> block_body blk r = Ret (compress r blk).
Proof.
  intros BB LB. destruct r as [[[a b] c] d]. unfold block_body, compress. rewrite decode_words by assumption.
  rewrite turns_rounds by (unfold zlen; rewrite (words_len blk 16) by (rewrite LB; reflexivity); reflexivity).
  destruct (round4 (words blk) (round3 (words blk) (round2 (words blk) (round1 (words blk) (a, b, c, d)))))
    as [[[a' b'] c'] d'].
  cbn [bind]. rewrite !u32_w32, (Z.add_comm a), (Z.add_comm b), (Z.add_comm c), (Z.add_comm d). reflexivity.
Qed.
Lemma getn_ok m i n : 0 <= i -> 0 <= n -> i + n <= zlen m -> getn m i n = Ret (firstn (Z.to_nat n) (skipn (Z.to_nat i) m)).
Proof.
  intros A B C. unfold getn. destruct (Z.leb_spec 0 i); [|lia]. destruct (Z.leb_spec 0 n); [|lia].
  destruct (Z.leb_spec (i + n) (zlen m)); [|lia]. reflexivity.
Qed.
Lemma process_S n m r : process (S n) m r = process n (skipn 64 m) (compress r (firstn 64 m)).
Proof. reflexivity. Qed.
Local Opaque block_body compress.
Lemma blocks_process m : is_bytes m -> forall n fuel p e r,
  0 <= p -> e - p <= 64 * Z.of_nat n < e - p + 64 -> p + 64 * Z.of_nat n <= zlen m -> (n < fuel)%nat ->
  blocks fuel m p e r = Ret (process n (skipn (Z.to_nat p) m) r).
Proof.
  intros B. induction n as [|n IH]; intros fuel p e r Hp He Hl Hf; (destruct fuel as [|fuel]; [lia|]).
  - rewrite blocks_stop by lia. reflexivity.
  - rewrite blocks_next by lia. rewrite getn_ok by lia. cbn [bind].
    change (Z.to_nat 64) with 64%nat.
    rewrite block_body_compress.
    + cbn [bind]. rewrite IH by lia. rewrite process_S, skipn_skipn'.
      replace (Z.to_nat (p + 64)) with (Z.to_nat p + 64)%nat by lia. reflexivity.
    + apply is_bytes_firstn, is_bytes_skipn, B.
    + rewrite firstn_length, skipn_length. unfold zlen in *. lia.
Qed.

Lemma process_app n1 n2 : forall l1 l2 r, length l1 = (64 * n1)%nat ->
  process (n1 + n2) (l1 ++ l2) r = process n2 l2 (process n1 l1 r).
Proof.
  induction n1 as [|n1 IH]; intros l1 l2 r L.
  - destruct l1; [reflexivity|discriminate].
  - cbn [Nat.add]. rewrite !process_S, firstn_app, skipn_app.
    replace (64 - length l1)%nat with 0%nat by lia. rewrite firstn_O, skipn_O, app_nil_r.
    apply IH. rewrite skipn_length. lia.
Qed.
Lemma process_prefix n l1 l2 r : length l1 = (64 * n)%nat -> process n (l1 ++ l2) r = process n l1 r.
Proof. intros L. rewrite <- (Nat.add_0_r n) at 1. now rewrite process_app. Qed.

(** ** The last call *)
Lemma land63 n : Z.land n 63 = n mod 64.
Proof. change 63 with (Z.ones 6). now rewrite Z.land_ones. Qed.
Lemma putn_ok m i l : 0 <= i -> i + zlen l <= zlen m ->
  putn m i l = Ret (firstn (Z.to_nat i) m ++ l ++ skipn (Z.to_nat i + length l) m).
Proof. intros A B. unfold putn. destruct (Z.leb_spec 0 i), (Z.leb_spec (i + zlen l) (zlen m)); try lia. reflexivity. Qed.
(** writing over the part after the first [length a] bytes *)
Lemma putn_at (a b c l : list Z) i : i = zlen a -> length b = length l ->
  putn (a ++ b ++ c) i l = Ret (a ++ l ++ c).
Proof.
  intros -> E. rewrite putn_ok.
  - f_equal. unfold zlen. rewrite Nat2Z.id, firstn_app, Nat.sub_diag, firstn_all, firstn_O, app_nil_r.
    do 2 f_equal. rewrite app_assoc, skipn_app, app_length, E.
    rewrite Nat.sub_diag. rewrite skipn_all2 by (rewrite app_length; lia). reflexivity.
  - apply zlen_nonneg.
  - rewrite !zlen_app. unfold zlen. lia.
Qed.

Definition seed : md5state := St 0 start.
Definition upd_len (s : md5state) (len : Z) := St (u32 (slen s + len)) (sregs s).
Lemma encode_count n : 0 <= n < 2 ^ 32 -> encode [u32 (Z.shiftl n 3); Z.shiftr n 29] = le_bytes 8 (8 * n).
Proof.
  intros Hn. rewrite encode_le. cbn [flat_map app]. rewrite app_nil_r.
  assert (E : 8 * n = u32 (Z.shiftl n 3) + 4294967296 * Z.shiftr n 29).
  { rewrite Z.shiftl_mul_pow2, Z.shiftr_div_pow2 by lia. unfold u32, two32.
    change (2 ^ 3) with 8. change (2 ^ 29) with 536870912. lia. }
  rewrite E. clear E. set (a := u32 (Z.shiftl n 3)). set (b := Z.shiftr n 29).
  assert (0 <= a < 4294967296) by (apply Z.mod_pos_bound; reflexivity). clearbody a b.
  assert (X : forall k x y, 0 <= k -> ((x + 256 ^ (k + 1) * y) mod 256 = x mod 256) /\
                            (x + 256 ^ (k + 1) * y) / 256 = x / 256 + 256 ^ k * y).
  { intros k x y Hk. rewrite Z.pow_add_r, Z.pow_1_r by lia. set (q := 256 ^ k).
    replace (x + q * 256 * y) with (x + (q * y) * 256) by ring. rewrite Z.mod_add, Z.div_add by lia. split; reflexivity. }
  change 4294967296 with (256 ^ (3 + 1)). cbn [le_bytes app].
  destruct (X 3 a b ltac:(lia)) as [-> ->].
  change (256 ^ 3) with (256 ^ (2 + 1)). destruct (X 2 (a / 256) b ltac:(lia)) as [-> ->].
  change (256 ^ 2) with (256 ^ (1 + 1)). destruct (X 1 (a / 256 / 256) b ltac:(lia)) as [-> ->].
  change (256 ^ 1) with (256 ^ (0 + 1)). destruct (X 0 (a / 256 / 256 / 256) b ltac:(lia)) as [-> ->].
  change (256 ^ 0) with 1. replace (a / 256 / 256 / 256 / 256) with 0 by lia. rewrite Z.mul_1_l, Z.add_0_l. reflexivity.
Qed.

Lemma le_bytes_bytes n : forall x, is_bytes (le_bytes n x).
Proof. induction n; intros x; cbn; constructor; [|apply IHn]. apply Z.mod_pos_bound. lia. Qed.
Lemma le_bytes_len n : forall x, length (le_bytes n x) = n.
Proof. induction n; intros x; cbn; auto. Qed.
Lemma repeat_split (x : Z) a b n : n = (a + b)%nat -> repeat x n = repeat x a ++ repeat x b.
Proof. intros ->. apply repeat_app. Qed.

(** [msg]: the bytes of the last chunk, [rest]: the remainder of the buffer, [before]: the bytes
    already processed *)
Lemma md5_last msg rest s : is_bytes msg -> is_bytes rest -> zlen msg < 2 ^ 32 -> 128 <= zlen rest ->
  (zlen msg mod 64 <> 0 \/ zlen msg = 0) ->
  exists m, md5 (msg ++ rest) (zlen msg) s =
    Ret (m, Done (let s := upd_len (match s with None => seed | Some s => s end) (zlen msg) in
                  let k := Z.to_nat ((55 - zlen msg) mod 64) in
                  let p := msg ++ [128] ++ repeat 0 k ++ le_bytes 8 (8 * slen s) in
                  let '(a, b, c, d) := process (length p / 64) p (sregs s) in
                  le_bytes 4 a ++ le_bytes 4 b ++ le_bytes 4 c ++ le_bytes 4 d)).
Proof.
  intros B BR L LR C. unfold md5.
  change (St 0 (0x67452301, 0xefcdab89, 0x98badcfe, 0x10325476)) with seed.
  set (s0 := match s with None => seed | Some s => s end).
  change (St (u32 (slen s0 + zlen msg)) (sregs s0)) with (upd_len s0 (zlen msg)).
  set (s' := upd_len s0 (zlen msg)). cbv zeta. rewrite land63.
  pose proof (zlen_nonneg msg) as N0.
  replace (negb (zlen msg mod 64 =? 0) || (zlen msg =? 0)) with true by (destruct C; lia).
  set (i := if zlen msg mod 64 <? 56 then 56 - zlen msg mod 64 else 120 - zlen msg mod 64).
  assert (Hi : i = 1 + (55 - zlen msg) mod 64).
  { subst i. destruct (Z.ltb_spec (zlen msg mod 64) 56); lia. }
  assert (Hi2 : 1 <= i <= 64) by lia.
  clearbody i. destruct (Z.gtb_spec i 0); [|lia].
  set (k := Z.to_nat ((55 - zlen msg) mod 64)).
  assert (Hk : Z.to_nat i = S k) by lia.
  assert (exists r1 r2 r3, rest = r1 ++ r2 ++ r3 /\ length r1 = S k /\ length r2 = 8%nat) as (r1 & r2 & r3 & ER & L1 & L2).
  { exists (firstn (S k) rest), (firstn 8 (skipn (S k) rest)), (skipn 8 (skipn (S k) rest)).
    rewrite !firstn_skipn. split; [reflexivity|]. rewrite !firstn_length, skipn_length. unfold zlen in *. lia. }
  rewrite ER. rewrite putn_at with (l := repeat 0 (Z.to_nat i)); [|reflexivity|rewrite repeat_length; lia].
  rewrite Hk. cbn [bind repeat].
  rewrite (putn_at msg [0] (repeat 0 k ++ r2 ++ r3) [128]) by reflexivity.
  cbn [bind].
  replace (msg ++ [128] ++ repeat 0 k ++ r2 ++ r3) with ((msg ++ [128] ++ repeat 0 k) ++ r2 ++ r3)
    by (rewrite <- !app_assoc; reflexivity).
  assert (RS : 0 <= slen s' < 2 ^ 32) by apply w32_range.
  rewrite putn_at;
    [|rewrite !zlen_app, zlen_repeat; change (zlen [128]) with 1; lia|rewrite L2; reflexivity].
  cbn [bind]. rewrite encode_count by assumption.
  set (p := (msg ++ [128] ++ repeat 0 k) ++ le_bytes 8 (8 * slen s')).
  assert (PE : msg ++ [128] ++ repeat 0 k ++ le_bytes 8 (8 * slen s') = p)
    by (subst p; rewrite <- !app_assoc; reflexivity).
  rewrite PE.
  assert (LP : zlen p = zlen msg + i + 8).
  { subst p. rewrite !zlen_app, zlen_repeat. change (zlen [128]) with 1.
    unfold zlen at 2. rewrite le_bytes_len. lia. }
  assert (M64 : (zlen msg + i + 8) mod 64 = 0).
  { rewrite Hi. replace (zlen msg + (1 + (55 - zlen msg) mod 64) + 8) with ((55 - zlen msg) mod 64 + (zlen msg + 9)) by ring.
    rewrite Zplus_mod_idemp_l. replace (55 - zlen msg + (zlen msg + 9)) with 64 by ring. reflexivity. }
  assert (LN : zlen p = 64 * Z.of_nat (length p / 64)).
  { rewrite <- LP in M64. clear - M64. unfold zlen in *. rewrite Nat2Z.inj_div. change (Z.of_nat 64) with 64. lia. }
  rewrite app_assoc. fold p.
  rewrite (blocks_process (p ++ r3)) with (n := (length p / 64)%nat).
  - cbn [bind]. change (Z.to_nat 0) with 0%nat. cbn [skipn].
    rewrite process_prefix by (unfold zlen in LN; lia).
    destruct (process (length p / 64) p (sregs s')) as [[[a b] c] d]. cbn [bind].
    eexists. rewrite encode_le. cbn [flat_map]. rewrite app_nil_r. reflexivity.
  - unfold is_bytes. apply Forall_app. split.
    + subst p. rewrite <- !app_assoc. repeat (apply Forall_app; split); [assumption| | |apply le_bytes_bytes].
      * constructor; [lia|constructor].
      * apply Forall_forall. intros z Hz. apply repeat_spec in Hz. lia.
    + rewrite ER in BR. apply Forall_app in BR as [_ BR]. now apply Forall_app in BR.
  - lia.
  - rewrite <- LN, LP. lia.
  - rewrite <- LN, zlen_app. pose proof (zlen_nonneg r3). lia.
  - lia.
Qed.

(** a call with whole blocks *)
Lemma md5_more msg rest s n : is_bytes msg -> is_bytes rest -> zlen msg = 64 * Z.of_nat n -> (0 < n)%nat ->
  md5 (msg ++ rest) (zlen msg) s =
    Ret (msg ++ rest, More (let s := upd_len (match s with None => seed | Some s => s end) (zlen msg) in
                            St (slen s) (process n msg (sregs s)))).
Proof.
  intros B BR L N. unfold md5.
  change (St 0 (0x67452301, 0xefcdab89, 0x98badcfe, 0x10325476)) with seed.
  set (s0 := match s with None => seed | Some s => s end).
  change (St (u32 (slen s0 + zlen msg)) (sregs s0)) with (upd_len s0 (zlen msg)).
  set (s' := upd_len s0 (zlen msg)). cbv zeta. rewrite land63.
  replace (negb (zlen msg mod 64 =? 0) || (zlen msg =? 0)) with false.
  2:{ rewrite L, Z.mul_comm, Z.mod_mul by lia. cbn [negb Z.eqb orb]. symmetry. apply Z.eqb_neq. lia. }
  rewrite (blocks_process (msg ++ rest)) with (n := n).
  - cbn [bind]. change (Z.to_nat 0) with 0%nat. cbn [skipn]. rewrite process_prefix; [reflexivity|].
    unfold zlen in L. lia.
  - now apply Forall_app.
  - lia.
  - lia.
  - rewrite zlen_app. pose proof (zlen_nonneg rest). lia.
  - lia.
Qed.
