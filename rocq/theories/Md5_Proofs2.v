(** Proofs about the model of md5sum.c: the loop over the string, the encoding. *)
From Verif Require Import Base ArrayLib Md5_Model Md5_Spec Md5_Proofs.
Local Opaque process compress.

Definition cur (s : option md5state) : md5state := match s with None => seed | Some s => s end.

(** the state after the first [64 * k] bytes *)
Definition after (str : list Z) (k : nat) (s : option md5state) : Prop :=
  slen (cur s) = 64 * Z.of_nat k /\ sregs (cur s) = process k (firstn (64 * k) str) start.

Lemma putn_0 m l : zlen l <= zlen m -> putn m 0 l = Ret (l ++ skipn (length l) m).
Proof. intros L. rewrite putn_ok by lia. reflexivity. Qed.
Lemma firstn_plus {A} (l : list A) : forall a b, firstn (a + b) l = firstn a l ++ firstn b (skipn a l).
Proof. induction l as [|x l IH]; intros [|a] b; cbn; auto; [now rewrite firstn_nil|]. now f_equal. Qed.

Lemma loop_ok str : is_bytes str -> zlen str < 2147483648 -> forall fuel k buf s,
  is_bytes buf -> zlen buf = 16384 -> (64 * k <= length str)%nat -> after str k s ->
  (length str - 64 * k + 1 < fuel)%nat ->
  exists k' rest s', md5sum_loop fuel str buf (zlen str) (64 * Z.of_nat k) s =
    Ret (skipn (64 * k') str ++ rest, zlen (skipn (64 * k') str), s') /\
    after str k' s' /\ (64 * k' <= length str)%nat /\ is_bytes rest /\ 128 <= zlen rest /\
    (zlen (skipn (64 * k') str) mod 64 <> 0 \/ zlen (skipn (64 * k') str) = 0).
Proof.
  intros BS LS. induction fuel as [|fuel IH]; intros k buf s BB LB Hk A Hf; [lia|]. cbn [md5sum_loop].
  set (n := if zlen str - 64 * Z.of_nat k <? 8192 then zlen str - 64 * Z.of_nat k else 8192).
  assert (Hn : 0 <= n <= 8192 /\ (n = zlen str - 64 * Z.of_nat k \/ n = 8192 /\ 8192 <= zlen str - 64 * Z.of_nat k)).
  { subst n. unfold zlen. destruct (Z.ltb_spec (Z.of_nat (length str) - 64 * Z.of_nat k) 8192); lia. }
  clearbody n. unfold zlen in Hn. rewrite getn_ok by (unfold zlen; lia). cbn [bind].
  replace (Z.to_nat (64 * Z.of_nat k)) with (64 * k)%nat by lia.
  set (bytes := firstn (Z.to_nat n) (skipn (64 * k) str)).
  assert (LBy : zlen bytes = n).
  { unfold zlen, bytes. rewrite firstn_length, skipn_length. lia. }
  assert (BBy : is_bytes bytes) by (apply is_bytes_firstn, is_bytes_skipn; assumption).
  rewrite putn_0 by lia. cbn [bind].
  assert (BR : is_bytes (skipn (length bytes) buf)) by (apply is_bytes_skipn; assumption).
  assert (LR : zlen (skipn (length bytes) buf) = 16384 - n).
  { unfold zlen in *. rewrite skipn_length. lia. }
  rewrite land63.
  destruct (Z.leb_spec n 0); [cbn [orb]|cbn [orb]; destruct (Z.eqb_spec (n mod 64) 0); cbn [negb]].
  - exists k, (skipn (length bytes) buf), s.
    assert (E : skipn (64 * k) str = bytes).
    { subst bytes. rewrite firstn_all2; [reflexivity|]. rewrite skipn_length. lia. }
    rewrite E, LBy. repeat split; try assumption; try lia; apply A.
  - assert (exists m, n = 64 * Z.of_nat m /\ (0 < m)%nat) as (m & Em & Hm) by (exists (Z.to_nat (n / 64)); lia).
    cbv zeta. replace (md5 (bytes ++ skipn (length bytes) buf) n s) with (md5 (bytes ++ skipn (length bytes) buf) (zlen bytes) s) by (now rewrite LBy).
    rewrite (md5_more bytes _ s m) by (assumption || lia). cbn [bind].
    replace (64 * Z.of_nat k + n) with (64 * Z.of_nat (k + m)) by lia.
    apply IH.
    + apply Forall_app. split; assumption.
    + rewrite zlen_app. lia.
    + lia.
    + fold (cur s). destruct A as [A1 A2]. split; cbn [cur slen sregs upd_len].
      * rewrite A1, LBy. unfold u32. rewrite Z.mod_small; [lia|]. unfold two32, zlen in *. lia.
      * rewrite A2. replace (64 * (k + m))%nat with (64 * k + 64 * m)%nat by lia.
        rewrite firstn_plus, process_app by (rewrite firstn_length; lia). f_equal.
        subst bytes. f_equal. lia.
    + lia.
  - exists k, (skipn (length bytes) buf), s.
    assert (E : skipn (64 * k) str = bytes).
    { subst bytes. rewrite firstn_all2; [reflexivity|]. rewrite skipn_length. lia. }
    rewrite E, LBy. repeat split; try assumption; try lia; apply A.
Qed.

(** the digest *)
Lemma digest_ok str k s rest : is_bytes str -> zlen str < 2147483648 -> after str k s -> (64 * k <= length str)%nat ->
  is_bytes rest -> 128 <= zlen rest ->
  (zlen (skipn (64 * k) str) mod 64 <> 0 \/ zlen (skipn (64 * k) str) = 0) ->
  exists m, md5 (skipn (64 * k) str ++ rest) (zlen (skipn (64 * k) str)) s = Ret (m, Done (MD5 str)).
Proof.
  intros BS LS [A1 A2] Hk BR LR C. set (tail := skipn (64 * k) str) in *.
  assert (LT : zlen tail = zlen str - 64 * Z.of_nat k) by (subst tail; unfold zlen; rewrite skipn_length; lia).
  destruct (md5_last tail rest s) as [m E].
  - apply is_bytes_skipn, BS.
  - exact BR.
  - lia.
  - exact LR.
  - exact C.
  - exists m. rewrite E. do 2 f_equal. fold (cur s). cbv zeta. unfold upd_len. cbn [slen sregs]. rewrite A1, A2.
    replace (u32 (64 * Z.of_nat k + zlen tail)) with (zlen str).
    2:{ unfold u32. rewrite Z.mod_small by (unfold two32, zlen in *; lia). lia. }
    unfold MD5, pad. fold (zlen str).
    replace ((55 - zlen tail) mod 64) with ((55 - zlen str) mod 64).
    2:{ rewrite LT. replace (55 - (zlen str - 64 * Z.of_nat k)) with (55 - zlen str + Z.of_nat k * 64) by ring.
        now rewrite Z.mod_add by lia. }
    set (q := [128] ++ repeat 0 (Z.to_nat ((55 - zlen str) mod 64)) ++ le_bytes 8 (8 * zlen str)).
    assert (ES : str = firstn (64 * k) str ++ tail) by (symmetry; apply firstn_skipn).
    assert (EP : str ++ q = firstn (64 * k) str ++ (tail ++ q)) by (rewrite app_assoc, <- ES; reflexivity).
    rewrite EP.
    assert (LF : length (firstn (64 * k) str) = (64 * k)%nat) by (rewrite firstn_length; lia).
    replace (length (firstn (64 * k) str ++ tail ++ q) / 64)%nat with (k + length (tail ++ q) / 64)%nat.
    2:{ rewrite (app_length (firstn (64 * k) str)), LF. rewrite Nat.mul_comm, Nat.div_add_l by lia. reflexivity. }
    rewrite process_app by assumption. reflexivity.
Qed.

(** ** Base 64 *)
Lemma t64e_alphabet : t64e = alphabet.
Proof. reflexivity. Qed.
Lemma sub_t64e v : 0 <= v < 64 -> sub_raw t64e v = Ret (digit v).
Proof.
  intros Hv. rewrite (sub_raw_ok 0) by exact Hv. rewrite znth_nth by lia. reflexivity.
Qed.
Lemma land63' x : Z.land x 63 = x mod 64.
Proof. apply land63. Qed.
Lemma b24_eq x y z : 0 <= x < 256 -> 0 <= y < 256 -> 0 <= z < 256 ->
  Z.lor (Z.lor (Z.shiftl x 16) (Z.shiftl y 8)) z = x * 65536 + y * 256 + z.
Proof.
  intros Hx Hy Hz. rewrite !Z.shiftl_mul_pow2 by lia.
  rewrite (lor_add x (y * 2 ^ 8) 16) by (change (2 ^ 8) with 256; change (2 ^ 16) with 65536; lia).
  replace (x * 2 ^ 16 + y * 2 ^ 8) with ((x * 256 + y) * 2 ^ 8) by (change (2 ^ 8) with 256; change (2 ^ 16) with 65536; ring).
  rewrite lor_add by (change (2 ^ 8) with 256; lia). change (2 ^ 8) with 256. ring.
Qed.
Lemma groups_ok : forall g l, is_bytes l -> (3 * g <= length l)%nat ->
  exists out, enc64_groups g l = Ret (out, skipn (3 * g) l) /\ base64 l = out ++ base64 (skipn (3 * g) l) /\ length out = (4 * g)%nat.
Proof.
  induction g as [|g IH]; intros l B L.
  - exists []. repeat split.
  - destruct l as [|x [|y [|z l]]]; cbn [length] in L; try lia.
    inversion_clear B as [|? ? Bx B1]. inversion_clear B1 as [|? ? By B2]. inversion_clear B2 as [|? ? Bz B3].
    destruct (IH l B3 ltac:(lia)) as (out & E & EB & LO).
    replace (3 * S g)%nat with (S (S (S (3 * g)))) by lia. cbn [enc64_groups skipn base64].
    rewrite b24_eq, !land63, !Z.shiftr_div_pow2 by (assumption || lia).
    change (2 ^ 18) with 262144. change (2 ^ 12) with 4096. change (2 ^ 6) with 64.
    set (n := x * 65536 + y * 256 + z). assert (0 <= n < 16777216) by (subst n; lia). clearbody n.
    rewrite !sub_t64e by lia. cbn [bind]. rewrite E. cbn [bind].
    eexists. split; [reflexivity|]. split; [cbn [app]; now rewrite EB|]. cbn [length]. lia.
Qed.
(** the string put in pr64: the encoding, then the padding characters *)
Lemma enc64_16 l : is_bytes l -> length l = 16%nat ->
  enc64 l 16 = Ret (base64 l ++ [61; 61]) /\ length (base64 l) = 22%nat.
Proof.
  intros B L. unfold enc64. change (Z.to_nat (16 / 3)) with 5%nat. change (16 mod 3) with 1.
  destruct (groups_ok 5 l B ltac:(lia)) as (out & E & EB & LO). rewrite E. cbn [bind].
  change (3 * 5)%nat with 15%nat in *. rewrite EB.
  assert (exists x, skipn 15 l = [x]) as [x EX].
  { assert (length (skipn 15 l) = 1%nat) as E1 by (rewrite skipn_length; lia).
    destruct (skipn 15 l) as [|x [|]]; cbn in E1; try discriminate. eauto. }
  assert (BX : 0 <= x < 256).
  { apply (is_bytes_skipn 15) in B. rewrite EX in B. now inversion_clear B. }
  rewrite EX. rewrite land63, !Z.shiftr_div_pow2, Z.shiftl_mul_pow2 by lia.
  change (2 ^ 18) with 262144. change (2 ^ 12) with 4096. change (2 ^ 16) with 65536.
  rewrite !sub_t64e by lia. cbn [bind base64 app]. split.
  - now rewrite <- app_assoc.
  - rewrite app_length, LO. reflexivity.
Qed.

Lemma digit_nonzero v : 0 <= v < 64 -> digit v <> 0.
Proof.
  intros Hv E. unfold digit in E.
  assert (In (nth (Z.to_nat v) alphabet 0) alphabet) as X by (apply nth_In; change (length alphabet) with 64%nat; lia).
  rewrite E in X. cbn in X. lia.
Qed.
Lemma base64_nonzero : forall n l, (length l <= n)%nat -> is_bytes l -> Forall (fun c => c <> 0) (base64 l).
Proof.
  induction n as [|n IH]; intros l L B; [destruct l; [constructor|cbn in L; lia]|].
  destruct l as [|x [|y [|z l]]]; cbn [base64].
  - constructor.
  - inversion_clear B. repeat constructor; apply digit_nonzero; lia.
  - inversion_clear B as [|? ? Bx B1]. inversion_clear B1. repeat constructor; apply digit_nonzero; lia.
  - inversion_clear B as [|? ? Bx B1]. inversion_clear B1 as [|? ? By B2]. inversion_clear B2 as [|? ? Bz B3].
    repeat (constructor; [apply digit_nonzero; lia|]). apply IH; [cbn in L; lia|assumption].
Qed.
Lemma cstring_at l r : Forall (fun c => c <> 0) l -> cstring (l ++ 0 :: r) = l.
Proof.
  induction 1 as [|c l Hc _ IH]; [reflexivity|]. cbn [app cstring].
  destruct (Z.eqb_spec c 0); [contradiction|]. now f_equal.
Qed.

Lemma MD5_bytes str : is_bytes (MD5 str) /\ length (MD5 str) = 16%nat.
Proof.
  unfold MD5. destruct (process _ _ _) as [[[a b] c] d]. split.
  - unfold is_bytes. repeat (apply Forall_app; split); apply le_bytes_bytes.
  - reflexivity.
Qed.

Lemma md5sum_ok str : is_bytes str -> zlen str < 2147483648 -> md5sum str = Ret (base64 (MD5 str)).
Proof.
  intros B L. unfold md5sum. pose proof (zlen_nonneg str) as N0.
  assert (to_int (zlen str) = zlen str) as ->.
  { unfold to_int. rewrite Z.mod_small; unfold two32; lia. }
  destruct (loop_ok str B L (S (S (Z.to_nat (zlen str)))) 0%nat (repeat 0 (Z.to_nat (256 * 64))) None) as
    (k & rest & s & E & A & Hk & BR & LR & C).
  - apply Forall_forall. intros z Hz. apply repeat_spec in Hz. lia.
  - rewrite zlen_repeat, Z2Nat.id by lia. reflexivity.
  - lia.
  - split; [reflexivity|]. rewrite firstn_O. reflexivity.
  - unfold zlen. lia.
  - change (64 * Z.of_nat 0) with 0 in E. rewrite E. cbn [bind].
    destruct (digest_ok str k s rest B L A Hk BR LR C) as [m ED]. rewrite ED. cbn [bind].
    destruct (MD5_bytes str) as [BM LM]. destruct (enc64_16 (MD5 str) BM LM) as [E64 L64]. rewrite E64. cbn [bind].
    replace ((base64 (MD5 str) ++ [61; 61]) ++ [0]) with (base64 (MD5 str) ++ [61] ++ [61; 0])
      by (rewrite <- app_assoc; reflexivity).
    rewrite putn_at by (unfold zlen; rewrite ?L64; reflexivity). cbn [bind app].
    rewrite cstring_at; [reflexivity|]. eapply base64_nonzero; [apply Nat.le_refl|assumption].
Qed.

(** the encoding determines the bytes *)
Lemma digit_inj v w : 0 <= v < 64 -> 0 <= w < 64 -> digit v = digit w -> v = w.
Proof.
  intros Hv Hw E. unfold digit in E.
  assert (NoDup alphabet) as ND.
  { apply NoDup_count_occ' with (decA := Z.eq_dec). intros c Hc.
    cbn [In alphabet] in Hc. repeat (destruct Hc as [<-|Hc]; [vm_compute; reflexivity|]). destruct Hc. }
  assert (Z.to_nat v = Z.to_nat w); [|lia].
  eapply (proj1 (NoDup_nth alphabet 0) ND); [change (length alphabet) with 64%nat; lia..|exact E].
Qed.
Lemma base64_inj : forall n l1 l2, (length l1 <= n)%nat -> is_bytes l1 -> is_bytes l2 -> base64 l1 = base64 l2 -> l1 = l2.
Proof.
  induction n as [|n IH]; intros l1 l2 L B1 B2 E.
  { destruct l1; [|cbn in L; lia]. destruct l2 as [|x [|y [|z l]]]; [reflexivity|discriminate..]. }
  destruct l1 as [|x [|y [|z l]]], l2 as [|x2 [|y2 [|z2 l2]]]; cbn [base64] in E; try discriminate E; try reflexivity;
    repeat match goal with H : is_bytes (_ :: _) |- _ => inversion_clear H | H : Forall _ (_ :: _) |- _ => inversion_clear H end;
    repeat match goal with
    | H : digit ?a :: _ = digit ?b :: _ |- _ =>
        let A := fresh "D" in assert (A : a = b) by (apply digit_inj; [lia|lia|congruence]);
        let T := fresh "T" in pose proof (f_equal (@tl Z) H) as T; cbn [tl] in T; clear H
    | H : [] = _ :: _ |- _ => discriminate H
    | H : _ :: _ = [] |- _ => discriminate H
    end.
  - f_equal. lia.
  - f_equal; [lia|]. f_equal. lia.
  - assert (x = x2) by lia. assert (y = y2) by lia. assert (z = z2) by lia. subst. do 3 f_equal.
    apply IH; [cbn in L; lia|assumption..].
Qed.
