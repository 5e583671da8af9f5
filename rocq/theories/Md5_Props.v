(** C21: the primitive md5sum computes the unpadded base 64 encoding of the MD5 digest.  The
    specification (Md5_Spec) follows RFC 1321 and RFC 4648. *)
From Coq Require Import Reals.
From Verif Require Import Base ArrayLib Md5_Model Md5_Spec Md5_Proofs Md5_Proofs2 Md5_Table.
Open Scope Z_scope.

(** for every byte string below 2^31 bytes, whatever the chunks it is processed in *)
Theorem C21_md5sum : forall str : list Z, is_bytes str -> zlen str < 2 ^ 31 ->
  md5sum str = Ret (base64 (MD5 str)).
Proof. intros str B L. now apply md5sum_ok. Qed.

(** the encoding is injective *)
Theorem C21_encoding_injective : forall d1 d2 : list Z, is_bytes d1 -> is_bytes d2 ->
  base64 d1 = base64 d2 -> d1 = d2.
Proof. intros d1 d2 B1 B2 E. eapply base64_inj; [apply Nat.le_refl|assumption..]. Qed.

(** two strings have the same fingerprint exactly when their digests are the same *)
Theorem C21_fingerprint : forall s1 s2 : list Z, is_bytes s1 -> is_bytes s2 -> zlen s1 < 2 ^ 31 -> zlen s2 < 2 ^ 31 ->
  (md5sum s1 = md5sum s2 <-> MD5 s1 = MD5 s2).
Proof.
  intros s1 s2 B1 B2 L1 L2. rewrite !C21_md5sum by assumption. split.
  - intros E. assert (E' : base64 (MD5 s1) = base64 (MD5 s2)) by congruence.
    eapply C21_encoding_injective; [apply MD5_bytes..|exact E'].
  - now intros ->.
Qed.

(** the constants in the code's table are the integer parts of 2^32 |sin i| *)
Theorem C21_table : forall i, 0 <= i < 64 ->
  exists x rot, zget tab i = Some (Int_part (4294967296 * Rabs (sin (IZR (i + 1)))), x, rot).
Proof.
  intros i Hi. rewrite <- (T_sin (i + 1)) by lia.
  assert (C : forallb (fun n => match zget tab (Z.of_nat n) with
                                | Some (t, _, _) => t =? T (Z.of_nat n + 1) | None => false end) (seq 0 64) = true)
    by (vm_compute; reflexivity).
  rewrite forallb_forall in C. specialize (C (Z.to_nat i)). rewrite Z2Nat.id in C by lia.
  specialize (C ltac:(apply in_seq; lia)).
  destruct (zget tab i) as [[[t x] rot]|]; [|discriminate]. exists x, rot. apply Z.eqb_eq in C. now rewrite C.
Qed.

(** without the bound on the length the claim is false: string_length's result is kept in an int, and a
    negative count is handed to memcpy *)
Lemma huge str : 2 ^ 31 <= zlen str < 2 ^ 32 -> md5sum str = UB.
Proof.
  intros H. unfold md5sum.
  assert (to_int (zlen str) < 0) as N by (unfold to_int, two32; lia). set (n := to_int (zlen str)) in *. clearbody n.
  replace (Z.to_nat n) with O by lia. cbn [md5sum_loop].
  unfold getn. destruct (Z.ltb_spec (n - 0) 8192); [|lia]. destruct (Z.leb_spec 0 (n - 0)); [lia|]. reflexivity.
Qed.
Theorem C21_huge_refuted : exists str, is_bytes str /\ 2 ^ 31 <= zlen str < 2 ^ 32 /\ md5sum str = UB.
Proof.
  assert (exists n, Z.of_nat n = 2 ^ 31) as [n Hn] by (exists (Z.to_nat (2 ^ 31)); apply Z2Nat.id; lia).
  assert (L : 2 ^ 31 <= zlen (repeat 0 n) < 2 ^ 32) by (rewrite zlen_repeat; lia).
  exists (repeat 0 n). split; [|split; [exact L|apply huge; exact L]].
  apply Forall_forall. intros z Hz. apply repeat_spec in Hz. lia.
Qed.

(** a string of 70 bytes *)
Example C21_ex : let s := repeat 97 70 in
  (is_bytes s /\ zlen s < 2 ^ 31) /\ md5sum s = Ret (base64 (MD5 s)) /\ md5sum (98 :: s) <> md5sum s.
Proof.
  cbv zeta. split; [split|split].
  - apply Forall_forall. intros z Hz. apply repeat_spec in Hz. lia.
  - vm_compute. reflexivity.
  - vm_compute. reflexivity.
  - vm_compute. discriminate.
Qed.
(** "abc": kAFQmDzST7DWlj99KOF/cg *)
Example C21_abc : md5sum [97;98;99] =
  Ret [107;65;70;81;109;68;122;83;84;55;68;87;108;106;57;57;75;79;70;47;99;103].
Proof. vm_compute. reflexivity. Qed.
Example C21_table_ex : (0 <= 63 < 64) /\ zget tab 63 = Some (0xeb86d391, 9, 21).
Proof. split; [lia|reflexivity]. Qed.

Print Assumptions C21_md5sum.
Print Assumptions C21_encoding_injective.
Print Assumptions C21_fingerprint.
Print Assumptions C21_table.
Print Assumptions C21_huge_refuted.
