(** Proofs about buffered output. *)
From Verif Require Import Base ArrayLib Mem Io_Model Io_Spec.

(** ** The file after a write *)
Lemma zget_write_at f p l k : 0 <= p -> 0 < zlen l ->
  zget (write_at f p l) k =
    if (p <=? k) && (k <? p + zlen l) then zget l (k - p)
    else if k <? zlen f then zget f k
    else if (0 <=? k) && (k <? p) then Some 0 else None.
Proof.
  intros Hp Hl. unfold write_at. destruct l as [|x l]; [cbn in Hl; lia|]. set (w := x :: l) in *. clearbody w.
  pose proof (zlen_nonneg f) as Nf.
  set (g := f ++ repeat 0 (Z.to_nat (p - zlen f))).
  assert (Lg : p <= zlen g) by (subst g; rewrite zlen_app, zlen_repeat; lia).
  rewrite !zget_app, zlen_firstn, zget_firstn by lia.
  replace (Z.to_nat p + length w)%nat with (Z.to_nat (p + zlen w)) by (unfold zlen; lia).
  destruct (Z.ltb_spec k p).
  - destruct (Z.leb_spec p k); [lia|]. cbn [andb]. subst g. rewrite zget_app.
    destruct (Z.ltb_spec k (zlen f)); [reflexivity|]. rewrite zget_repeat.
    destruct (Z.leb_spec 0 k); [|lia]. destruct (Z.leb_spec 0 (k - zlen f)); [|lia].
    destruct (Z.ltb_spec (k - zlen f) (Z.of_nat (Z.to_nat (p - zlen f)))); [reflexivity|lia].
  - destruct (Z.leb_spec p k); [|lia]. cbn [andb]. rewrite (proj2 (Z.leb_le 0 k)) by lia. cbn [andb].
    destruct (Z.ltb_spec (k - p) (zlen w)), (Z.ltb_spec k (p + zlen w)); try lia; [reflexivity|].
    rewrite zget_skipn by lia. destruct (Z.ltb_spec (k - p - zlen w) 0); [lia|].
    replace (p + zlen w + (k - p - zlen w)) with k by lia.
    destruct (Z.ltb_spec k (zlen f)); [reflexivity|]. apply zget_none. lia.
Qed.
Lemma write_at_nil f p : write_at f p [] = f.
Proof. reflexivity. Qed.
Lemma zlen_0 {A} (l : list A) : zlen l = 0 -> l = [].
Proof. destruct l; [reflexivity|]. unfold zlen. cbn. lia. Qed.

Lemma zlen_write_at f p l : 0 <= p -> 0 < zlen l -> zlen (write_at f p l) = Z.max (zlen f) (p + zlen l).
Proof.
  intros Hp Hl. unfold write_at. destruct l as [|x l]; [cbn in Hl; lia|]. set (w := x :: l) in *. clearbody w.
  pose proof (zlen_nonneg f) as Nf. rewrite !zlen_app, zlen_firstn by (rewrite zlen_app, zlen_repeat; lia).
  unfold zlen at 2. rewrite skipn_length. unfold zlen in *. lia.
Qed.

(** writing at [i] relative to the bytes [a] just written at [p]: same as writing [a] with [b] put in *)
Lemma write_at_over f p a b i c : 0 <= p -> 0 <= i <= zlen a ->
  zlen c = Z.max (zlen a) (i + zlen b) ->
  (forall k, zget c k = if (i <=? k) && (k <? i + zlen b) then zget b (k - i) else zget a k) ->
  write_at (write_at f p a) (p + i) b = write_at f p c.
Proof.
  intros Hp Hi Lc Hc. pose proof (zlen_nonneg a) as Na. pose proof (zlen_nonneg b) as Nb. pose proof (zlen_nonneg f) as Nf.
  destruct (Z.eq_dec (zlen b) 0) as [Eb|Eb].
  { apply zlen_0 in Eb. subst b. rewrite write_at_nil. f_equal. apply list_ext. intros k. rewrite Hc.
    change (zlen (@nil Z)) with 0. destruct (Z.leb_spec i k), (Z.ltb_spec k (i + 0)); try lia; reflexivity. }
  destruct (Z.eq_dec (zlen a) 0) as [Ea|Ea].
  { apply zlen_0 in Ea. subst a. rewrite write_at_nil. change (zlen (@nil Z)) with 0 in *.
    assert (i = 0) as -> by lia. rewrite Z.add_0_r. f_equal. apply list_ext. intros k. rewrite Hc.
    rewrite Z.sub_0_r. destruct (Z.leb_spec 0 k), (Z.ltb_spec k (0 + zlen b)); cbn [andb]; try reflexivity;
    rewrite !zget_none; auto; change (zlen (@nil Z)) with 0; lia. }
  apply list_ext. intros k. rewrite zget_write_at by lia. rewrite zlen_write_at by lia.
  rewrite !zget_write_at by lia. rewrite Hc.
  destruct (Z.leb_spec (p + i) k), (Z.ltb_spec k (p + i + zlen b)); cbn [andb].
  - destruct (Z.leb_spec p k); [|lia]. destruct (Z.ltb_spec k (p + zlen c)); [|lia]. cbn [andb].
    destruct (Z.leb_spec i (k - p)); [|lia]. destruct (Z.ltb_spec (k - p) (i + zlen b)); [|lia]. cbn [andb]. f_equal. lia.
  - destruct (Z.leb_spec p k); [|lia]. cbn [andb].
    destruct (Z.leb_spec i (k - p)); [|lia]. destruct (Z.ltb_spec (k - p) (i + zlen b)); [lia|]. cbn [andb].
    destruct (Z.ltb_spec k (p + zlen a)), (Z.ltb_spec k (p + zlen c)); try lia.
    + destruct (Z.ltb_spec k (Z.max (zlen f) (p + zlen a))); [reflexivity|lia].
    + destruct (Z.ltb_spec k p); [lia|]. rewrite andb_false_r.
      destruct (Z.ltb_spec k (p + i)); [lia|]. rewrite andb_false_r.
      destruct (Z.ltb_spec k (Z.max (zlen f) (p + zlen a))), (Z.ltb_spec k (zlen f)); try lia; reflexivity.
  - destruct (Z.leb_spec i (k - p)); [lia|]. cbn [andb].
    destruct (Z.leb_spec p k); cbn [andb].
    + destruct (Z.ltb_spec k (p + zlen a)); [|lia]. destruct (Z.ltb_spec k (p + zlen c)); [|lia].
      destruct (Z.ltb_spec k (Z.max (zlen f) (p + zlen a))); [reflexivity|lia].
    + destruct (Z.ltb_spec k (Z.max (zlen f) (p + zlen a))); [|lia].
      destruct (Z.ltb_spec k (zlen f)); reflexivity.
  - lia.
Qed.
Lemma write_at_app f p a b : 0 <= p -> write_at (write_at f p a) (p + zlen a) b = write_at f p (a ++ b).
Proof.
  intros Hp. pose proof (zlen_nonneg a). pose proof (zlen_nonneg b). apply write_at_over; auto; try lia.
  - rewrite zlen_app. lia.
  - intros k. rewrite zget_app. destruct (Z.ltb_spec k (zlen a)), (Z.leb_spec (zlen a) k); try lia; cbn [andb]; [reflexivity|].
    destruct (Z.ltb_spec k (zlen a + zlen b)); [reflexivity|]. rewrite !zget_none by lia. reflexivity.
Qed.

(** ** System calls *)
Section S.
Variable short : Z -> Z -> Z.
Hypothesis SH : forall t n, 0 < n -> 1 <= short t n <= n.

Lemma write_loop_ok : forall fuel l c, (length l <= fuel)%nat -> 0 <= ofd c ->
  exists t, write_loop short fuel l c =
    Ret (OCh (obuf c) (ocur c) (omax c) (ooff c) (ofd c + zlen l) (write_at (ofile c) (ofd c) l) t).
Proof.
  induction fuel as [|fuel IH]; intros l c Hl Hf; destruct l as [|x l]; cbn [write_loop].
  - exists (otick c). change (zlen (@nil Z)) with 0. rewrite Z.add_0_r, write_at_nil. now destruct c.
  - cbn in Hl. lia.
  - exists (otick c). change (zlen (@nil Z)) with 0. rewrite Z.add_0_r, write_at_nil. now destruct c.
  - set (w := x :: l) in *. assert (Lw : 0 < zlen w) by (subst w; unfold zlen; cbn; lia). clearbody w.
    unfold sys_write. set (k := short (otick c) (zlen w)). pose proof (SH (otick c) (zlen w) Lw) as Hk. fold k in Hk. clearbody k.
    edestruct (IH (skipn (Z.to_nat k) w)) as [t E]; [..|exists t; rewrite E]; cbn [obuf ocur omax ooff ofd ofile].
    + rewrite skipn_length. unfold zlen in *. lia.
    + rewrite zlen_firstn by lia. lia.
    + rewrite write_at_app by assumption. rewrite firstn_skipn, zlen_firstn, zlen_skipn by lia.
      replace (ofd c + k + (zlen w - k)) with (ofd c + zlen w) by lia. reflexivity.
Qed.
Lemma really_write_ok l c : zlen l < 2 ^ 31 -> 0 <= ofd c ->
  exists t, really_write short l c =
    Ret (OCh (obuf c) (ocur c) (omax c) (ooff c) (ofd c + zlen l) (write_at (ofile c) (ofd c) l) t).
Proof.
  intros Hl Hf. unfold really_write. pose proof (zlen_nonneg l).
  assert (to_int (zlen l) = zlen l) as -> by (unfold to_int; lia).
  destruct (Z.leb_spec (zlen l) 0).
  - assert (zlen l = 0) as E by lia. apply zlen_0 in E. subst l. exists (otick c).
    change (zlen (@nil Z)) with 0. rewrite Z.add_0_r, write_at_nil. now destruct c.
  - replace (Z.to_nat (zlen l)) with (length l) by (unfold zlen; lia). rewrite firstn_all.
    now apply write_loop_ok.
Qed.

(** ** The invariant: [fs] and [pos] are the unbuffered file and position *)
Record oinv (c : ochan) (fs : list Z) (pos : Z) : Prop := {
  i_len : zlen (obuf c) = IO_BUFFER_SIZE;
  i_cur : 0 <= ocur c <= omax c;
  i_max : omax c <= IO_BUFFER_SIZE;
  i_off : 0 <= ooff c;
  i_fd : ofd c = ooff c;
  i_pos : pos = ooff c + ocur c;
  i_file : fs = write_at (ofile c) (ooff c) (firstn (Z.to_nat (omax c)) (obuf c)) }.

Lemma flush_ok c fs pos : oinv c fs pos ->
  exists c', flush short c = Ret c' /\ oinv c' fs (ooff c + omax c) /\ ocur c' = 0 /\ omax c' = 0 /\ ofile c' = fs /\
             ooff c' = ooff c + omax c.
Proof.
  intros [L C M OF F P E]. unfold flush. destruct (Z.ltb_spec 0 (omax c)).
  - rewrite getn_ok by lia. cbn [bind]. change (Z.to_nat 0) with O. rewrite skipn_O.
    set (l := firstn (Z.to_nat (omax c)) (obuf c)) in *.
    assert (Ll : zlen l = omax c) by (subst l; rewrite zlen_firstn; lia).
    destruct (really_write_ok l c) as [t W]; [unfold IO_BUFFER_SIZE in *; lia|lia|]. rewrite W. cbn [bind].
    eexists. split; [reflexivity|].
    split; [|split; [|split; [|split]]]; try reflexivity; cbn [add_off set_buf obuf ocur omax ooff ofd ofile otick].
    + constructor; cbn [add_off set_buf obuf ocur omax ooff ofd ofile otick]; try lia; auto.
      change (Z.to_nat 0) with O. rewrite firstn_O, write_at_nil, F. exact E.
    + rewrite F. now symmetry.
  - assert (omax c = 0) as M0 by lia. exists c. split; [reflexivity|]. rewrite M0 in *.
    change (Z.to_nat 0) with O in E. rewrite firstn_O, write_at_nil in E.
    split; [|split; [|split; [|split]]]; try lia; auto. constructor; auto; try lia.
    rewrite M0. change (Z.to_nat 0) with O. rewrite firstn_O, write_at_nil. exact E.
Qed.

(** storing bytes at curr, within the buffer *)
Lemma store_ok c fs pos l : oinv c fs pos -> ocur c + zlen l <= IO_BUFFER_SIZE ->
  exists b, putn (obuf c) (ocur c) l = Ret b /\ zlen b = IO_BUFFER_SIZE /\
    oinv (set_buf c b (ocur c + zlen l) (if ocur c + zlen l >? omax c then ocur c + zlen l else omax c))
         (write_at fs pos l) (pos + zlen l).
Proof.
  intros [L C M OF F P E] Hl. pose proof (zlen_nonneg l) as N.
  destruct (putn_spec (obuf c) (ocur c) l) as (b & Eb & Lb & G); [lia|lia|].
  exists b. split; [assumption|]. split; [lia|].
  set (mx := if ocur c + zlen l >? omax c then ocur c + zlen l else omax c).
  assert (Hmx : mx = Z.max (omax c) (ocur c + zlen l)) by (subst mx; destruct (Z.gtb_spec (ocur c + zlen l) (omax c)); lia).
  constructor; cbn [set_buf obuf ocur omax ooff ofd ofile otick]; try lia.
  subst pos. rewrite E. apply write_at_over; try lia.
  - rewrite zlen_firstn by lia. lia.
  - rewrite !zlen_firstn by lia. lia.
  - intros k. rewrite !zget_firstn, G. destruct (Z.leb_spec (ocur c) k), (Z.ltb_spec k (ocur c + zlen l)); cbn [andb].
    + destruct (Z.ltb_spec k mx); [reflexivity|lia].
    + destruct (Z.ltb_spec k mx), (Z.ltb_spec k (omax c)); try lia; reflexivity.
    + destruct (Z.ltb_spec k mx), (Z.ltb_spec k (omax c)); try lia; reflexivity.
    + lia.
Qed.

Lemma putch_ok c fs pos ch : oinv c fs pos ->
  exists c', putch short ch c = Ret c' /\ oinv c' (write_at fs pos [ch mod 256]) (pos + 1) /\
    (ocur c = omax c -> ocur c' = omax c').
Proof.
  intros V. unfold putch. rewrite Z.geb_leb.
  assert (exists c1, (if IO_BUFFER_SIZE <=? ocur c then flush short c else Ret c) = Ret c1 /\ oinv c1 fs pos /\
            ocur c1 < IO_BUFFER_SIZE /\ (ocur c = omax c -> ocur c1 = omax c1)) as (c1 & E1 & V1 & H1 & Q1).
  { destruct (Z.leb_spec IO_BUFFER_SIZE (ocur c)).
    - destruct (flush_ok c fs pos V) as (c' & E & V' & C' & M' & _ & O'). exists c'. split; [assumption|].
      assert (ooff c + omax c = pos) as Ep by (destruct V; lia). rewrite Ep in V'.
      split; [assumption|]. unfold IO_BUFFER_SIZE. lia.
    - exists c. repeat split; auto; apply V. }
  rewrite E1. cbn [bind]. destruct (store_ok c1 fs pos [ch mod 256] V1) as (b & Eb & Lb & V').
  { change (zlen [ch mod 256]) with 1. lia. }
  rewrite Eb. cbn [bind]. change (zlen [ch mod 256]) with 1 in V'.
  eexists. split; [reflexivity|]. split; [assumption|].
  intros Q. specialize (Q1 Q). cbn [set_buf ocur omax]. destruct (Z.gtb_spec (ocur c1 + 1) (omax c1)); lia.
Qed.

Lemma zlen_1 {A} (x : A) : zlen [x] = 1.
Proof. reflexivity. Qed.
Lemma pos_nonneg c fs pos : oinv c fs pos -> 0 <= pos.
Proof. intros []. lia. Qed.
Lemma write_at_4 f p a b d e : 0 <= p ->
  write_at (write_at (write_at (write_at f p [a]) (p + 1) [b]) (p + 1 + 1) [d]) (p + 1 + 1 + 1) [e] = write_at f p [a; b; d; e].
Proof.
  intros Hp. change [a; b; d; e] with ([a; b; d] ++ [e]). rewrite <- write_at_app by lia.
  change [a; b; d] with ([a; b] ++ [d]). rewrite <- write_at_app by lia.
  change [a; b] with ([a] ++ [b]). rewrite <- write_at_app by lia.
  change (zlen (([a] ++ [b]) ++ [d])) with 3. change (zlen ([a] ++ [b])) with 2. change (zlen [a]) with 1.
  replace (p + 1 + 1 + 1) with (p + 3) by lia. replace (p + 1 + 1) with (p + 2) by lia. reflexivity.
Qed.
Lemma putword_ok c fs pos w : oinv c fs pos ->
  exists c', output_int short w c = Ret c' /\ oinv c' (write_at fs pos (be32 w)) (pos + 4) /\
    (ocur c = omax c -> ocur c' = omax c').
Proof.
  intros V. pose proof (pos_nonneg _ _ _ V) as P0. unfold output_int, putword. set (u := to_unsigned w).
  destruct (putch_ok c fs pos (Z.shiftr u 24) V) as (c1 & E1 & V1 & Q1). rewrite E1. cbn [bind].
  destruct (putch_ok _ _ _ (Z.shiftr u 16) V1) as (c2 & E2 & V2 & Q2). rewrite E2. cbn [bind].
  destruct (putch_ok _ _ _ (Z.shiftr u 8) V2) as (c3 & E3 & V3 & Q3). rewrite E3. cbn [bind].
  destruct (putch_ok _ _ _ u V3) as (c4 & E4 & V4 & Q4). rewrite E4. exists c4. split; [reflexivity|]. split; [|auto].
  replace (pos + 4) with (pos + 1 + 1 + 1 + 1) by lia.
  replace (write_at fs pos (be32 w)) with
    (write_at (write_at (write_at (write_at fs pos [Z.shiftr u 24 mod 256]) (pos + 1) [Z.shiftr u 16 mod 256])
       (pos + 1 + 1) [Z.shiftr u 8 mod 256]) (pos + 1 + 1 + 1) [u mod 256]); [exact V4|].
  rewrite write_at_4 by lia. f_equal. unfold be32.
  rewrite !Z.shiftr_div_pow2 by lia. change (2 ^ 24) with 16777216. change (2 ^ 16) with 65536. change (2 ^ 8) with 256.
  subst u. unfold to_unsigned.
  assert ((w mod 4294967296) / 16777216 mod 256 = w / 16777216 mod 256) as -> by lia.
  assert ((w mod 4294967296) / 65536 mod 256 = w / 65536 mod 256) as -> by lia.
  assert ((w mod 4294967296) / 256 mod 256 = w / 256 mod 256) as -> by lia.
  assert ((w mod 4294967296) mod 256 = w mod 256) as -> by lia. reflexivity.
Qed.

(** a block; [H]: the direct write happens only with an empty buffer *)
Lemma output_ok c fs pos s : oinv c fs pos -> zlen s < 2 ^ 31 ->
  (ocur c = omax c \/ zlen s < IO_BUFFER_SIZE) ->
  exists c', output short s c = Ret c' /\ oinv c' (write_at fs pos s) (pos + zlen s) /\
    (ocur c = omax c -> ocur c' = omax c').
Proof.
  intros V Ls Hs. pose proof (zlen_nonneg s) as Ns. pose proof V as [L C M OF F P E]. unfold output, putblock.
  assert (to_unsigned (zlen s) = zlen s) as -> by (unfold to_unsigned; lia).
  rewrite Z.geb_leb.
  destruct (Z.eqb_spec (ocur c) 0); [destruct (Z.leb_spec (IO_BUFFER_SIZE - ocur c) (zlen s)); cbn [andb]|cbn [andb]].
  - (* direct *)
    rewrite getn_ok by lia. cbn [bind]. change (Z.to_nat 0) with O. rewrite skipn_O.
    replace (Z.to_nat (zlen s)) with (length s) by (unfold zlen; lia). rewrite firstn_all.
    destruct (really_write_ok s c) as [t W]; [lia|lia|]. rewrite W. cbn [bind].
    eexists. split; [reflexivity|]. assert (M0 : omax c = 0) by lia.
    split; [|cbn [add_off ocur omax]; lia].
    constructor; cbn [add_off obuf ocur omax ooff ofd ofile otick]; try lia.
    rewrite M0 in *. change (Z.to_nat 0) with O in *. rewrite firstn_O, write_at_nil in *. rewrite F, E. f_equal. lia.
  - (* into the buffer *)
    destruct (Z.leb_spec (zlen s) (IO_BUFFER_SIZE - ocur c)); [|lia].
    rewrite getn_ok by lia. cbn [bind]. change (Z.to_nat 0) with O. rewrite skipn_O.
    replace (Z.to_nat (zlen s)) with (length s) by (unfold zlen; lia). rewrite firstn_all.
    destruct (store_ok c fs pos s V) as (b & Eb & Lb & V'); [lia|]. rewrite Eb. cbn [bind].
    eexists. split; [reflexivity|]. split; [exact V'|]. cbn [set_buf ocur omax].
    destruct (Z.gtb_spec (ocur c + zlen s) (omax c)); lia.
  - destruct (Z.leb_spec (zlen s) (IO_BUFFER_SIZE - ocur c)).
    + rewrite getn_ok by lia. cbn [bind]. change (Z.to_nat 0) with O. rewrite skipn_O.
      replace (Z.to_nat (zlen s)) with (length s) by (unfold zlen; lia). rewrite firstn_all.
      destruct (store_ok c fs pos s V) as (b & Eb & Lb & V'); [lia|]. rewrite Eb. cbn [bind].
      eexists. split; [reflexivity|]. split; [exact V'|]. cbn [set_buf ocur omax].
      destruct (Z.gtb_spec (ocur c + zlen s) (omax c)); lia.
    + (* fill the buffer, write it, go on with the rest *)
      set (m := IO_BUFFER_SIZE - ocur c) in *.
      rewrite getn_ok by lia. cbn [bind]. change (Z.to_nat 0) with O. rewrite skipn_O.
      set (s1 := firstn (Z.to_nat m) s). set (s2 := skipn (Z.to_nat m) s).
      assert (L1 : zlen s1 = m) by (subst s1; rewrite zlen_firstn; lia).
      assert (L2 : zlen s2 = zlen s - m) by (subst s2; rewrite zlen_skipn; lia).
      assert (ES : s = s1 ++ s2) by (symmetry; apply firstn_skipn).
      destruct (store_ok c fs pos s1 V) as (b & Eb & Lb & V1); [lia|]. rewrite Eb. cbn [bind].
      cbn [set_buf obuf ocur omax]. rewrite getn_ok by (unfold IO_BUFFER_SIZE in *; lia).
      change (Z.to_nat 0) with O. rewrite skipn_O.
      replace (Z.to_nat IO_BUFFER_SIZE) with (length b) by (unfold zlen in Lb; lia). rewrite firstn_all. cbn [bind].
      destruct V1 as [_ _ _ _ _ _ E1]. cbn [set_buf obuf ocur omax ooff ofd ofile otick] in E1.
      replace (ocur c + zlen s1) with IO_BUFFER_SIZE in E1 by lia.
      replace (if IO_BUFFER_SIZE >? omax c then IO_BUFFER_SIZE else omax c) with IO_BUFFER_SIZE in E1
        by (destruct (Z.gtb_spec IO_BUFFER_SIZE (omax c)); lia).
      replace (Z.to_nat IO_BUFFER_SIZE) with (length b) in E1 by (unfold zlen in Lb; lia). rewrite firstn_all in E1.
      destruct (really_write_ok b (set_buf c b (ocur c) (omax c))) as [t W];
        [unfold IO_BUFFER_SIZE in *; lia|cbn; lia|].
      rewrite W. cbn [bind set_buf add_off obuf ocur omax ooff ofd ofile otick].
      rewrite F, <- E1. assert (WA : write_at (write_at fs pos s1) (pos + m) s2 = write_at fs pos s).
      { rewrite <- L1, write_at_app by (unfold IO_BUFFER_SIZE in *; lia). now rewrite <- ES. }
      assert (PM : ooff c + IO_BUFFER_SIZE = pos + m) by lia.
      destruct (Z.leb_spec (zlen s - m) IO_BUFFER_SIZE).
      * rewrite getn_ok by lia. cbn [bind]. change (Z.to_nat 0) with O. rewrite skipn_O.
        replace (Z.to_nat (zlen s - m)) with (length s2) by (unfold zlen in *; lia). rewrite firstn_all.
        destruct (putn_spec b 0 s2) as (b2 & Eb2 & Lb2 & G2); [lia|lia|]. rewrite Eb2. cbn [bind].
        eexists. split; [reflexivity|]. split; [|cbn [set_buf ocur omax]; lia].
        constructor; cbn [set_buf add_off obuf ocur omax ooff ofd ofile otick]; try lia.
        rewrite PM, <- WA. f_equal. apply list_ext. intros k. rewrite zget_firstn, G2.
        destruct (Z.leb_spec 0 k), (Z.ltb_spec k (0 + zlen s2)), (Z.ltb_spec k (zlen s - m)); cbn [andb]; try lia.
        -- f_equal. lia.
        -- rewrite !zget_none by lia. reflexivity.
        -- rewrite !zget_none by lia. reflexivity.
      * rewrite getn_ok by lia. cbn [bind]. change (Z.to_nat 0) with O. rewrite skipn_O.
        replace (Z.to_nat (zlen s - m)) with (length s2) by (unfold zlen in *; lia). rewrite firstn_all.
        destruct (really_write_ok s2 (OCh b (ocur c) (omax c) (ooff c + IO_BUFFER_SIZE) (ooff c + zlen b)
                     (write_at fs pos s1) t)) as [t2 W2]; [lia|cbn; unfold IO_BUFFER_SIZE in *; lia|].
        unfold add_off at 1. cbn [obuf ocur omax ooff ofd ofile otick].
        rewrite W2. cbn [bind set_buf add_off obuf ocur omax ooff ofd ofile otick].
        eexists. split; [reflexivity|]. split; [|cbn [set_buf ocur omax]; lia].
        constructor; cbn [set_buf add_off obuf ocur omax ooff ofd ofile otick]; try lia; try (unfold IO_BUFFER_SIZE in *; lia).
        change (Z.to_nat 0) with O. rewrite firstn_O, write_at_nil, Lb, PM. now symmetry.
Qed.

Lemma seek_ok c fs pos d : oinv c fs pos -> 0 <= d ->
  exists c', seek_out short d c = Ret c' /\ oinv c' fs d /\ (omax c = 0 -> omax c' = 0).
Proof.
  intros V Hd. pose proof V as [L C M OF F P E]. unfold seek_out. rewrite Z.geb_leb.
  destruct (Z.leb_spec (ooff c) d), (Z.leb_spec d (ooff c + omax c)); cbn [andb].
  - eexists. split; [reflexivity|]. split; [|cbn [set_buf omax]; auto].
    constructor; cbn [set_buf obuf ocur omax ooff ofd ofile otick]; try lia. exact E.
  - destruct (flush_ok c fs pos V) as (c' & E' & V' & C' & M' & F' & O'). rewrite E'. cbn [bind].
    destruct (Z.ltb_spec d 0); [lia|]. eexists. split; [reflexivity|]. split; [|auto].
    destruct V'. constructor; cbn [obuf ocur omax ooff ofd ofile otick]; try lia; try assumption.
    rewrite M'. change (Z.to_nat 0) with O. rewrite firstn_O, write_at_nil. now symmetry.
  - destruct (flush_ok c fs pos V) as (c' & E' & V' & C' & M' & F' & O'). rewrite E'. cbn [bind].
    destruct (Z.ltb_spec d 0); [lia|]. eexists. split; [reflexivity|]. split; [|auto].
    destruct V'. constructor; cbn [obuf ocur omax ooff ofd ofile otick]; try lia; try assumption.
    rewrite M'. change (Z.to_nat 0) with O. rewrite firstn_O, write_at_nil. now symmetry.
  - lia.
Qed.

(** ** Histories *)
(** an operation that the code performs correctly in channel [c]: no flush and no direct write while
    curr is before max *)
Definition safe (c : ochan) (o : oop) : Prop :=
  match o with
  | OFlush => ocur c = omax c
  | OBlock s => ocur c = omax c \/ zlen s < IO_BUFFER_SIZE
  | _ => True
  end.
Fixpoint safe_run (l : list oop) (c : ochan) : Prop :=
  match l with
  | [] => True
  | o :: l => safe c o /\ forall c', ostep short o c = Ret c' -> safe_run l c'
  end.

Lemma step_ok c fs pos o : oinv c fs pos -> op_ok o -> safe c o ->
  exists c', ostep short o c = Ret c' /\ oinv c' (fst (unbuffered o (fs, pos))) (snd (unbuffered o (fs, pos))).
Proof.
  intros V K S. destruct o as [ch|w|s| |d]; cbn [op_ok safe ostep unbuffered fst snd] in *.
  - destruct (putch_ok c fs pos ch V) as (c' & E & V' & _). eauto.
  - destruct (putword_ok c fs pos w V) as (c' & E & V' & _). eauto.
  - destruct (output_ok c fs pos s V K S) as (c' & E & V' & _). eauto.
  - destruct (flush_ok c fs pos V) as (c' & E & V' & _). exists c'. split; [assumption|].
    replace pos with (ooff c + omax c); [assumption|]. destruct V; lia.
  - destruct (seek_ok c fs pos d V K) as (c' & E & V' & _). eauto.
Qed.
Lemma run_ok : forall l c fs pos, oinv c fs pos -> Forall op_ok l -> safe_run l c ->
  exists c', orun short l c = Ret c' /\
    oinv c' (fst (unbuffered_run l (fs, pos))) (snd (unbuffered_run l (fs, pos))).
Proof.
  induction l as [|o l IH]; intros c fs pos V K S; cbn [orun safe_run unbuffered_run fold_left] in *.
  - exists c. split; [reflexivity|exact V].
  - destruct S as [S1 S2]. inversion_clear K as [|? ? K1 K2].
    destruct (step_ok c fs pos o V K1 S1) as (c' & E & V'). rewrite E. cbn [bind].
    destruct (unbuffered o (fs, pos)) as [fs' pos']. cbn [fst snd] in V'. fold (unbuffered_run l (fs', pos')).
    apply IH; auto.
Qed.

(** with every seek right after a flush, curr is always max *)
Lemma flushed_safe : forall l q c fs pos, oinv c fs pos -> Forall op_ok l -> flushed_seeks q l ->
  ocur c = omax c -> (q = true -> omax c = 0) -> safe_run l c.
Proof.
  induction l as [|o l IH]; intros q c fs pos V K T Q Z0; cbn [safe_run]; [exact Logic.I|].
  inversion_clear K as [|? ? K1 K2]. split.
  - destruct o; cbn [safe]; auto.
  - intros c' E. destruct o as [ch|w|s| |d]; cbn [op_ok ostep flushed_seeks] in *.
    + destruct (putch_ok c fs pos ch V) as (c1 & E1 & V1 & Q1). assert (c1 = c') as -> by congruence.
      eapply IH; eauto. discriminate.
    + destruct (putword_ok c fs pos w V) as (c1 & E1 & V1 & Q1). assert (c1 = c') as -> by congruence.
      eapply IH; eauto. discriminate.
    + destruct (output_ok c fs pos s V K1 (or_introl Q)) as (c1 & E1 & V1 & Q1). assert (c1 = c') as -> by congruence.
      eapply IH; eauto. discriminate.
    + destruct (flush_ok c fs pos V) as (c1 & E1 & V1 & C1 & M1 & _). assert (c1 = c') as -> by congruence.
      eapply IH; eauto. lia.
    + destruct T as [Tq T]. specialize (Z0 Tq). destruct (seek_ok c fs pos d V K1) as (c1 & E1 & V1 & M1).
      assert (c1 = c') as -> by congruence. specialize (M1 Z0). eapply IH; eauto.
      destruct V1. lia.
Qed.
Lemma open_inv b f : zlen b = IO_BUFFER_SIZE -> oinv (open_out b f) f 0.
Proof.
  intros L. constructor; cbn [open_out obuf ocur omax ooff ofd ofile otick]; try lia.
  - unfold IO_BUFFER_SIZE. lia.
  - reflexivity.
Qed.
End S.
