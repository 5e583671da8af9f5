(** Proofs about buffered input. *)
From Verif Require Import Base ArrayLib Mem Io_Model Io_Spec.

(** [l] is what [f] holds from [p] on *)
Definition at_ (f : list Z) (p : Z) (l : list Z) : Prop := forall k, 0 <= k < zlen l -> zget l k = zget f (p + k).
Lemma at_slice f p l : 0 <= p -> at_ f p l -> l = firstn (length l) (skipn (Z.to_nat p) f).
Proof.
  intros Hp H. apply list_ext. intros k. replace (length l) with (Z.to_nat (zlen l)) by (unfold zlen; lia).
  rewrite zget_firstn. destruct (Z.ltb_spec k (zlen l)).
  - rewrite zget_skipn by lia. destruct (Z.ltb_spec k 0); [now apply zget_none; lia|]. apply H. lia.
  - apply zget_none. lia.
Qed.
Lemma at_app f p a b : at_ f p a -> at_ f (p + zlen a) b -> at_ f p (a ++ b).
Proof.
  intros Ha Hb k Hk. rewrite zlen_app in Hk. rewrite zget_app. destruct (Z.ltb_spec k (zlen a)).
  - apply Ha. lia.
  - rewrite Hb by lia. f_equal. lia.
Qed.
Lemma at_bound f p l : at_ f p l -> 0 < zlen l -> p + zlen l <= zlen f.
Proof.
  intros H L. specialize (H (zlen l - 1) ltac:(lia)).
  destruct (zget_some l (zlen l - 1)) as [x E]; [lia|]. rewrite E in H. symmetry in H. apply zget_range in H. lia.
Qed.

Section S.
Variable f : list Z.
Variable amount : Z -> Z -> Z.
Variable ready : Z -> bool.
Hypothesis AM : forall t n, 0 < n -> 1 <= amount t n <= n.

Lemma sys_read_ok n c : 0 < n -> 0 <= ifd c ->
  exists l t, sys_read f amount n c = (l, ICh (ibuf c) (icur c) (imax c) (ioff c) (ifd c + zlen l) t) /\
    zlen l <= n /\ at_ f (ifd c) l /\ (zlen l = 0 -> zlen f <= ifd c).
Proof.
  intros Hn Hf. unfold sys_read. destruct (Z.leb_spec (Z.min n (zlen f - ifd c)) 0).
  - exists [], (itick c + 1). change (zlen (@nil Z)) with 0. rewrite Z.add_0_r. split; [reflexivity|].
    split; [lia|]. split; [|lia]. intros k Hk. change (zlen (@nil Z)) with 0 in Hk. lia.
  - set (a := Z.min n (zlen f - ifd c)) in *. pose proof (AM (itick c) a ltac:(lia)) as Hk.
    set (k := amount (itick c) a) in *. clearbody k. set (l := firstn (Z.to_nat k) (skipn (Z.to_nat (ifd c)) f)).
    assert (Ll : zlen l = k) by (subst l; rewrite zlen_firstn; [reflexivity|rewrite zlen_skipn; lia]).
    exists l, (itick c + 1). split; [now rewrite Ll|]. split; [lia|]. split; [|lia].
    intros j Hj. subst l. rewrite zget_firstn, zget_skipn by lia.
    destruct (Z.ltb_spec j k); [|lia]. destruct (Z.ltb_spec j 0); [lia|]. reflexivity.
Qed.
Lemma really_read_ok n nb c : 0 < n -> 0 <= ifd c ->
  (exists l t, really_read f amount ready n nb c = (Some l, ICh (ibuf c) (icur c) (imax c) (ioff c) (ifd c + zlen l) t) /\
    zlen l <= n /\ at_ f (ifd c) l /\ (zlen l = 0 -> zlen f <= ifd c)) \/
  (nb = true /\ exists t, really_read f amount ready n nb c = (None, ICh (ibuf c) (icur c) (imax c) (ioff c) (ifd c) t)).
Proof.
  intros Hn Hf. unfold really_read. destruct (nb && negb (ready (itick c))) eqn:E.
  - right. apply andb_prop in E. split; [tauto|]. now exists (itick c + 1).
  - left. destruct (sys_read_ok n c Hn Hf) as (l & t & E' & H). exists l, t. rewrite E'. split; [reflexivity|exact H].
Qed.
Lemma really_read_ok' n c : 0 < n -> 0 <= ifd c ->
  exists l t, really_read f amount ready n false c = (Some l, ICh (ibuf c) (icur c) (imax c) (ioff c) (ifd c + zlen l) t) /\
    zlen l <= n /\ at_ f (ifd c) l /\ (zlen l = 0 -> zlen f <= ifd c).
Proof. intros Hn Hf. destruct (really_read_ok n false c Hn Hf) as [H|[H _]]; [exact H|discriminate H]. Qed.

(** the buffer holds the bytes before the descriptor's position *)
Record iinv (c : ichan) (pos : Z) : Prop := {
  j_len : zlen (ibuf c) = IO_BUFFER_SIZE;
  j_cur : 0 <= icur c <= imax c;
  j_max : imax c <= IO_BUFFER_SIZE;
  j_off : imax c <= ioff c;
  j_fd : ifd c = ioff c;
  j_pos : pos = ioff c - imax c + icur c;
  j_buf : forall k, 0 <= k < imax c -> zget (ibuf c) k = zget f (ioff c - imax c + k) }.

Lemma iinv_pos c pos : iinv c pos -> 0 <= pos.
Proof. intros []. lia. Qed.
Lemma iinv_bound c pos : iinv c pos -> 0 < imax c -> ioff c <= zlen f.
Proof.
  intros [L C M F D P B] H. specialize (B (imax c - 1) ltac:(lia)).
  destruct (zget_some (ibuf c) (imax c - 1)) as [x E]; [lia|]. rewrite E in B. symmetry in B. apply zget_range in B. lia.
Qed.
(** bytes taken from the buffer *)
Lemma take_ok c pos n : iinv c pos -> 0 <= n <= imax c - icur c ->
  exists l, getn (ibuf c) (icur c) n = Ret l /\ zlen l = n /\ at_ f pos l /\
    iinv (iset c (ibuf c) (icur c + n) (imax c) (ioff c)) (pos + n).
Proof.
  intros [L C M F D P B] Hn. rewrite getn_ok by lia. eexists. split; [reflexivity|].
  split; [rewrite zlen_firstn; [reflexivity|rewrite zlen_skipn; lia]|]. split.
  - intros k Hk. rewrite zlen_firstn in Hk by (rewrite zlen_skipn; lia).
    rewrite zget_firstn, zget_skipn by lia. destruct (Z.ltb_spec k n); [|lia]. destruct (Z.ltb_spec k 0); [lia|].
    rewrite B by lia. f_equal. lia.
  - constructor; cbn [iset ibuf icur imax ioff ifd itick]; try lia. exact B.
Qed.
(** the buffer filled anew *)
Lemma fill_ok c pos l t b : iinv c pos -> icur c = imax c -> at_ f (ifd c) l -> zlen l <= IO_BUFFER_SIZE ->
  putn (ibuf c) 0 l = Ret b -> zlen b = IO_BUFFER_SIZE ->
  (forall k, zget b k = if (0 <=? k) && (k <? 0 + zlen l) then zget l (k - 0) else zget (ibuf c) k) ->
  forall n, 0 <= n <= zlen l -> iinv (ICh b n (zlen l) (ioff c + zlen l) (ifd c + zlen l) t) (pos + n).
Proof.
  intros [L C M F D P B] Q A Ll E Lb G n Hn.
  constructor; cbn [ibuf icur imax ioff ifd itick]; try lia. intros k Hk. rewrite G.
  destruct (Z.leb_spec 0 k); [|lia]. destruct (Z.ltb_spec k (0 + zlen l)); [|lia]. cbn [andb].
  rewrite Z.sub_0_r, A by lia. f_equal. lia.
Qed.

Lemma getch_ok c pos : iinv c pos ->
  exists r c', getch f amount ready c = Ret (r, c') /\
    match r with
    | Some ch => zget f pos = Some ch /\ iinv c' (pos + 1)
    | None => zlen f <= pos /\ iinv c' pos
    end.
Proof.
  intros V. pose proof V as [L C M F D P B]. unfold getch. rewrite Z.geb_leb. destruct (Z.leb_spec (imax c) (icur c)).
  - unfold refill. destruct (really_read_ok' IO_BUFFER_SIZE c) as (l & t & E & Ll & A & Z0); [reflexivity|lia|].
    rewrite E. cbn [ibuf icur imax ioff ifd itick]. destruct (putn_spec (ibuf c) 0 l) as (b & Eb & Lb & G); [lia|lia|].
    rewrite Eb. cbn [bind]. pose proof (zlen_nonneg l). destruct (Z.eqb_spec (zlen l) 0) as [E0|E0].
    + eexists _, _. split; [reflexivity|]. cbn beta iota. split; [specialize (Z0 E0); lia|].
      constructor; cbn [iset ibuf icur imax ioff ifd itick]; try lia.
      intros k Hk. rewrite G. destruct (Z.leb_spec 0 k), (Z.ltb_spec k (0 + zlen l)); try lia; cbn [andb]; now apply B.
    + unfold sub_raw. destruct (zget_some b 0) as [ch Ech]; [unfold IO_BUFFER_SIZE in *; lia|]. rewrite Ech. cbn [bind].
      eexists _, _. split; [reflexivity|]. cbn beta iota. split.
      * rewrite G in Ech. destruct (Z.leb_spec 0 0), (Z.ltb_spec 0 (0 + zlen l)); try lia. cbn [andb] in Ech.
        rewrite Z.sub_0_r, (A 0) in Ech by lia. rewrite <- Ech. f_equal. lia.
      * unfold iset. cbn [ifd itick]. eapply fill_ok; eauto; lia.
  - unfold sub_raw. destruct (zget_some (ibuf c) (icur c)) as [ch Ech]; [lia|]. rewrite Ech. cbn [bind].
    eexists _, _. split; [reflexivity|]. cbn beta iota. split.
    + rewrite B in Ech by lia. rewrite <- Ech. f_equal. lia.
    + constructor; cbn [iset ibuf icur imax ioff ifd itick]; try lia. exact B.
Qed.

Lemma getword_ok : forall i res c pos, iinv c pos -> 0 <= res < 4294967296 ->
  exists r c', getword f amount ready i res c = Ret (r, c') /\
    match r with
    | Some w => exists l, zlen l = Z.of_nat i /\ at_ f pos l /\
                  w = fold_left (fun a ch => (a * 256 + ch) mod 4294967296) l res /\ iinv c' (pos + Z.of_nat i)
    | None => zlen f < pos + Z.of_nat i /\ iinv c' (Z.max pos (zlen f))
    end.
Proof.
  induction i as [|i IH]; intros res c pos V R; cbn [getword].
  - exists (Some res), c. split; [reflexivity|]. exists []. split; [reflexivity|]. split; [|split; [reflexivity|]].
    + intros k Hk. change (zlen (@nil Z)) with 0 in Hk. lia.
    + replace (pos + Z.of_nat 0) with pos by lia. exact V.
  - destruct (getch_ok c pos V) as (r & c' & E & H). rewrite E. cbn [bind]. destruct r as [ch|].
    + destruct H as [Hc V']. set (res' := to_unsigned (to_unsigned (Z.shiftl res 8) + ch)).
      assert (R' : res' = (res * 256 + ch) mod 4294967296).
      { subst res'. unfold to_unsigned. rewrite Z.shiftl_mul_pow2 by lia. change (2 ^ 8) with 256. lia. }
      destruct (IH res' c' (pos + 1) V') as (r & c2 & E2 & H2); [lia|]. rewrite E2. exists r, c2. split; [reflexivity|].
      destruct r as [w|].
      * destruct H2 as (l & Ll & A & Ew & V2). exists (ch :: l). split; [rewrite zlen_cons; lia|].
        split; [|split; [cbn [fold_left]; now rewrite <- R'|replace (pos + Z.of_nat (S i)) with (pos + 1 + Z.of_nat i) by lia; exact V2]].
        change (ch :: l) with ([ch] ++ l). apply at_app; [|exact A].
        intros k Hk. change (zlen [ch]) with 1 in Hk. assert (k = 0) as -> by lia. rewrite Z.add_0_r. now symmetry.
      * destruct H2 as [H3 V2]. split; [lia|]. apply zget_range in Hc.
        replace (Z.max pos (zlen f)) with (Z.max (pos + 1) (zlen f)) by lia. exact V2.
    + destruct H as [Hz V']. exists None, c'. split; [reflexivity|]. split; [lia|].
      replace (Z.max pos (zlen f)) with pos by lia. exact V'.
Qed.

Lemma getblock_ok n nb c pos : iinv c pos -> 0 <= n ->
  exists r c', getblock f amount ready n nb c = Ret (r, c') /\
    match r with
    | Some l => at_ f pos l /\ zlen l <= n /\ (zlen l = 0 -> n = 0 \/ zlen f <= pos) /\ iinv c' (pos + zlen l)
    | None => nb = true /\ 0 < n /\ iinv c' pos
    end.
Proof.
  intros V Hn. pose proof V as [L C M F D P B]. unfold getblock. rewrite !Z.gtb_ltb.
  destruct (Z.leb_spec n (imax c - icur c)).
  - destruct (take_ok c pos n V) as (l & E & Ll & A & V'); [lia|]. rewrite E. cbn [bind].
    eexists _, _. split; [reflexivity|]. cbn beta iota. rewrite Ll. split; [exact A|]. split; [lia|]. split; [lia|exact V'].
  - destruct (Z.ltb_spec 0 (imax c - icur c)).
    + destruct (take_ok c pos (imax c - icur c) V) as (l & E & Ll & A & V'); [lia|]. rewrite E. cbn [bind].
      eexists _, _. split; [reflexivity|]. cbn beta iota. rewrite Ll. split; [exact A|]. split; [lia|]. split; [lia|exact V'].
    + destruct (Z.ltb_spec n IO_BUFFER_SIZE).
      * destruct (really_read_ok IO_BUFFER_SIZE nb c) as [(l & t & E & Ll & A & Z0)|(Nb & t & E)]; [reflexivity|lia| |].
        -- rewrite E. cbn [ibuf icur imax ioff ifd itick].
           destruct (putn_spec (ibuf c) 0 l) as (b & Eb & Lb & G); [lia|lia|]. rewrite Eb. cbn [bind].
           pose proof (zlen_nonneg l). rewrite Z.gtb_ltb.
           set (n' := if zlen l <? n then zlen l else n).
           assert (Hn' : n' = Z.min n (zlen l)) by (subst n'; destruct (Z.ltb_spec (zlen l) n); lia).
           assert (V1 : iinv (ICh b 0 (zlen l) (ioff c + zlen l) (ifd c + zlen l) t) (pos + 0)) by (eapply fill_ok; eauto; lia).
           rewrite Z.add_0_r in V1. destruct (take_ok _ pos n' V1) as (l2 & E2 & L2 & A2 & V2); [cbn [icur imax]; lia|].
           cbn [ibuf icur] in E2. rewrite E2. cbn [bind]. eexists _, _. split; [reflexivity|]. cbn beta iota.
           rewrite L2. split; [exact A2|]. split; [lia|]. split; [|exact V2].
           intros Z1. assert (zlen l = 0 -> zlen f <= pos) by (intros Z2; specialize (Z0 Z2); lia). lia.
        -- rewrite E. eexists _, _. split; [reflexivity|]. cbn beta iota. split; [assumption|]. split; [lia|].
           constructor; cbn [ibuf icur imax ioff ifd itick]; try lia. exact B.
      * set (c1 := iset c (ibuf c) 0 0 (ioff c)).
        assert (V1 : iinv c1 pos).
        { constructor; subst c1; cbn [iset ibuf icur imax ioff ifd itick]; try lia; unfold IO_BUFFER_SIZE; lia. }
        assert (F1 : ifd c1 = pos) by (destruct V1; subst c1; cbn [iset ibuf icur imax ioff ifd itick] in *; lia).
        destruct (really_read_ok n nb c1) as [(l & t & E & Ll & A & Z0)|(Nb & t & E)];
          [unfold IO_BUFFER_SIZE in *; lia|subst c1; cbn [iset ifd]; lia| |]; rewrite E.
        -- eexists _, _. split; [reflexivity|]. cbn beta iota. rewrite F1 in *.
           split; [exact A|]. split; [lia|]. split; [intros Z1; right; auto|].
           pose proof (zlen_nonneg l). destruct V1.
           constructor; subst c1; cbn [iset ibuf icur imax ioff ifd itick] in *; try lia.
        -- eexists _, _. split; [reflexivity|]. cbn beta iota. split; [assumption|]. split; [unfold IO_BUFFER_SIZE in *; lia|].
           destruct V1. constructor; cbn [ibuf icur imax ioff ifd itick]; try lia. assumption.
Qed.

Lemma really_getblock_ok : forall fuel n c pos, iinv c pos -> n < 2 ^ 31 -> n <= Z.of_nat fuel ->
  exists r c', really_getblock f amount ready fuel n c = Ret (r, c') /\
    match r with
    | Some l => at_ f pos l /\ zlen l = Z.max 0 n /\ iinv c' (pos + zlen l)
    | None => (0 < n /\ zlen f < pos + n) /\ iinv c' (Z.max pos (zlen f))
    end.
Proof.
  induction fuel as [|fuel IH]; intros n c pos V Hn Hf; cbn [really_getblock].
  - destruct (Z.ltb_spec 0 n); [lia|]. exists (Some []), c. split; [reflexivity|].
    change (zlen (@nil Z)) with 0. split; [|split; [lia|]].
    + intros k Hk. change (zlen (@nil Z)) with 0 in Hk. lia.
    + now rewrite Z.add_0_r.
  - destruct (Z.ltb_spec 0 n).
    + assert (to_unsigned n = n) as -> by (unfold to_unsigned; lia).
      destruct (getblock_ok n false c pos V) as (r & c1 & E & H1); [lia|]. rewrite E. cbn [bind].
      destruct r as [l|]; [|destruct H1 as [H1 _]; discriminate H1].
      destruct H1 as (A & Ll & Z0 & V1). pose proof (zlen_nonneg l). destruct (Z.eqb_spec (zlen l) 0) as [E0|E0].
      * eexists None, c1. split; [reflexivity|]. rewrite E0, Z.add_0_r in V1. destruct (Z0 E0); [lia|].
        split; [lia|]. replace (Z.max pos (zlen f)) with pos by lia. exact V1.
      * destruct (IH (n - zlen l) c1 (pos + zlen l) V1) as (r2 & c2 & E2 & H2); [lia|lia|].
        rewrite E2. cbn [bind]. eexists _, c2. split; [reflexivity|]. destruct r2 as [l2|].
        -- destruct H2 as (A2 & L2 & V2). rewrite zlen_app. split; [now apply at_app|]. split; [lia|].
           now rewrite Z.add_assoc.
        -- destruct H2 as [H2 V2]. split; [lia|]. apply at_bound in A; [|lia].
           replace (Z.max pos (zlen f)) with (Z.max (pos + zlen l) (zlen f)) by lia. exact V2.
    + exists (Some []), c. split; [reflexivity|].
      change (zlen (@nil Z)) with 0. split; [|split; [lia|]].
      * intros k Hk. change (zlen (@nil Z)) with 0 in Hk. lia.
      * now rewrite Z.add_0_r.
Qed.

(** ** Lines *)
(** scanning at [p]: no newline from curr to [p] *)
Lemma scan_ok : forall fuel p c pos, iinv c pos -> icur c <= p <= imax c ->
  (forall k, icur c <= k < p -> zget (ibuf c) k <> Some 10) ->
  IO_BUFFER_SIZE + icur c < Z.of_nat fuel + p ->
  exists r c', scan_loop f amount ready fuel p c = Ret (r, c') /\ iinv c' pos /\ delivers f pos ILine (RLine r) pos.
Proof.
  induction fuel as [|fuel IH]; intros p c pos V Hp HN Hf; [destruct V; unfold IO_BUFFER_SIZE in *; lia|].
  (* the part after the test, on a channel [c] whose buffer holds the byte at [p] *)
  assert (FOUND : forall p c, iinv c pos -> icur c <= p < imax c ->
    (forall k, icur c <= k < p -> zget (ibuf c) k <> Some 10) ->
    IO_BUFFER_SIZE + icur c <= Z.of_nat fuel + p ->
    exists r c', (do ch <- sub_raw (ibuf c) p;
                  if ch =? 10 then Ret (p + 1 - icur c, c) else scan_loop f amount ready fuel (p + 1) c) = Ret (r, c') /\
                 iinv c' pos /\ delivers f pos ILine (RLine r) pos).
  { clear p c V Hp HN Hf. intros p c V Hp HN Hf. pose proof V as [L C M F D P B].
    unfold sub_raw. destruct (zget_some (ibuf c) p) as [ch Ech]; [lia|]. rewrite Ech. cbn [bind].
    destruct (Z.eqb_spec ch 10) as [E|E].
    - eexists _, c. split; [reflexivity|]. split; [exact V|]. constructor; [unfold IO_BUFFER_SIZE in *; lia| |].
      + rewrite <- E, <- Ech, B by lia. f_equal. lia.
      + intros k Hk. specialize (HN (k - pos + icur c) ltac:(lia)). rewrite B in HN by lia.
        intros X. apply HN. rewrite <- X. f_equal. lia.
    - apply IH; auto; try lia. intros k Hk. destruct (Z.eq_dec k p) as [->|N]; [congruence|]. apply HN. lia. }
  cbn [scan_loop]. rewrite Z.geb_leb. destruct (Z.leb_spec (imax c) p).
  - rewrite Z.gtb_ltb.
    (* the rest of the buffer moved to the front *)
    assert (exists c1, (if 0 <? icur c then
                        do l <- getn (ibuf c) (icur c) (imax c - icur c);
                        do b <- putn (ibuf c) 0 l;
                        let n := icur c in
                        Ret (p - n, iset c b (icur c - n) (imax c - n) (ioff c))
                      else Ret (p, c)) = Ret (imax c1, c1) /\ iinv c1 pos /\ icur c1 = 0 /\ imax c1 = p - icur c /\
             (forall k, 0 <= k < imax c1 -> zget (ibuf c1) k <> Some 10)) as (c1 & E1 & V1 & C1 & M1 & N1).
    { pose proof V as [L C M F D P B]. destruct (Z.ltb_spec 0 (icur c)).
      - destruct (take_ok c pos (imax c - icur c) V) as (l & E & Ll & A & _); [lia|]. rewrite E. cbn [bind].
        destruct (putn_spec (ibuf c) 0 l) as (b & Eb & Lb & G); [lia|lia|]. rewrite Eb. cbn [bind].
        eexists. split; [|split; [|split; [|split]]].
        + cbv zeta. f_equal. f_equal. cbn [imax iset]. lia.
        + constructor; cbn [iset ibuf icur imax ioff ifd itick]; try lia.
          intros k Hk. rewrite G. destruct (Z.leb_spec 0 k), (Z.ltb_spec k (0 + zlen l)); try lia; cbn [andb].
          rewrite Z.sub_0_r, A by lia. f_equal. lia.
        + cbn [iset icur]. lia.
        + cbn [iset imax]. lia.
        + cbn [iset imax ibuf]. intros k Hk. rewrite G.
          destruct (Z.leb_spec 0 k), (Z.ltb_spec k (0 + zlen l)); try lia; cbn [andb]. rewrite Z.sub_0_r, A by lia.
          specialize (HN (k + icur c) ltac:(lia)). rewrite B in HN by lia. intros X. apply HN. rewrite <- X. f_equal. lia.
      - exists c. assert (p = imax c) as -> by lia. assert (icur c = 0) as X by lia.
        split; [reflexivity|]. split; [exact V|]. split; [exact X|]. split; [lia|]. intros k Hk. apply HN. lia. }
    cbv zeta in E1. rewrite E1. cbn [bind]. pose proof V1 as [L C M F D P B]. rewrite Z.geb_leb.
    assert (NL : forall k, pos <= k < pos + imax c1 -> zget f k <> Some 10).
    { intros k Hk. specialize (N1 (k - pos) ltac:(lia)). rewrite B in N1 by lia. intros X. apply N1. rewrite <- X. f_equal. lia. }
    destruct (Z.leb_spec IO_BUFFER_SIZE (imax c1)).
    + eexists _, c1. split; [reflexivity|]. split; [exact V1|]. rewrite C1, Z.sub_0_r.
      constructor; [unfold IO_BUFFER_SIZE in *; lia|exact NL|].
      left. split; [unfold IO_BUFFER_SIZE in *; lia|]. pose proof (iinv_bound c1 pos V1). unfold IO_BUFFER_SIZE in *; lia.
    + destruct (really_read_ok' (IO_BUFFER_SIZE - imax c1) c1) as (l & t & E & Ll & A & Z0); [lia|lia|].
      rewrite E. cbn [ibuf icur imax ioff ifd itick].
      destruct (putn_spec (ibuf c1) (imax c1) l) as (b & Eb & Lb & G); [lia|lia|]. rewrite Eb. cbn [bind].
      pose proof (zlen_nonneg l). destruct (Z.eqb_spec (zlen l) 0) as [E0|E0].
      * eexists _, _. split; [reflexivity|]. split.
        -- constructor; cbn [iset ibuf icur imax ioff ifd itick]; try lia. intros k Hk. rewrite G.
           destruct (Z.leb_spec (imax c1) k), (Z.ltb_spec k (imax c1 + zlen l)); try lia; cbn [andb]; now apply B.
        -- rewrite C1, Z.sub_0_r. constructor; [unfold IO_BUFFER_SIZE in *; lia|exact NL|]. specialize (Z0 E0).
           destruct (Z.eq_dec (imax c1) 0); [right; right; lia|]. pose proof (iinv_bound c1 pos V1). right; left. lia.
      * apply FOUND; cbn [iset ibuf icur imax ioff ifd itick].
        -- constructor; cbn [iset ibuf icur imax ioff ifd itick]; try lia. intros k Hk. rewrite G.
           destruct (Z.leb_spec (imax c1) k), (Z.ltb_spec k (imax c1 + zlen l)); try lia; cbn [andb].
           ++ rewrite A by lia. f_equal. lia.
           ++ rewrite B by lia. f_equal. lia.
        -- lia.
        -- intros k Hk. rewrite G. destruct (Z.leb_spec (imax c1) k), (Z.ltb_spec k (imax c1 + zlen l)); try lia; cbn [andb].
           apply N1. lia.
        -- lia.
  - apply FOUND; auto; lia.
Qed.

Lemma seek_in_ok c pos d : iinv c pos -> 0 <= d -> exists c', seek_in d c = Ret c' /\ iinv c' d.
Proof.
  intros [L C M F D P B] Hd. unfold seek_in. rewrite Z.geb_leb.
  destruct (Z.leb_spec (ioff c - imax c) d), (Z.leb_spec d (ioff c)); cbn [andb].
  - eexists. split; [reflexivity|]. constructor; cbn [iset ibuf icur imax ioff ifd itick]; try lia. exact B.
  - destruct (Z.ltb_spec d 0); [lia|]. eexists. split; [reflexivity|].
    constructor; cbn [iset ibuf icur imax ioff ifd itick]; try lia; unfold IO_BUFFER_SIZE; lia.
  - destruct (Z.ltb_spec d 0); [lia|]. eexists. split; [reflexivity|].
    constructor; cbn [iset ibuf icur imax ioff ifd itick]; try lia; unfold IO_BUFFER_SIZE; lia.
  - lia.
Qed.

Lemma istep_ok c pos o : Forall (fun x => 0 <= x < 256) f -> iinv c pos -> iop_ok o ->
  exists r c' pos', istep f amount ready o c = Ret (r, c') /\ iinv c' pos' /\ delivers f pos o r pos'.
Proof.
  intros FB V K. pose proof (iinv_pos _ _ V) as P0. destruct o as [| |n|n|n| |d|]; cbn [istep iop_ok] in *.
  - destruct (getch_ok c pos V) as (r & c' & E & H). rewrite E. cbn [bind]. destruct r as [ch|]; destruct H as [H V'].
    + eexists _, c', _. split; [reflexivity|]. split; [exact V'|]. now constructor.
    + eexists _, c', _. split; [reflexivity|]. split; [exact V'|]. now constructor.
  - unfold input_int. destruct (getword_ok 4 0 c pos V) as (r & c' & E & H); [lia|]. rewrite E. cbn [bind].
    destruct r as [w|].
    + destruct H as (l & Ll & A & Ew & V'). eexists _, c', (pos + 4). split; [reflexivity|]. split; [exact V'|].
      destruct l as [|c0 [|c1 [|c2 [|c3 [|]]]]]; try (unfold zlen in Ll; cbn in Ll; lia).
      pose proof (A 0 ltac:(lia)) as A0. pose proof (A 1 ltac:(lia)) as A1.
      pose proof (A 2 ltac:(lia)) as A2. pose proof (A 3 ltac:(lia)) as A3. rewrite Z.add_0_r in A0.
      change (zget [c0; c1; c2; c3] 0) with (Some c0) in A0. change (zget [c0; c1; c2; c3] 1) with (Some c1) in A1.
      change (zget [c0; c1; c2; c3] 2) with (Some c2) in A2. change (zget [c0; c1; c2; c3] 3) with (Some c3) in A3.
      cbn [fold_left] in Ew.
      assert (forall k x, Some x = zget f k -> 0 <= x < 256) as FZ.
      { intros k x X. symmetry in X. apply zget_In in X. rewrite Forall_forall in FB. auto. }
      pose proof (FZ _ _ A0). pose proof (FZ _ _ A1). pose proof (FZ _ _ A2). pose proof (FZ _ _ A3).
      assert (w = c0 * 16777216 + c1 * 65536 + c2 * 256 + c3) as -> by lia. constructor; auto.
    + destruct H as [H V']. eexists _, c', _. split; [reflexivity|]. split; [exact V'|].
      change (Z.of_nat 4) with 4 in H. destruct (Z.leb_spec pos (zlen f)).
      * replace (Z.max pos (zlen f)) with (zlen f) by lia. constructor. lia.
      * replace (Z.max pos (zlen f)) with pos by lia. constructor. lia.
  - unfold input. assert (to_unsigned n = n) as -> by (unfold to_unsigned; lia).
    destruct (getblock_ok n false c pos V) as (r & c' & E & H); [lia|]. rewrite E. cbn [bind].
    destruct r as [l|]; [|destruct H as [H _]; discriminate H]. destruct H as (A & Ll & Z0 & V').
    eexists _, c', _. split; [reflexivity|]. split; [exact V'|]. constructor; [now apply at_slice|lia|].
    intros ->. now apply Z0.
  - unfold input. assert (to_unsigned n = n) as -> by (unfold to_unsigned; lia).
    destruct (getblock_ok n true c pos V) as (r & c' & E & H); [lia|]. rewrite E. cbn [bind].
    destruct r as [l|].
    + destruct H as (A & Ll & Z0 & V').
      eexists _, c', _. split; [reflexivity|]. split; [exact V'|]. constructor; [now apply at_slice|lia|].
      intros ->. now apply Z0.
    + destruct H as (_ & Hn & V'). eexists _, c', _. split; [reflexivity|]. split; [exact V'|]. now constructor.
  - destruct (really_getblock_ok (S (Z.to_nat n)) n c pos V) as (r & c' & E & H); [lia|lia|]. rewrite E. cbn [bind].
    destruct r as [l|].
    + destruct H as (A & Ll & V'). rewrite Ll in V'. replace (Z.max 0 n) with n in * by lia.
      eexists _, c', _. split; [reflexivity|]. split; [exact V'|]. constructor; [now apply at_slice|lia].
    + destruct H as [H V']. eexists _, c', _. split; [reflexivity|]. split; [exact V'|]. constructor; lia.
  - unfold input_scan_line. destruct (scan_ok (S (Z.to_nat IO_BUFFER_SIZE)) (icur c) c pos V) as (r & c' & E & V' & H).
    + destruct V; lia.
    + intros k Hk. lia.
    + unfold IO_BUFFER_SIZE. lia.
    + rewrite E. cbn [bind]. eauto 6.
  - destruct (seek_in_ok c pos d V K) as (c' & E & V'). rewrite E. cbn [bind].
    eexists _, c', _. split; [reflexivity|]. split; [exact V'|]. constructor.
  - eexists _, c, _. split; [reflexivity|]. split; [exact V|]. unfold pos_in.
    replace (ioff c - (imax c - icur c)) with pos by (destruct V; lia). constructor.
Qed.
Lemma irun_ok : Forall (fun x => 0 <= x < 256) f -> forall l c pos, iinv c pos -> Forall iop_ok l ->
  exists rs c' pos', irun f amount ready l c = Ret (rs, c') /\ delivers_all f pos l rs pos'.
Proof.
  intros FB. induction l as [|o l IH]; intros c pos V K; cbn [irun].
  - eexists [], c, pos. split; [reflexivity|constructor].
  - inversion_clear K as [|? ? K1 K2]. destruct (istep_ok c pos o FB V K1) as (r & c' & pos' & E & V' & H).
    rewrite E. cbn [bind]. destruct (IH c' pos' V' K2) as (rs & c2 & pos2 & E2 & H2). rewrite E2. cbn [bind].
    eexists _, c2, pos2. split; [reflexivity|]. econstructor; eauto.
Qed.
Lemma open_in_inv b : zlen b = IO_BUFFER_SIZE -> iinv (open_in b) 0.
Proof.
  intros L. constructor; cbn [open_in ibuf icur imax ioff ifd itick]; try lia; unfold IO_BUFFER_SIZE; lia.
Qed.
End S.
