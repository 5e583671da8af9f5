(** Proofs about number scanning, continued: words, white space, signs, arbitrary readers. *)
From Verif Require Import Base Arith_Model Arith_Proofs Arith_WordProofs Scan_Model Scan_Spec Scan_Proofs.

(** *** Words *)
Lemma lit_tagw n : 0 <= n < 1000 -> lit n = tagw n.
Proof. unfold lit, tagw, sgn63, two62. intros. destruct (Z.ltb_spec n 4611686018427387904); lia. Qed.
Lemma Val_long_tagw n : 0 <= n < 1000 -> Val_long n = tagw n.
Proof. intros. rewrite <- lit_tagw by lia. apply Val_long_int, in_int_small. lia. Qed.
Lemma is_word_small n : 0 <= n < 1000 -> is_word n.
Proof. unfold is_word, two63. lia. Qed.
Lemma mod_word_small n : 0 <= n < 1000 -> n mod two63 = n.
Proof. intros. apply Z.mod_small. unfold two63. lia. Qed.

Lemma w_hexval_eq r c : digit r c -> w_hexval c = Ret (tagw (dval c)).
Proof.
  intros D. pose proof (digit_char r c D) as H. unfold w_hexval, dval, digit_value.
  rewrite Val_long_tagw, !lit_tagw by lia.
  destruct ((48 <=? c) && (c <=? 57)) eqn:E1.
  - rewrite w_sub by (apply is_word_small; lia). now rewrite mod_word_small by lia.
  - rewrite w_sub by (apply is_word_small; lia). rewrite mod_word_small by lia. cbn [bind].
    rewrite w_mod by (try lia; apply is_word_small; lia).
    destruct ((65 <=? c) && (c <=? 70)) eqn:E2; [do 2 f_equal; lia|].
    destruct ((97 <=? c) && (c <=? 102)) eqn:E3; [do 2 f_equal; lia|lia].
Qed.

Lemma w_digr_list r ds rest : Forall (digit r) ds -> stops r rest ->
  forall fuel a, (length ds < fuel)%nat ->
  w_digr lgetc r fuel (tagw (a mod two63)) (ds ++ rest) = Ret (Some (tagw (valueF r a ds mod two63), rest)).
Proof.
  intros D St. induction D as [|c ds Dc D IH]; intros [|fuel] a Hf; cbn [length] in Hf; try lia.
  - cbn [app w_digr valueF fold_left].
    destruct rest as [|c rest]; cbn [lgetc]; [reflexivity|].
    cbn in St. apply digit_no in St. now rewrite St.
  - cbn [app w_digr lgetc]. pose proof (proj2 (digit_dec r c) Dc) as Dt. rewrite Dt, (w_hexval_eq r c Dc).
    rewrite factor_base.
    pose proof (dval_range r c Dc) as Hv. pose proof (base_pos r) as Hb.
    rewrite lit_tagw by lia. rewrite w_mul by (apply mod63_word || (apply is_word_small; lia)). cbn [bind].
    rewrite w_add by (apply mod63_word || (apply is_word_small; lia)). cbn [bind].
    cbn [valueF fold_left]. fold (valueF r (a * base r + dval c) ds).
    replace ((base r * (a mod two63)) mod two63 + dval c) with ((base r * (a mod two63)) mod two63 + dval c) by lia.
    assert (((base r * (a mod two63)) mod two63 + dval c) mod two63 = (a * base r + dval c) mod two63) as ->.
    { rewrite Zplus_mod_idemp_l, <- Zplus_mod_idemp_l, Z.mul_mod_idemp_r by (unfold two63; lia).
      rewrite Zplus_mod_idemp_l. f_equal. lia. }
    apply IH. lia.
Qed.

Lemma w_dig1_list r ds rest fuel : Forall (digit r) ds -> stops r rest -> ds <> [] -> (length ds <= fuel)%nat ->
  w_dig1 lgetc r fuel (lgetc (ds ++ rest)) = Ret (Some (tagw (value r ds mod two63), rest)).
Proof.
  intros D St Ne Hf. destruct ds as [|c ds]; [easy|]. inversion D as [|? ? Dc D']; subst.
  cbn [app lgetc w_dig1]. rewrite (proj2 (digit_dec r c) Dc), (w_hexval_eq r c Dc). cbn [bind].
  pose proof (dval_range r c Dc) as Hv. pose proof (base_pos r) as Hb.
  cbn [length] in Hf. rewrite <- (mod_word_small (dval c)) by lia.
  rewrite w_digr_list by (try assumption; lia).
  unfold value. cbn [fold_left]. now replace (0 * base r + dval c) with (dval c) by lia.
Qed.

Lemma w_dig1_none r l fuel : stops r l -> w_dig1 lgetc r fuel (lgetc l) = Ret None.
Proof.
  intros St. destruct l as [|c l]; [reflexivity|]. cbn in *. now rewrite (proj2 (digit_no r c) St).
Qed.

(** word_scan after the white space *)
Definition word_body {S} (getc : S -> option (Z * S)) r fuel source : outcome (option (Z * S)) :=
  match getc source with
  | Some (c, after0) =>
    if c =? 48 then
      match getc after0 with
      | Some (c, src2) =>
        if c =? 119 then hexprefix getc r fuel after0 src2 else hexprefix getc r fuel after0 after0
      | None => Ret (Some (lit 0, after0))
      end
    else w_dig1 getc r fuel (getc source)
  | None => Ret None
  end.

Lemma w_getdigs_some r ds rest after0 fuel : Forall (digit r) ds -> stops r rest -> ds <> [] ->
  (length (ds ++ rest) <= fuel)%nat ->
  w_getdigs lgetc r fuel after0 (ds ++ rest) = Ret (Some (tagw (value r ds mod two63), rest)).
Proof.
  intros D St Ne Hf. unfold w_getdigs. rewrite app_length in Hf.
  now rewrite w_dig1_list by (try assumption; lia).
Qed.
Lemma w_getdigs_none r l after0 fuel : stops r l ->
  w_getdigs lgetc r fuel after0 l = Ret (Some (tagw (value r [48] mod two63), after0)).
Proof. intros St. unfold w_getdigs. now rewrite w_dig1_none. Qed.

Lemma word_body_list r l fuel : (length l <= fuel)%nat ->
  (exists pre ds rest, longest_body (word_prefix r) r l pre ds rest /\
     word_body lgetc r fuel l = Ret (Some (tagw (value r ds mod two63), rest))) \/
  ((forall pre ds rest, ~ body (word_prefix r) r l pre ds rest) /\ word_body lgetc r fuel l = Ret None).
Proof.
  intros Hf. destruct (split_digits r l) as (ds & rest & E & D & St).
  destruct ds as [|c ds].
  { right. cbn in E. subst rest. split.
    - intros pre ds rest (E & P & Ne & D').
      destruct P as [-> | P].
      + cbn in E. apply (stops_digits r l ds rest) in E; [easy|assumption|assumption].
      + assert (exists t, pre = 48 :: t) as (t & ->).
        { destruct P as [-> | (_ & [-> | [-> | [-> | ->]]])]; eexists; reflexivity. }
        cbn in E. subst l. cbn in St. apply St, digit48.
    - destruct l as [|c l]; [reflexivity|]. unfold word_body. cbn [lgetc].
      destruct (Z.eqb_spec c 48) as [->|N].
      + exfalso. apply St, digit48.
      + exact (w_dig1_none r (c :: l) fuel St). }
  left. inversion D as [|? ? Dc D']; subst.
  assert (Plain : (forall pre' ds' rest', body (word_prefix r) r ((c :: ds) ++ rest) pre' ds' rest' -> pre' = []) ->
                  longest_body (word_prefix r) r ((c :: ds) ++ rest) [] (c :: ds) rest).
  { intros Only. split.
    - lsplit; [reflexivity|now left|easy|assumption].
    - intros pre' ds' rest' B. pose proof (Only _ _ _ B) as ->. destruct B as (E' & _ & _ & D2).
      exact (digits_max r (c :: ds) rest ds' rest' St D2 E'). }
  destruct (Z.eqb_spec c 48) as [->|N].
  2:{ exists [], (c :: ds), rest. split.
      - apply Plain. intros pre' ds' rest' (E' & P & _).
        destruct P as [-> | [-> | (_ & [-> | [-> | [-> | ->]]])]]; [reflexivity|..]; cbn in E'; congruence.
      - unfold word_body. cbn [app lgetc]. destruct (Z.eqb_spec c 48); [congruence|].
        change (Some (c, ds ++ rest)) with (lgetc ((c :: ds) ++ rest)).
        apply w_dig1_list; try assumption; try easy. rewrite app_length in Hf. lia. }
  (* a prefix whose last character q1 is followed by digits *)
  assert (Pref : forall pre ds2 rest2, (48 :: ds) ++ rest = pre ++ ds2 ++ rest2 -> word_prefix r pre -> pre <> [] ->
    ds2 <> [] -> Forall (digit r) ds2 -> stops r rest2 ->
    longest_body (word_prefix r) r ((48 :: ds) ++ rest) pre ds2 rest2).
  { intros pre ds2 rest2 E2 P Npre Ne D2 St2. split; [now lsplit|].
    intros pre' ds' rest' (E' & P' & Ne' & D3). rewrite E2 in E'.
    destruct ds' as [|x' ds']; [easy|]. inversion D3 as [|? ? D4 D5]; subst.
    destruct ds2 as [|x2 ds2]; [easy|]. inversion D2 as [|? ? D6 D7]; subst.
    assert (pre' = pre \/ pre' = []) as [-> | ->].
    { clear - P P' E' Npre D4 D6.
      destruct P as [-> | [-> | (_ & [-> | [-> | [-> | ->]]])]]; [easy|..];
      (destruct P' as [-> | [-> | (_ & [-> | [-> | [-> | ->]]])]]; [now right|..]; cbn in E'; try discriminate; try (now left);
       injection E' as E'; exfalso; subst;
       first [ revert D4; apply not_digit_x; lia | revert D6; apply not_digit_x; lia ]). }
    - apply app_inv_head in E'. rewrite !app_length. apply Nat.add_le_mono_l.
      exact (digits_max r (x2 :: ds2) rest2 (x' :: ds') rest' St2 D3 E').
    - cbn [app] in E'.
      assert (exists q pre1, pre = 48 :: q :: pre1 /\ (q = 119 \/ q = 120 \/ q = 88)) as (q & pre1 & -> & Hq).
      { destruct P as [-> | [-> | (_ & [-> | [-> | [-> | ->]]])]]; [easy|..]; eexists; eexists; (split; [reflexivity|lia]). }
      cbn [app] in E'. destruct ds' as [|y ds']; [cbn; lia|]. injection E' as _ <- _.
      inversion D5; subst. exfalso. revert Hq. intros Hq. now apply (not_digit_x r q Hq). }
  unfold word_body. cbn [app lgetc Z.eqb Pos.eqb].
  assert (Fold : value r [48] = 0) by reflexivity.
  destruct ds as [|d ds].
  - cbn [app] in *. destruct rest as [|x rest].
    + exists [], [48], []. split; [|reflexivity].
      apply Plain. intros pre' ds' rest' (E' & P & _).
      destruct P as [-> | [-> | (_ & [-> | [-> | [-> | ->]]])]]; [reflexivity|..]; discriminate.
    + cbn [lgetc]. cbn [length] in Hf. destruct (Z.eqb_spec x 119) as [->|Nw].
      * (* 0w *)
        unfold hexprefix. destruct (radix_eqb r HEX) eqn:ER; cbn [negb].
        -- assert (HR : r = HEX) by (now destruct r).
           destruct rest as [|y rest].
           ++ exists [], [48], [119]. split; [|reflexivity].
              apply Plain. intros pre' ds' rest' (E' & P & Ne' & _).
              destruct ds' as [|z ds']; [easy|].
              destruct P as [-> | [-> | (_ & [-> | [-> | [-> | ->]]])]]; [reflexivity|..]; discriminate.
           ++ cbn [lgetc]. cbn [length] in Hf. destruct ((y =? 120) || (y =? 88)) eqn:Ey.
              ** destruct (split_digits r rest) as (ds2 & rest2 & E2 & D2 & St2).
                 destruct ds2 as [|d2 ds2].
                 { cbn in E2. subst rest2. exists [], [48], (119 :: y :: rest). split.
                   - apply Plain. intros pre' ds' rest' (E' & P & Ne' & D3).
                     destruct ds' as [|z ds']; [easy|]. inversion D3 as [|? ? D4 _]; subst z.
                     destruct P as [-> | [-> | (_ & [-> | [-> | [-> | ->]]])]]; [reflexivity|..]; cbn in E';
                       try discriminate; injection E' as E'; subst; exfalso;
                       first [ now cbn in St2 | revert D4; apply not_digit_x; lia].
                   - now apply w_getdigs_none. }
                 exists [48; 119; y], (d2 :: ds2), rest2. split.
                 { apply Pref; try easy; [cbn; now rewrite E2|].
                   right. right. split; [assumption|]. right. right.
                   assert (y = 120 \/ y = 88) as [-> | ->] by lia; [now left|now right]. }
                 rewrite E2. apply w_getdigs_some; try assumption; try easy. rewrite <- E2. lia.
              ** destruct (split_digits r (y :: rest)) as (ds2 & rest2 & E2 & D2 & St2).
                 destruct ds2 as [|d2 ds2].
                 { cbn in E2. subst rest2. exists [], [48], (119 :: y :: rest). split.
                   - apply Plain. intros pre' ds' rest' (E' & P & Ne' & D3).
                     destruct ds' as [|z ds']; [easy|]. inversion D3 as [|? ? D4 _]; subst z.
                     destruct P as [-> | [-> | (_ & [-> | [-> | [-> | ->]]])]]; [reflexivity|..]; cbn in E';
                       try discriminate; injection E' as E'; subst; exfalso;
                       first [ now cbn in St2 | revert D4; apply not_digit_x; lia | lia].
                   - now apply w_getdigs_none. }
                 exists [48; 119], (d2 :: ds2), rest2. split.
                 { apply Pref; try easy; [cbn; now rewrite E2|]. right. now left. }
                 rewrite E2. apply w_getdigs_some; try assumption; try easy. rewrite <- E2. cbn [length]. lia.
        -- destruct (split_digits r rest) as (ds2 & rest2 & E2 & D2 & St2).
           destruct ds2 as [|d2 ds2].
           { cbn in E2. subst rest2. exists [], [48], (119 :: rest). split.
             - apply Plain. intros pre' ds' rest' (E' & P & Ne' & D3).
               destruct ds' as [|z ds']; [easy|]. inversion D3 as [|? ? D4 _]; subst z.
               destruct P as [-> | [-> | (-> & _)]]; [reflexivity| |discriminate]. cbn in E'.
               injection E' as E'; subst; exfalso; now cbn in St2.
             - now apply w_getdigs_none. }
           exists [48; 119], (d2 :: ds2), rest2. split.
           { apply Pref; try easy; [cbn; now rewrite E2|]. right. now left. }
           rewrite E2. apply w_getdigs_some; try assumption; try easy. rewrite <- E2. lia.
      * unfold hexprefix. destruct (radix_eqb r HEX) eqn:ER; cbn [negb].
        -- assert (HR : r = HEX) by (now destruct r). cbn [lgetc].
           destruct ((x =? 120) || (x =? 88)) eqn:Ex.
           ++ destruct (split_digits r rest) as (ds2 & rest2 & E2 & D2 & St2).
              destruct ds2 as [|d2 ds2].
              { cbn in E2. subst rest2. exists [], [48], (x :: rest). split.
                - apply Plain. intros pre' ds' rest' (E' & P & Ne' & D3).
                  destruct ds' as [|z ds']; [easy|]. inversion D3 as [|? ? D4 _]; subst z.
                  destruct P as [-> | [-> | (_ & [-> | [-> | [-> | ->]]])]]; [reflexivity|..]; cbn in E';
                    try discriminate; injection E' as E'; subst; exfalso;
                    first [ now cbn in St2 | revert D4; apply not_digit_x; lia | lia].
                - now apply w_getdigs_none. }
              exists [48; x], (d2 :: ds2), rest2. split.
              { apply Pref; try easy; [cbn; now rewrite E2|].
                right. right. split; [assumption|].
                assert (x = 120 \/ x = 88) as [-> | ->] by lia; [now left|right; now left]. }
              rewrite E2. apply w_getdigs_some; try assumption; try easy. rewrite <- E2. lia.
           ++ exists [], [48], (x :: rest). split.
              { apply Plain. intros pre' ds' rest' (E' & P & Ne' & D3).
                destruct P as [-> | [-> | (_ & [-> | [-> | [-> | ->]]])]]; [reflexivity|..]; cbn in E';
                  injection E' as E'; subst; exfalso; lia. }
              now apply w_getdigs_none.
        -- exists [], [48], (x :: rest). split.
           { apply Plain. intros pre' ds' rest' (E' & P & Ne' & D3).
             destruct P as [-> | [-> | (-> & _)]]; [reflexivity| |discriminate]. cbn in E'.
             injection E' as E'; subst; exfalso; lia. }
           now apply w_getdigs_none.
  - cbn [app lgetc]. inversion D' as [|? ? Dd _]; subst.
    assert (d =? 119 = false) as -> by (destruct (Z.eqb_spec d 119); [exfalso; revert Dd; apply not_digit_x; lia|reflexivity]).
    exists [], (48 :: d :: ds), rest. split.
    + apply Plain. intros pre' ds' rest' (E' & P & _). 
      destruct P as [-> | [-> | (_ & [-> | [-> | [-> | ->]]])]]; [reflexivity|..]; cbn in E';
          injection E' as -> E'; exfalso; revert Dd; apply not_digit_x; lia.
    + rewrite value_cons0. unfold hexprefix.
      assert (G : w_getdigs lgetc r fuel ((d :: ds) ++ rest) ((d :: ds) ++ rest)
                  = Ret (Some (tagw (value r (d :: ds) mod two63), rest))).
      { apply w_getdigs_some; try assumption; try easy. cbn [length app] in Hf |- *. lia. }
      destruct (radix_eqb r HEX); cbn [negb]; [|exact G].
      cbn [lgetc app]. 
      assert ((d =? 120) || (d =? 88) = false) as ->.
      { destruct (_ || _) eqn:Ed; [|reflexivity]. exfalso. revert Dd. apply not_digit_x. lia. }
      exact G.
Qed.
