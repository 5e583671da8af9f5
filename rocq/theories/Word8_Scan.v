(** Proofs about Word8's scan (after those of Word's, Scan_Proofs2 and Scan_Proofs3). *)
From Verif Require Import Base Arith_Model Arith_Proofs Arith_WordProofs Scan_Model Scan_Spec Scan_Proofs Scan_Proofs2 Scan_Proofs3 Word8_Model.

(** the value [v] if it fits, Overflow otherwise *)
Definition chk8 {S} (v : Z) (s : S) : outcome (option (Z * S)) :=
  if v <? 256 then Ret (Some (Val_long v, s)) else Raise Overflow.

Definition ret8 {S} (x : outcome (option (Z * S))) : outcome (option (Z * S)) :=
  do y <- x; match y with Some (v, s) => b_return v s | None => Ret None end.
Lemma b_digr_eq {S} (getc : S -> option (Z * S)) r : forall fuel a s,
  b_digr getc r fuel a s = ret8 (digr getc r 1 fuel a s).
Proof.
  induction fuel as [|fuel IH]; intros a s; [reflexivity|]. cbn [b_digr digr]. destruct (getc s) as [[c rest]|]; [|reflexivity].
  destruct (radix_digit r c) eqn:E; [|reflexivity]. apply digit_dec in E. rewrite (hexval_eq r c E). cbn [bind]. unfold next_val. cbn [Z.eqb Pos.eqb].
  destruct (imul (radix_factor r) a) as [m| | |]; cbn [bind]; try reflexivity. destruct (iadd m (dval c)) as [x| | |]; cbn [bind]; try reflexivity. apply IH.
Qed.
Lemma b_dig1_eq {S} (getc : S -> option (Z * S)) r fuel inp : b_dig1 getc r fuel inp = ret8 (dig1 getc r fuel 1 inp).
Proof.
  destruct inp as [[c rest]|]; [|reflexivity]. cbn [b_dig1 dig1]. destruct (radix_digit r c) eqn:E; [|reflexivity]. apply digit_dec in E.
  rewrite (hexval_eq r c E). cbn [bind]. pose proof (dval_range r c E) as Hv. pose proof (base_pos r) as Hb.
  rewrite imul_eq by (try apply in_int_small; lia). rewrite in_intb_yes by (apply in_int_small; lia). cbn [bind].
  replace (1 * dval c) with (dval c) by lia. apply b_digr_eq.
Qed.
Lemma value_nonneg r ds : Forall (digit r) ds -> 0 <= value r ds.
Proof. intros D. exact (valueF_ge r ds 0 ltac:(lia) D). Qed.
Lemma b_dig1_list r ds rest fuel : Forall (digit r) ds -> stops r rest -> ds <> [] -> (length ds <= fuel)%nat ->
  b_dig1 lgetc r fuel (lgetc (ds ++ rest)) = chk8 (value r ds) rest.
Proof.
  intros D St Ne Hf. rewrite b_dig1_eq, dig1_list by (auto; try lia). unfold ok_or_overflow, ret8, chk8, b_return.
  pose proof (value_nonneg r ds D) as P. replace (1 * value r ds) with (value r ds) by lia.
  destruct (in_intb (value r ds)) eqn:E; [reflexivity|]. cbn [bind]. destruct (Z.ltb_spec (value r ds) 256) as [L|L]; [|reflexivity].
  rewrite in_intb_yes in E by (apply in_int_small; lia). discriminate.
Qed.
Lemma b_dig1_none r l fuel : stops r l -> b_dig1 lgetc r fuel (lgetc l) = Ret None.
Proof. intros St. rewrite b_dig1_eq, dig1_none by assumption. reflexivity. Qed.

(** b_scan after the white space *)
Definition b_body {S} (getc : S -> option (Z * S)) r fuel source : outcome (option (Z * S)) :=
  match getc source with
  | Some (c, after0) =>
    if c =? 48 then
      match getc after0 with
      | Some (c, src2) =>
        if c =? 119 then b_hexprefix getc r fuel after0 src2 else b_hexprefix getc r fuel after0 after0
      | None => b_return 0 after0
      end
    else b_dig1 getc r fuel (getc source)
  | None => Ret None
  end.

Lemma b_getdigs_some r ds rest after0 fuel : Forall (digit r) ds -> stops r rest -> ds <> [] ->
  (length (ds ++ rest) <= fuel)%nat ->
  b_getdigs lgetc r fuel after0 (ds ++ rest) = chk8 (value r (ds)) rest.
Proof.
  intros D St Ne Hf. unfold b_getdigs. rewrite app_length in Hf.
  rewrite b_dig1_list by (try assumption; lia). unfold chk8. now destruct (_ <? _).
Qed.
Lemma b_getdigs_none r l after0 fuel : stops r l ->
  b_getdigs lgetc r fuel after0 l = chk8 (value r ([48])) after0.
Proof. intros St. unfold b_getdigs. now rewrite b_dig1_none. Qed.

Lemma b_body_list r l fuel : (length l <= fuel)%nat ->
  (exists pre ds rest, longest_body (word_prefix r) r l pre ds rest /\
     b_body lgetc r fuel l = chk8 (value r (ds)) rest) \/
  ((forall pre ds rest, ~ body (word_prefix r) r l pre ds rest) /\ b_body lgetc r fuel l = Ret None).
Proof.
  intros Hf. destruct (split_digits r l) as (ds & rest & E & D & St).
  destruct ds as [|c ds].
  { right. cbn in E. subst rest. split.
    - intros pre ds rest (E & P & Ne & D').
      destruct P as [-> | P].
      + cbn in E. apply (stops_digits r l ds rest) in E; [easy|assumption|assumption].
      + assert (exists t, pre = 48 :: t) as (t & ->).
        { destruct P as [-> | (_ & [-> | [-> | [-> | ->]]])]; eexists; reflexivity. }
        cbn in E. subst l. cbn in St. apply St, digit48.
    - destruct l as [|c l]; [reflexivity|]. unfold b_body. cbn [lgetc].
      destruct (Z.eqb_spec c 48) as [->|N].
      + exfalso. apply St, digit48.
      + exact (b_dig1_none r (c :: l) fuel St). }
  left. inversion D as [|? ? Dc D']; subst.
  assert (Plain : (forall pre' ds' rest', body (word_prefix r) r ((c :: ds) ++ rest) pre' ds' rest' -> pre' = []) ->
                  longest_body (word_prefix r) r ((c :: ds) ++ rest) [] (c :: ds) rest).
  { intros Only. split.
    - lsplit; [reflexivity|now left|easy|assumption].
    - intros pre' ds' rest' B. pose proof (Only _ _ _ B) as ->. destruct B as (E' & _ & _ & D2).
      exact (digits_max r (c :: ds) rest ds' rest' St D2 E'). }
  destruct (Z.eqb_spec c 48) as [->|N].
  2:{ exists [], (c :: ds), rest. split.
      - apply Plain. intros pre' ds' rest' (E' & P & _).
        destruct P as [-> | [-> | (_ & [-> | [-> | [-> | ->]]])]]; [reflexivity|..]; cbn in E'; congruence.
      - unfold b_body. cbn [app lgetc]. destruct (Z.eqb_spec c 48); [congruence|].
        change (Some (c, ds ++ rest)) with (lgetc ((c :: ds) ++ rest)).
        apply b_dig1_list; try assumption; try easy. rewrite app_length in Hf. lia. }
  (* a prefix whose last character q1 is followed by digits *)
  assert (Pref : forall pre ds2 rest2, (48 :: ds) ++ rest = pre ++ ds2 ++ rest2 -> word_prefix r pre -> pre <> [] ->
    ds2 <> [] -> Forall (digit r) ds2 -> stops r rest2 ->
    longest_body (word_prefix r) r ((48 :: ds) ++ rest) pre ds2 rest2).
  { intros pre ds2 rest2 E2 P Npre Ne D2 St2. split; [now lsplit|].
    intros pre' ds' rest' (E' & P' & Ne' & D3). rewrite E2 in E'.
    destruct ds' as [|x' ds']; [easy|]. inversion D3 as [|? ? D4 D5]; subst.
    destruct ds2 as [|x2 ds2]; [easy|]. inversion D2 as [|? ? D6 D7]; subst.
    assert (pre' = pre \/ pre' = []) as [-> | ->].
    { clear - P P' E' Npre D4 D6.
      destruct P as [-> | [-> | (_ & [-> | [-> | [-> | ->]]])]]; [easy|..];
      (destruct P' as [-> | [-> | (_ & [-> | [-> | [-> | ->]]])]]; [now right|..]; cbn in E'; try discriminate; try (now left);
       injection E' as E'; exfalso; subst;
       first [ revert D4; apply not_digit_x; lia | revert D6; apply not_digit_x; lia ]). }
    - apply app_inv_head in E'. rewrite !app_length. apply Nat.add_le_mono_l.
      exact (digits_max r (x2 :: ds2) rest2 (x' :: ds') rest' St2 D3 E').
    - cbn [app] in E'.
      assert (exists q pre1, pre = 48 :: q :: pre1 /\ (q = 119 \/ q = 120 \/ q = 88)) as (q & pre1 & -> & Hq).
      { destruct P as [-> | [-> | (_ & [-> | [-> | [-> | ->]]])]]; [easy|..]; eexists; eexists; (split; [reflexivity|lia]). }
      cbn [app] in E'. destruct ds' as [|y ds']; [cbn; lia|]. injection E' as _ <- _.
      inversion D5; subst. exfalso. revert Hq. intros Hq. now apply (not_digit_x r q Hq). }
  unfold b_body. cbn [app lgetc Z.eqb Pos.eqb].
  assert (Fold : value r [48] = 0) by reflexivity.
  destruct ds as [|d ds].
  - cbn [app] in *. destruct rest as [|x rest].
    + exists [], [48], []. split; [|reflexivity].
      apply Plain. intros pre' ds' rest' (E' & P & _).
      destruct P as [-> | [-> | (_ & [-> | [-> | [-> | ->]]])]]; [reflexivity|..]; discriminate.
    + cbn [lgetc]. cbn [length] in Hf. destruct (Z.eqb_spec x 119) as [->|Nw].
      * (* 0w *)
        unfold b_hexprefix. destruct (radix_eqb r HEX) eqn:ER; cbn [negb].
        -- assert (HR : r = HEX) by (now destruct r).
           destruct rest as [|y rest].
           ++ exists [], [48], [119]. split; [|reflexivity].
              apply Plain. intros pre' ds' rest' (E' & P & Ne' & _).
              destruct ds' as [|z ds']; [easy|].
              destruct P as [-> | [-> | (_ & [-> | [-> | [-> | ->]]])]]; [reflexivity|..]; discriminate.
           ++ cbn [lgetc]. cbn [length] in Hf. destruct ((y =? 120) || (y =? 88)) eqn:Ey.
              ** destruct (split_digits r rest) as (ds2 & rest2 & E2 & D2 & St2).
                 destruct ds2 as [|d2 ds2].
                 { cbn in E2. subst rest2. exists [], [48], (119 :: y :: rest). split.
                   - apply Plain. intros pre' ds' rest' (E' & P & Ne' & D3).
                     destruct ds' as [|z ds']; [easy|]. inversion D3 as [|? ? D4 _]; subst z.
                     destruct P as [-> | [-> | (_ & [-> | [-> | [-> | ->]]])]]; [reflexivity|..]; cbn in E';
                       try discriminate; injection E' as E'; subst; exfalso;
                       first [ now cbn in St2 | revert D4; apply not_digit_x; lia].
                   - now apply b_getdigs_none. }
                 exists [48; 119; y], (d2 :: ds2), rest2. split.
                 { apply Pref; try easy; [cbn; now rewrite E2|].
                   right. right. split; [assumption|]. right. right.
                   assert (y = 120 \/ y = 88) as [-> | ->] by lia; [now left|now right]. }
                 rewrite E2. apply b_getdigs_some; try assumption; try easy. rewrite <- E2. lia.
              ** destruct (split_digits r (y :: rest)) as (ds2 & rest2 & E2 & D2 & St2).
                 destruct ds2 as [|d2 ds2].
                 { cbn in E2. subst rest2. exists [], [48], (119 :: y :: rest). split.
                   - apply Plain. intros pre' ds' rest' (E' & P & Ne' & D3).
                     destruct ds' as [|z ds']; [easy|]. inversion D3 as [|? ? D4 _]; subst z.
                     destruct P as [-> | [-> | (_ & [-> | [-> | [-> | ->]]])]]; [reflexivity|..]; cbn in E';
                       try discriminate; injection E' as E'; subst; exfalso;
                       first [ now cbn in St2 | revert D4; apply not_digit_x; lia | lia].
                   - now apply b_getdigs_none. }
                 exists [48; 119], (d2 :: ds2), rest2. split.
                 { apply Pref; try easy; [cbn; now rewrite E2|]. right. now left. }
                 rewrite E2. apply b_getdigs_some; try assumption; try easy. rewrite <- E2. cbn [length]. lia.
        -- destruct (split_digits r rest) as (ds2 & rest2 & E2 & D2 & St2).
           destruct ds2 as [|d2 ds2].
           { cbn in E2. subst rest2. exists [], [48], (119 :: rest). split.
             - apply Plain. intros pre' ds' rest' (E' & P & Ne' & D3).
               destruct ds' as [|z ds']; [easy|]. inversion D3 as [|? ? D4 _]; subst z.
               destruct P as [-> | [-> | (-> & _)]]; [reflexivity| |discriminate]. cbn in E'.
               injection E' as E'; subst; exfalso; now cbn in St2.
             - now apply b_getdigs_none. }
           exists [48; 119], (d2 :: ds2), rest2. split.
           { apply Pref; try easy; [cbn; now rewrite E2|]. right. now left. }
           rewrite E2. apply b_getdigs_some; try assumption; try easy. rewrite <- E2. lia.
      * unfold b_hexprefix. destruct (radix_eqb r HEX) eqn:ER; cbn [negb].
        -- assert (HR : r = HEX) by (now destruct r). cbn [lgetc].
           destruct ((x =? 120) || (x =? 88)) eqn:Ex.
           ++ destruct (split_digits r rest) as (ds2 & rest2 & E2 & D2 & St2).
              destruct ds2 as [|d2 ds2].
              { cbn in E2. subst rest2. exists [], [48], (x :: rest). split.
                - apply Plain. intros pre' ds' rest' (E' & P & Ne' & D3).
                  destruct ds' as [|z ds']; [easy|]. inversion D3 as [|? ? D4 _]; subst z.
                  destruct P as [-> | [-> | (_ & [-> | [-> | [-> | ->]]])]]; [reflexivity|..]; cbn in E';
                    try discriminate; injection E' as E'; subst; exfalso;
                    first [ now cbn in St2 | revert D4; apply not_digit_x; lia | lia].
                - now apply b_getdigs_none. }
              exists [48; x], (d2 :: ds2), rest2. split.
              { apply Pref; try easy; [cbn; now rewrite E2|].
                right. right. split; [assumption|].
                assert (x = 120 \/ x = 88) as [-> | ->] by lia; [now left|right; now left]. }
              rewrite E2. apply b_getdigs_some; try assumption; try easy. rewrite <- E2. lia.
           ++ exists [], [48], (x :: rest). split.
              { apply Plain. intros pre' ds' rest' (E' & P & Ne' & D3).
                destruct P as [-> | [-> | (_ & [-> | [-> | [-> | ->]]])]]; [reflexivity|..]; cbn in E';
                  injection E' as E'; subst; exfalso; lia. }
              now apply b_getdigs_none.
        -- exists [], [48], (x :: rest). split.
           { apply Plain. intros pre' ds' rest' (E' & P & Ne' & D3).
             destruct P as [-> | [-> | (-> & _)]]; [reflexivity| |discriminate]. cbn in E'.
             injection E' as E'; subst; exfalso; lia. }
           now apply b_getdigs_none.
  - cbn [app lgetc]. inversion D' as [|? ? Dd _]; subst.
    assert (d =? 119 = false) as -> by (destruct (Z.eqb_spec d 119); [exfalso; revert Dd; apply not_digit_x; lia|reflexivity]).
    exists [], (48 :: d :: ds), rest. split.
    + apply Plain. intros pre' ds' rest' (E' & P & _). 
      destruct P as [-> | [-> | (_ & [-> | [-> | [-> | ->]]])]]; [reflexivity|..]; cbn in E';
          injection E' as -> E'; exfalso; revert Dd; apply not_digit_x; lia.
    + rewrite value_cons0. unfold b_hexprefix.
      assert (G : b_getdigs lgetc r fuel ((d :: ds) ++ rest) ((d :: ds) ++ rest)
                  = chk8 (value r (d :: ds)) rest).
      { apply b_getdigs_some; try assumption; try easy. cbn [length app] in Hf |- *. lia. }
      destruct (radix_eqb r HEX); cbn [negb]; [|exact G].
      cbn [lgetc app]. 
      assert ((d =? 120) || (d =? 88) = false) as ->.
      { destruct (_ || _) eqn:Ed; [|reflexivity]. exfalso. revert Dd. apply not_digit_x. lia. }
      exact G.
Qed.

Lemma b_scan_list r l fuel : (length l < fuel)%nat ->
  (exists p rest v, longest_numeral (word_numeral r) l p rest v /\
     b_scan lgetc r fuel l = chk8 v rest) \/
  (no_numeral (word_numeral r) l /\ b_scan lgetc r fuel l = Ret None).
Proof.
  intros Hf. destruct (split_spaces l) as (ws & l1 & E & W & N).
  assert (Hl : (length ws + length l1 < fuel)%nat) by (rewrite E, app_length in Hf; exact Hf).
  unfold b_scan. rewrite E. rewrite dropl_list by (try assumption; lia). cbn [bind].
  fold (b_body lgetc r fuel l1).
  assert (Shape : forall p rest v, ws ++ l1 = p ++ rest -> word_numeral r p v ->
    exists pre ds, p = ws ++ pre ++ ds /\ body (word_prefix r) r l1 pre ds rest).
  { intros p rest v Ep (ws' & pre & ds & -> & W' & P & Ne & D & ->).
    rewrite <- !app_assoc in Ep.
    destruct ds as [|d ds]; [easy|]. inversion D as [|? ? Dd _]; subst.
    assert (nospace (pre ++ (d :: ds) ++ rest)) as N'.
    { destruct P as [-> | [-> | (_ & [-> | [-> | [-> | ->]]])]]; cbn; try lia. now apply (digit_nospace r). }
    assert (pre ++ (d :: ds) ++ rest <> []) as Ne'.
    { intros H. apply app_eq_nil in H. now destruct H. }
    destruct (spaces_unique2 _ _ _ _ W W' N N' Ne' Ep) as [-> El].
    exists pre, (d :: ds). split; [reflexivity|]. now lsplit. }
  destruct (b_body_list r l1 fuel ltac:(lia)) as [(pre & ds & rest & (B & Mx) & Ev)|(NB & Ev)].
  - left. exists (ws ++ pre ++ ds), rest, (value r ds). split; [|exact Ev].
    destruct B as (E2 & P & Ne & D). split; [|split].
    + rewrite E2 at 1. rewrite <- !app_assoc. reflexivity.
    + exists ws, pre, ds. now lsplit.
    + intros p' rest' v' Ep Np. destruct (Shape _ _ _ Ep Np) as (pre' & ds' & -> & B').
      specialize (Mx _ _ _ B'). rewrite !(app_length ws). lia.
  - right. split; [|exact Ev]. intros p' rest' v' Ep Np.
    destruct (Shape _ _ _ Ep Np) as (pre' & ds' & -> & B'). exact (NB _ _ _ B').
Qed.


Section Sim8.
Context {S : Type}.
Variable getc : S -> option (Z * S).
Variable R : S -> list Z -> Prop.
Hypothesis step : forall s l, R s l ->
  match l with [] => getc s = None | c :: l' => exists s', getc s = Some (c, s') /\ R s' l' end.
Notation Rres := (Scan_Proofs3.Rres R).
Notation Rinp := (Scan_Proofs3.Rinp R).
Let getc_sim := Scan_Proofs3.getc_sim getc R step.
Let dropl_sim := Scan_Proofs3.dropl_sim getc R step.
Lemma b_return_sim v s l : R s l -> Rres (b_return v s) (b_return v l).
Proof. intros H. unfold b_return. destruct (v <? 256); cbn; auto. Qed.
Lemma Rres_bind {A} (x : outcome A) f g : (forall a, Rres (f a) (g a)) -> Rres (bind x f) (bind x g).
Proof. intros H. destruct x; cbn; auto. Qed.
Lemma or_zero_sim8 s l x y : R s l -> Rres x y ->
  Rres (do res <- x; match res with None => b_return 0 s | Some _ => Ret res end)
       (do res <- y; match res with None => b_return 0 l | Some _ => Ret res end).
Proof.
  intros H Q. destruct x as [[[v1 s1]|]| | |], y as [[[v2 l2]|]| | |]; cbn in Q |- *; try easy.
Qed.
Lemma b_digr_sim r fuel : forall v s l, R s l -> Rres (b_digr getc r fuel v s) (b_digr lgetc r fuel v l).
Proof.
  induction fuel as [|fuel IH]; intros v s l H; cbn [b_digr]; [exact Logic.I|].
  pose proof (getc_sim s l H) as Q.
  destruct (getc s) as [[c s1]|], (lgetc l) as [[d l1]|]; cbn in Q; try easy; [|now apply b_return_sim].
  destruct Q as [-> Q]. destruct (radix_digit r d); [|now apply b_return_sim].
  apply Rres_bind. intros m. apply Rres_bind. intros hv. apply Rres_bind. intros v'. now apply IH.
Qed.
Lemma b_dig1_sim r fuel x y : Rinp x y -> Rres (b_dig1 getc r fuel x) (b_dig1 lgetc r fuel y).
Proof.
  intros Q. destruct x as [[c s]|], y as [[d l]|]; cbn in Q; try easy. destruct Q as [-> Q].
  cbn [b_dig1]. destruct (radix_digit r d); [|exact Logic.I].
  apply Rres_bind. intros hv. now apply b_digr_sim.
Qed.
Lemma b_getdigs_sim r fuel s l s1 l1 : R s l -> R s1 l1 ->
  Rres (b_getdigs getc r fuel s s1) (b_getdigs lgetc r fuel l l1).
Proof. intros H Q. unfold b_getdigs. apply or_zero_sim8; [assumption|]. now apply b_dig1_sim, getc_sim. Qed.
Lemma b_hexprefix_sim r fuel s l s1 l1 : R s l -> R s1 l1 ->
  Rres (b_hexprefix getc r fuel s s1) (b_hexprefix lgetc r fuel l l1).
Proof.
  intros H Q. unfold b_hexprefix. destruct (negb _); [now apply b_getdigs_sim|].
  pose proof (getc_sim s1 l1 Q) as Q2.
  destruct (getc s1) as [[c s2]|] eqn:E1, (lgetc l1) as [[d1 l2]|] eqn:E2; cbn in Q2; try easy.
  destruct Q2 as [-> Q2]. destruct (_ || _); now apply b_getdigs_sim.
Qed.
Lemma b_scan_sim r fuel s l : R s l -> Rres (b_scan getc r fuel s) (b_scan lgetc r fuel l).
Proof.
  intros H. unfold b_scan. pose proof (dropl_sim isSpace fuel s l H) as Q.
  destruct (dropl getc isSpace fuel s) as [s0| | |], (dropl lgetc isSpace fuel l) as [l0| | |]; cbn [bind] in *; try easy.
  pose proof (getc_sim s0 l0 Q) as Q2. pose proof (b_dig1_sim r fuel _ _ Q2) as DS.
  destruct (getc s0) as [[c s1]|] eqn:E1, (lgetc l0) as [[d1 l1]|] eqn:E2; cbn in Q2; try easy.
  destruct Q2 as [-> Q2]. destruct (d1 =? 48); [|exact DS].
  pose proof (getc_sim s1 l1 Q2) as Q3.
  destruct (getc s1) as [[c s2]|] eqn:E3, (lgetc l1) as [[d2 l2]|] eqn:E4; cbn in Q3; try easy.
  destruct Q3 as [-> Q3]. destruct (d2 =? 119); now apply b_hexprefix_sim.
Qed.
End Sim8.
