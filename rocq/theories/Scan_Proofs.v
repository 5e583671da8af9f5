(** Proofs about number scanning. *)
From Verif Require Import Base Arith_Model Arith_Proofs Arith_WordProofs Scan_Model Scan_Spec.

(** *** Arithmetic on untagged integers *)
Lemma unbox_if (b : bool) z : unbox (if b then Ret (2 * z + 1) else Raise Overflow)
  = if b then Ret z else Raise Overflow.
Proof. destruct b; [|reflexivity]. cbn [unbox bind]. now rewrite Long_val_odd. Qed.

Lemma iadd_eq x y : in_int x -> in_int y -> iadd x y = if in_intb (x + y) then Ret (x + y) else Raise Overflow.
Proof. intros. unfold iadd. rewrite !Val_long_int, add_spec by assumption. apply unbox_if. Qed.
Lemma isub_eq x y : in_int x -> in_int y -> isub x y = if in_intb (x - y) then Ret (x - y) else Raise Overflow.
Proof. intros. unfold isub. rewrite !Val_long_int, sub_spec by assumption. apply unbox_if. Qed.
Lemma imul_eq x y : in_int x -> in_int y -> -20 <= x <= 20 ->
  imul x y = if in_intb (x * y) then Ret (x * y) else Raise Overflow.
Proof. intros. unfold imul. rewrite !Val_long_int, mul_spec by (assumption || lia). apply unbox_if. Qed.
Lemma ineg_eq x : in_int x -> ineg x = if in_intb (- x) then Ret (- x) else Raise Overflow.
Proof. intros. unfold ineg. rewrite Val_long_int, neg_spec by assumption. apply unbox_if. Qed.

Lemma in_int_small x : -1000 <= x <= 1000 -> in_int x.
Proof. unfold in_int, two62. lia. Qed.
Lemma in_intb_yes x : in_int x -> in_intb x = true.
Proof. apply in_intb_spec. Qed.
Lemma in_intb_no x : ~ in_int x -> in_intb x = false.
Proof. intros H. destruct (in_intb x) eqn:E; [|reflexivity]. now apply in_intb_spec in E. Qed.

Lemma base_pos r : 2 <= base r <= 16.
Proof. destruct r; cbn; lia. Qed.
Lemma factor_base r : radix_factor r = base r.
Proof. now destruct r. Qed.

(** *** Digits *)
Lemma dval_range r c : digit r c -> 0 <= dval c < base r.
Proof.
  intros (v & E & L). unfold dval. rewrite E. unfold digit_value in E.
  destruct (_ && _) eqn:E1 in E; [injection E as <-; lia|].
  destruct (_ && _) eqn:E2 in E; [injection E as <-; lia|].
  destruct (_ && _) eqn:E3 in E; [injection E as <-; lia|discriminate].
Qed.

Lemma digit_dec r c : radix_digit r c = true <-> digit r c.
Proof.
  unfold digit, digit_value. split.
  - intros H.
    destruct r; cbn in H |- *; unfold isDigit, isHexDigit in H;
    (destruct ((48 <=? c) && (c <=? 57)) eqn:E1; [eexists; split; [reflexivity|lia]|]);
    (destruct ((65 <=? c) && (c <=? 70)) eqn:E2; [eexists; split; [reflexivity|lia]|]);
    (destruct ((97 <=? c) && (c <=? 102)) eqn:E3; [eexists; split; [reflexivity|lia]|]); lia.
  - intros (v & E & L).
    destruct ((48 <=? c) && (c <=? 57)) eqn:E1; [injection E as <-; destruct r; cbn in *; unfold isDigit, isHexDigit; lia|].
    destruct ((65 <=? c) && (c <=? 70)) eqn:E2; [injection E as <-; destruct r; cbn in *; unfold isDigit, isHexDigit; lia|].
    destruct ((97 <=? c) && (c <=? 102)) eqn:E3; [injection E as <-; destruct r; cbn in *; unfold isDigit, isHexDigit; lia|].
    discriminate.
Qed.
Lemma digit_no r c : radix_digit r c = false <-> ~ digit r c.
Proof. rewrite <- digit_dec. destruct (radix_digit r c); intuition congruence. Qed.

Lemma digit_char r c : digit r c -> (48 <= c <= 57) \/ (65 <= c <= 70) \/ (97 <= c <= 102).
Proof.
  intros (v & E & L). unfold digit_value in E.
  destruct (_ && _) eqn:E1 in E; [lia|].
  destruct (_ && _) eqn:E2 in E; [lia|].
  destruct (_ && _) eqn:E3 in E; [lia|discriminate].
Qed.

Lemma hexval_eq r c : digit r c -> hexval c = Ret (dval c).
Proof.
  intros D. pose proof (digit_char r c D) as H. unfold hexval, dval, digit_value.
  destruct ((48 <=? c) && (c <=? 57)) eqn:E1.
  - rewrite isub_eq by (apply in_int_small; lia). now rewrite in_intb_yes by (apply in_int_small; lia).
  - rewrite isub_eq by (apply in_int_small; lia). rewrite in_intb_yes by (apply in_int_small; lia).
    cbn [bind]. unfold imod. rewrite !Val_long_int by (apply in_int_small; lia).
    rewrite mod_spec by (try lia; apply in_int_small; lia). cbn [unbox bind]. rewrite Long_val_odd.
    destruct ((65 <=? c) && (c <=? 70)) eqn:E2; [f_equal; lia|].
    destruct ((97 <=? c) && (c <=? 102)) eqn:E3; [f_equal; lia|lia].
Qed.

(** *** Value of digit strings from a start value *)
Definition valueF r a ds := fold_left (fun a c => a * base r + dval c) ds a.
Lemma valueF_ge r ds : forall a, 0 <= a -> Forall (digit r) ds -> a <= valueF r a ds.
Proof.
  induction ds as [|c ds IH]; intros a Ha D; [cbn; lia|].
  inversion D as [|? ? D1 D2]; subst. pose proof (dval_range r c D1). pose proof (base_pos r).
  cbn [valueF fold_left]. fold (valueF r (a * base r + dval c) ds).
  specialize (IH (a * base r + dval c) ltac:(nia) D2). nia.
Qed.
Lemma valueF_0 r ds : valueF r 0 ds = value r ds.
Proof. reflexivity. Qed.
Lemma value_cons0 r ds : value r (48 :: ds) = value r ds.
Proof. reflexivity. Qed.
Lemma value_app r ds1 ds2 : value r (ds1 ++ ds2) = valueF r (value r ds1) ds2.
Proof. unfold value, valueF. now rewrite fold_left_app. Qed.

(** *** Reading from a list *)
Definition lgetc (l : list Z) : option (Z * list Z) := match l with [] => None | c :: l => Some (c, l) end.

Definition stops (r : radix) (rest : list Z) : Prop :=
  match rest with [] => True | c :: _ => ~ digit r c end.

Definition ok_or_overflow {A} (v : Z) (a : A) : outcome A := if in_intb v then Ret a else Raise Overflow.

Lemma digr_list r s (Hs : s = 1 \/ s = -1) ds rest : Forall (digit r) ds -> stops r rest ->
  forall fuel a, (length ds < fuel)%nat -> 0 <= a -> in_int (s * a) ->
  digr lgetc r s fuel (s * a) (ds ++ rest)
  = ok_or_overflow (s * valueF r a ds) (Some (s * valueF r a ds, rest)).
Proof.
  intros D St. induction D as [|c ds Dc D IH]; intros [|fuel] a Hf Ha Hin; cbn in Hf; try lia.
  - cbn [app digr valueF fold_left]. unfold ok_or_overflow.
    rewrite in_intb_yes by assumption.
    destruct rest as [|c rest]; cbn [lgetc]; [reflexivity|].
    cbn in St. apply digit_no in St. now rewrite St.
  - cbn [app digr lgetc]. pose proof (proj2 (digit_dec r c) Dc) as Dt. rewrite Dt, (hexval_eq r c Dc).
    cbn [bind]. rewrite factor_base.
    pose proof (dval_range r c Dc) as Hv. pose proof (base_pos r) as Hb.
    cbn [valueF fold_left]. fold (valueF r (a * base r + dval c) ds).
    pose proof (valueF_ge r ds (a * base r + dval c) ltac:(nia) D) as Hge.
    assert (Step : next_val (base r) s (s * a) (dval c)
                   = ok_or_overflow (s * (a * base r + dval c)) (s * (a * base r + dval c))).
    { unfold next_val, ok_or_overflow.
      rewrite (imul_eq (base r) (s * a)) by (try assumption; try lia; apply in_int_small; lia).
      destruct (in_intb (base r * (s * a))) eqn:E1.
      - apply in_intb_spec in E1. destruct Hs as [-> | ->]; cbn [bind Z.eqb Pos.eqb].
        + rewrite iadd_eq by (try assumption; apply in_int_small; lia).
          now replace (base r * (1 * a) + dval c) with (1 * (a * base r + dval c)) by lia.
        + rewrite isub_eq by (try assumption; apply in_int_small; lia).
          now replace (base r * (-1 * a) - dval c) with (-1 * (a * base r + dval c)) by lia.
      - assert (~ in_int (base r * (s * a))) as E2 by (intros E2; apply in_intb_yes in E2; congruence).
        rewrite (in_intb_no (s * (a * base r + dval c))).
        + now destruct Hs as [-> | ->].
        + unfold in_int, two62 in *. destruct Hs as [-> | ->]; lia. }
    rewrite Step. unfold ok_or_overflow at 1. destruct (in_intb (s * (a * base r + dval c))) eqn:E.
    + cbn [bind]. apply in_intb_spec in E. apply IH; try lia; try assumption. 
    + cbn [bind]. unfold ok_or_overflow. rewrite in_intb_no; [reflexivity|].
      intros E2. assert (in_int (s * (a * base r + dval c))) as E3.
      { unfold in_int, two62 in *. destruct Hs as [-> | ->]; nia. }
      apply in_intb_yes in E3. congruence.
Qed.

Lemma dig1_list r s (Hs : s = 1 \/ s = -1) ds rest fuel : Forall (digit r) ds -> stops r rest -> ds <> [] ->
  (length ds <= fuel)%nat ->
  dig1 lgetc r fuel s (lgetc (ds ++ rest)) = ok_or_overflow (s * value r ds) (Some (s * value r ds, rest)).
Proof.
  intros D St Ne Hf. destruct ds as [|c ds]; [easy|]. inversion D as [|? ? Dc D']; subst.
  cbn [app lgetc dig1]. rewrite (proj2 (digit_dec r c) Dc), (hexval_eq r c Dc). cbn [bind].
  pose proof (dval_range r c Dc) as Hv. pose proof (base_pos r) as Hb.
  rewrite imul_eq by (try apply in_int_small; lia).
  rewrite in_intb_yes by (apply in_int_small; lia). cbn [bind].
  cbn in Hf. rewrite digr_list by (try assumption; try lia; apply in_int_small; lia).
  unfold value. cbn [fold_left]. now replace (0 * base r + dval c) with (dval c) by lia.
Qed.

Lemma dig1_none r s l fuel : stops r l -> dig1 lgetc r fuel s (lgetc l) = Ret None.
Proof.
  intros St. destruct l as [|c l]; [reflexivity|]. cbn in *. now rewrite (proj2 (digit_no r c) St).
Qed.

(** every list splits into its digits and a rest that does not start with a digit *)
Lemma split_digits r l : exists ds rest, l = ds ++ rest /\ Forall (digit r) ds /\ stops r rest.
Proof.
  induction l as [|c l (ds & rest & E & D & St)]; [exists [], []; repeat split; constructor|].
  destruct (radix_digit r c) eqn:Ec.
  - apply digit_dec in Ec. exists (c :: ds), rest. rewrite E. repeat split; [now constructor|assumption].
  - apply digit_no in Ec. exists [], (c :: l). repeat split; [constructor|exact Ec].
Qed.

Lemma digits_max r ds rest ds' rest' : stops r rest -> Forall (digit r) ds' ->
  ds ++ rest = ds' ++ rest' -> (length ds' <= length ds)%nat.
Proof.
  revert ds'. induction ds as [|c ds IH]; intros ds' St D' E.
  - destruct ds' as [|c' ds']; [cbn; lia|]. cbn in E. subst rest. inversion D'; subst. now cbn in St.
  - destruct ds' as [|c' ds']; [cbn; lia|]. injection E as -> E. inversion D'; subst.
    cbn. specialize (IH ds' St ltac:(assumption) E). lia.
Qed.

Lemma stops_digits r l ds rest : stops r l -> l = ds ++ rest -> Forall (digit r) ds -> ds = [].
Proof.
  intros St -> D. destruct ds as [|c ds]; [reflexivity|]. inversion D; subst. now cbn in St.
Qed.

Lemma digit48 r : digit r 48.
Proof. exists 0. split; [reflexivity|]. pose proof (base_pos r). lia. Qed.
Lemma not_digit_x r c : c = 119 \/ c = 120 \/ c = 88 -> ~ digit r c.
Proof. intros H D. apply digit_char in D. lia. Qed.

(** a possible body: prefix and digits *)
Definition body (P : list Z -> Prop) r l pre ds rest :=
  l = pre ++ ds ++ rest /\ P pre /\ ds <> [] /\ Forall (digit r) ds.
Definition longest_body P r l pre ds rest :=
  body P r l pre ds rest /\
  forall pre' ds' rest', body P r l pre' ds' rest' -> (length (pre' ++ ds') <= length (pre ++ ds))%nat.

Ltac lsplit := unfold body; repeat match goal with |- _ /\ _ => split end.

Lemma hexopt_list r s (Hs : s = 1 \/ s = -1) l fuel : (length l <= fuel)%nat ->
  (exists pre ds rest, longest_body (int_prefix r) r l pre ds rest /\
     hexopt lgetc r fuel s (lgetc l) = ok_or_overflow (s * value r ds) (Some (s * value r ds, rest))) \/
  ((forall pre ds rest, ~ body (int_prefix r) r l pre ds rest) /\
   hexopt lgetc r fuel s (lgetc l) = Ret None).
Proof.
  intros Hf. destruct (split_digits r l) as (ds & rest & E & D & St).
  destruct ds as [|c ds].
  { right. cbn in E. subst rest. split.
    - intros pre ds rest (E & P & Ne & D').
      destruct P as [-> | (-> & [-> | ->])].
      + cbn in E. apply (stops_digits r l ds rest) in E; [easy|assumption|assumption].
      + cbn in E. subst l. cbn in St. apply St, digit48.
      + cbn in E. subst l. cbn in St. apply St, digit48.
    - destruct l as [|c l]; [reflexivity|]. cbn [lgetc hexopt].
      destruct (Z.eqb_spec c 48) as [->|N].
      + exfalso. apply St, digit48.
      + exact (dig1_none r s (c :: l) fuel St). }
  left. inversion D as [|? ? Dc D']; subst.
  assert (Plain : (forall pre' ds' rest', body (int_prefix r) r ((c :: ds) ++ rest) pre' ds' rest' -> pre' = []) ->
                  longest_body (int_prefix r) r ((c :: ds) ++ rest) [] (c :: ds) rest).
  { intros Only. split.
    - lsplit; [reflexivity|now left|easy|assumption].
    - intros pre' ds' rest' B. pose proof (Only _ _ _ B) as ->. destruct B as (E' & _ & _ & D2).
      exact (digits_max r (c :: ds) rest ds' rest' St D2 E'). }
  destruct (Z.eqb_spec c 48) as [->|N].
  2:{ exists [], (c :: ds), rest. split.
      - apply Plain. intros pre' ds' rest' (E' & P & _). destruct P as [-> | (_ & [-> | ->])]; [reflexivity| |]; cbn in E'; congruence.
      - cbn [app lgetc hexopt]. destruct (Z.eqb_spec c 48); [congruence|].
        change (Some (c, ds ++ rest)) with (lgetc ((c :: ds) ++ rest)).
        apply dig1_list; try assumption; try easy. rewrite app_length in Hf. lia. }
  (* starts with 0 *)
  assert (Tail : getdigs lgetc r fuel s (ds ++ rest) (lgetc (ds ++ rest))
                 = ok_or_overflow (s * value r (48 :: ds)) (Some (s * value r (48 :: ds), rest))).
  { unfold getdigs. destruct ds as [|d ds].
    - cbn [app]. rewrite dig1_none by assumption. cbn [bind].
      unfold ok_or_overflow, value. cbn. replace (s * _) with 0 by lia. reflexivity.
    - rewrite dig1_list by (try assumption; try easy; rewrite app_length in Hf; cbn [length] in *; lia).
      rewrite value_cons0. unfold ok_or_overflow. destruct (in_intb _); reflexivity. }
  cbn [app lgetc hexopt Z.eqb Pos.eqb].
  destruct (radix_eqb r HEX) eqn:ER; cbn [negb].
  2:{ exists [], (48 :: ds), rest. split; [|exact Tail]. apply Plain.
      intros pre' ds' rest' (E' & P & _). destruct P as [-> | (-> & _)]; [reflexivity|discriminate]. }
  destruct ds as [|d ds].
  - cbn [app] in *. destruct rest as [|x rest].
    + exists [], [48], []. split.
      * apply Plain. intros pre' ds' rest' (E' & P & _). destruct P as [-> | (_ & [-> | ->])]; [reflexivity| |]; discriminate.
      * cbn [lgetc]. unfold ok_or_overflow, value. cbn. now replace (s * _) with 0 by lia.
    + cbn [lgetc]. destruct ((x =? 120) || (x =? 88)) eqn:Ex.
      * destruct (split_digits r rest) as (ds2 & rest2 & E2 & D2 & St2).
        assert (HR : r = HEX) by (now destruct r).
        destruct ds2 as [|d2 ds2].
        -- cbn in E2. subst rest2. exists [], [48], (x :: rest). split.
           ++ apply Plain. intros pre' ds' rest' (E' & P & Ne & D3).
              destruct P as [-> | (_ & [-> | ->])]; [reflexivity| |]; cbn in E'; injection E' as -> E';
                apply (stops_digits r rest ds' rest') in E'; try assumption; easy.
           ++ unfold getdigs. rewrite dig1_none by assumption. cbn [bind].
              unfold ok_or_overflow, value. cbn. now replace (s * _) with 0 by lia.
        -- exists [48; x], (d2 :: ds2), rest2. split.
           ++ split.
              ** lsplit; [cbn; now rewrite E2| |easy|assumption]. right. split; [assumption|].
                 assert (x = 120 \/ x = 88) as [-> | ->] by lia; [now left|now right].
              ** intros pre' ds' rest' (E' & P & Ne & D3). destruct P as [-> | (_ & Hp)].
                 { cbn [app] in E'. destruct ds' as [|c' [|c'' ds']]; [easy|cbn; lia|].
                   injection E' as <- <- E'. inversion D3 as [|? ? _ D4]; subst. inversion D4 as [|? ? D5 _]; subst.
                   exfalso. revert D5. apply not_digit_x. lia. }
                 { assert (pre' = [48; x]) as ->.
                   { destruct Hp as [-> | ->]; cbn in E'; injection E' as -> E'; reflexivity. }
                   cbn in E'. injection E' as E'. rewrite E2 in E'.
                   rewrite !app_length. apply Nat.add_le_mono_l.
                   eapply (digits_max r (d2 :: ds2)); eassumption. }
           ++ unfold getdigs. rewrite E2.
              rewrite dig1_list; try assumption; try easy.
              ** unfold ok_or_overflow. destruct (in_intb _); reflexivity.
              ** rewrite E2 in Hf. cbn [length app] in Hf. rewrite app_length in Hf. cbn [length]. lia.
      * exists [], [48], (x :: rest). split; [|exact Tail].
        apply Plain. intros pre' ds' rest' (E' & P & _). destruct P as [-> | (_ & [-> | ->])]; [reflexivity| |];
          cbn in E'; injection E' as -> E'; lia.
  - cbn [app lgetc]. inversion D' as [|? ? Dd _]; subst.
    assert ((d =? 120) || (d =? 88) = false) as ->.
    { destruct (_ || _) eqn:Ed; [|reflexivity]. exfalso. revert Dd. apply not_digit_x. lia. }
    exists [], (48 :: d :: ds), rest. split; [|exact Tail].
    apply Plain. intros pre' ds' rest' (E' & P & _). destruct P as [-> | (_ & [-> | ->])]; [reflexivity| |];
          cbn in E'; injection E' as -> E'; exfalso; revert Dd; apply not_digit_x; lia.
Qed.
