(** Proofs about number scanning, continued: white space and signs, arbitrary readers, formatting. *)
From Verif Require Import Base Arith_Model Arith_Proofs Arith_WordProofs Scan_Model Scan_Spec Scan_Proofs Scan_Proofs2.

(** *** White space *)
Lemma space_dec c : isSpace c = true <-> space c.
Proof.
  unfold isSpace, space. cbn. split.
  - intros H. assert (c = 32 \/ c = 9 \/ c = 10 \/ c = 11 \/ c = 12 \/ c = 13) by lia. intuition congruence.
  - intros [<-|[<-|[<-|[<-|[<-|[<-|[]]]]]]]; reflexivity.
Qed.
Definition nospace (l : list Z) : Prop := match l with [] => True | c :: _ => ~ space c end.

Lemma split_spaces l : exists ws rest, l = ws ++ rest /\ Forall space ws /\ nospace rest.
Proof.
  induction l as [|c l (ws & rest & E & D & St)]; [exists [], []; repeat split; constructor|].
  destruct (isSpace c) eqn:Ec.
  - apply space_dec in Ec. exists (c :: ws), rest. rewrite E. repeat split; [now constructor|assumption].
  - exists [], (c :: l). repeat split; [constructor|]. cbn. intros H. apply space_dec in H. congruence.
Qed.

Lemma dropl_list ws rest : Forall space ws -> nospace rest -> forall fuel, (length ws < fuel)%nat ->
  dropl lgetc isSpace fuel (ws ++ rest) = Ret rest.
Proof.
  intros W N. induction W as [|c ws Hc W IH]; intros [|fuel] Hf; cbn [length] in Hf; try lia.
  - cbn [app dropl]. destruct rest as [|c rest]; [reflexivity|]. cbn [lgetc].
    destruct (isSpace c) eqn:E; [|reflexivity]. apply space_dec in E. now cbn in N.
  - cbn [app dropl lgetc]. rewrite (proj2 (space_dec c) Hc). apply IH. lia.
Qed.

Lemma spaces_unique ws l ws' l' : Forall space ws -> Forall space ws' -> nospace l -> nospace l' ->
  l <> [] -> l' <> [] -> ws ++ l = ws' ++ l' -> ws = ws' /\ l = l'.
Proof.
  intros W. revert ws'. induction W as [|c ws Hc W IH]; intros ws' W' N N' E1 E2 E.
  - destruct W' as [|c' ws' Hc' W']; [now split|]. cbn in E. subst l. now cbn in N.
  - destruct W' as [|c' ws' Hc' W'].
    + cbn in E. subst l'. now cbn in N'.
    + injection E as -> E. destruct (IH ws' W' N N' E1 E2 E) as [-> ->]. now split.
Qed.
Lemma spaces_unique2 ws l ws' l' : Forall space ws -> Forall space ws' -> nospace l -> nospace l' ->
  l' <> [] -> ws ++ l = ws' ++ l' -> ws = ws' /\ l = l'.
Proof.
  intros W. revert ws'. induction W as [|c ws Hc W IH]; intros ws' W' N N' E2 E.
  - destruct W' as [|c' ws' Hc' W']; [now split|]. cbn in E. subst l. now cbn in N.
  - destruct W' as [|c' ws' Hc' W'].
    + cbn in E. subst l'. now cbn in N'.
    + injection E as -> E. destruct (IH ws' W' N N' E2 E) as [-> ->]. now split.
Qed.

Lemma digit_nospace r c : digit r c -> ~ space c.
Proof. intros D H. apply digit_char in D. cbn in H. lia. Qed.

(** *** Integer numerals in a list *)
Lemma int_scan_list r l fuel : (length l < fuel)%nat ->
  (exists p rest v, longest_numeral (int_numeral r) l p rest v /\
     int_scan lgetc r fuel l = ok_or_overflow v (Some (v, rest))) \/
  (no_numeral (int_numeral r) l /\ int_scan lgetc r fuel l = Ret None).
Proof.
  intros Hf. destruct (split_spaces l) as (ws & l1 & E & W & N).
  assert (Hl : (length ws + length l1 < fuel)%nat) by (rewrite E, app_length in Hf; exact Hf).
  unfold int_scan. rewrite E. rewrite dropl_list by (try assumption; lia). cbn [bind].
  (* a numeral prefix of the list starts with the same white space *)
  assert (Shape : forall p rest v, ws ++ l1 = p ++ rest -> int_numeral r p v ->
    exists sg s pre ds, p = ws ++ sg ++ pre ++ ds /\ signed sg s /\ l1 = sg ++ pre ++ ds ++ rest /\
      body (int_prefix r) r (pre ++ ds ++ rest) pre ds rest).
  { intros p rest v Ep (ws' & sg & s & pre & ds & -> & W' & Sg & P & Ne & D & ->).
    rewrite <- !app_assoc in Ep.
    destruct ds as [|d ds]; [easy|]. inversion D as [|? ? Dd _]; subst.
    assert (nospace (sg ++ pre ++ (d :: ds) ++ rest)) as N'.
    { destruct Sg as [(-> & _)|[(-> & _)|[(-> & _)|(-> & _)]]]; cbn; try lia.
      destruct P as [-> | (_ & [-> | ->])]; cbn; try lia. now apply (digit_nospace r). }
    assert (sg ++ pre ++ (d :: ds) ++ rest <> []) as Ne'.
    { intros H. apply app_eq_nil in H. destruct H as [_ H]. apply app_eq_nil in H. now destruct H. }
    destruct (spaces_unique2 _ _ _ _ W W' N N' Ne' Ep) as [-> El].
    exists sg, s, pre, (d :: ds). split; [reflexivity|]. split; [assumption|]. split; [exact El|]. now lsplit. }
  (* reduce to the body after a sign *)
  assert (Main : forall sg s l2, (s = 1 \/ s = -1) -> signed sg s -> l1 = sg ++ l2 ->
      (forall sg' s' pre ds rest, signed sg' s' -> body (int_prefix r) r (pre ++ ds ++ rest) pre ds rest ->
         l1 = sg' ++ pre ++ ds ++ rest -> sg' = sg) ->
      (exists p rest v, longest_numeral (int_numeral r) (ws ++ l1) p rest v /\
         hexopt lgetc r fuel s (lgetc l2) = ok_or_overflow v (Some (v, rest))) \/
      (no_numeral (int_numeral r) (ws ++ l1) /\ hexopt lgetc r fuel s (lgetc l2) = Ret None)).
  { intros sg s l2 Hs Sg El Only.
    assert (Hl2 : (length l2 <= fuel)%nat) by (rewrite El, app_length in Hl; lia).
    destruct (hexopt_list r s Hs l2 fuel Hl2) as [(pre & ds & rest & (B & Mx) & Ev)|(NB & Ev)].
    - left. exists (ws ++ sg ++ pre ++ ds), rest, (s * value r ds). split; [|exact Ev].
      destruct B as (E2 & P & Ne & D). split; [|split].
      + rewrite El, E2, <- !app_assoc. reflexivity.
      + exists ws, sg, s, pre, ds. now lsplit.
      + intros p' rest' v' Ep Np. destruct (Shape _ _ _ Ep Np) as (sg' & s' & pre' & ds' & -> & Sg' & El' & B').
        pose proof (Only _ _ _ _ _ Sg' B' El') as ->. rewrite El in El'. apply app_inv_head in El'.
        rewrite <- El' in B'. specialize (Mx _ _ _ B'). rewrite !(app_length ws), !(app_length sg). lia.
    - right. split; [|exact Ev]. intros p' rest' v' Ep Np.
      destruct (Shape _ _ _ Ep Np) as (sg' & s' & pre' & ds' & -> & Sg' & El' & B').
      pose proof (Only _ _ _ _ _ Sg' B' El') as ->. rewrite El in El'. apply app_inv_head in El'.
      rewrite <- El' in B'. exact (NB _ _ _ B'). }
  destruct l1 as [|c l1].
  - specialize (Main [] 1 [] (or_introl eq_refl) (or_introl (conj eq_refl eq_refl)) eq_refl). cbn [lgetc sign].
    apply Main. intros sg' s' pre ds rest _ B H. symmetry in H. now apply app_eq_nil in H.
  - cbn [lgetc sign].
    assert (HeadSign : forall sg0, c = sg0 -> (sg0 = 126 \/ sg0 = 45 \/ sg0 = 43) ->
      forall sg' s' pre ds rest, signed sg' s' -> body (int_prefix r) r (pre ++ ds ++ rest) pre ds rest ->
         c :: l1 = sg' ++ pre ++ ds ++ rest -> sg' = [sg0]).
    { intros sg0 -> H0 sg' s' pre ds rest Sg (_ & P & Ne & D) Eq.
      destruct Sg as [(-> & _)|[(-> & _)|[(-> & _)|(-> & _)]]]; cbn in Eq; try congruence.
      exfalso. destruct ds as [|d ds]; [easy|]. inversion D as [|? ? Dd _]; subst.
      destruct P as [-> | (_ & [-> | ->])]; cbn in Eq; try (injection Eq as Eq; lia).
      injection Eq as -> _. apply digit_char in Dd. lia. }
    destruct (Z.eqb_spec c 126) as [->|N1].
    { apply (Main [126] (-1) l1); [now right| |reflexivity|].
      - right. right. now left.
      - intros. eapply HeadSign; try eassumption; lia. }
    destruct (Z.eqb_spec c 45) as [->|N2].
    { apply (Main [45] (-1) l1); [now right| |reflexivity|].
      - right. right. now right.
      - intros. eapply HeadSign; try eassumption; lia. }
    destruct (Z.eqb_spec c 43) as [->|N3].
    { apply (Main [43] 1 l1); [now left| |reflexivity|].
      - right. now left.
      - intros. eapply HeadSign; try eassumption; lia. }
    change (Some (c, l1)) with (lgetc (c :: l1)).
    apply (Main [] 1 (c :: l1)); [now left|now left|reflexivity|].
    intros sg' s' pre ds rest Sg _ Eq.
    destruct Sg as [(-> & _)|[(-> & _)|[(-> & _)|(-> & _)]]]; cbn in Eq; congruence.
Qed.

Lemma word_scan_list r l fuel : (length l < fuel)%nat ->
  (exists p rest v, longest_numeral (word_numeral r) l p rest v /\
     word_scan lgetc r fuel l = Ret (Some (tagw (v mod two63), rest))) \/
  (no_numeral (word_numeral r) l /\ word_scan lgetc r fuel l = Ret None).
Proof.
  intros Hf. destruct (split_spaces l) as (ws & l1 & E & W & N).
  assert (Hl : (length ws + length l1 < fuel)%nat) by (rewrite E, app_length in Hf; exact Hf).
  unfold word_scan. rewrite E. rewrite dropl_list by (try assumption; lia). cbn [bind].
  fold (word_body lgetc r fuel l1).
  assert (Shape : forall p rest v, ws ++ l1 = p ++ rest -> word_numeral r p v ->
    exists pre ds, p = ws ++ pre ++ ds /\ body (word_prefix r) r l1 pre ds rest).
  { intros p rest v Ep (ws' & pre & ds & -> & W' & P & Ne & D & ->).
    rewrite <- !app_assoc in Ep.
    destruct ds as [|d ds]; [easy|]. inversion D as [|? ? Dd _]; subst.
    assert (nospace (pre ++ (d :: ds) ++ rest)) as N'.
    { destruct P as [-> | [-> | (_ & [-> | [-> | [-> | ->]]])]]; cbn; try lia. now apply (digit_nospace r). }
    assert (pre ++ (d :: ds) ++ rest <> []) as Ne'.
    { intros H. apply app_eq_nil in H. now destruct H. }
    destruct (spaces_unique2 _ _ _ _ W W' N N' Ne' Ep) as [-> El].
    exists pre, (d :: ds). split; [reflexivity|]. now lsplit. }
  destruct (word_body_list r l1 fuel ltac:(lia)) as [(pre & ds & rest & (B & Mx) & Ev)|(NB & Ev)].
  - left. exists (ws ++ pre ++ ds), rest, (value r ds). split; [|exact Ev].
    destruct B as (E2 & P & Ne & D). split; [|split].
    + rewrite E2 at 1. rewrite <- !app_assoc. reflexivity.
    + exists ws, pre, ds. now lsplit.
    + intros p' rest' v' Ep Np. destruct (Shape _ _ _ Ep Np) as (pre' & ds' & -> & B').
      specialize (Mx _ _ _ B'). rewrite !(app_length ws). lia.
  - right. split; [|exact Ev]. intros p' rest' v' Ep Np.
    destruct (Shape _ _ _ Ep Np) as (pre' & ds' & -> & B'). exact (NB _ _ _ B').
Qed.

(** *** Arbitrary readers behave like lists *)
Section Sim.
Context {S : Type}.
Variable getc : S -> option (Z * S).
Variable R : S -> list Z -> Prop.
Hypothesis step : forall s l, R s l ->
  match l with [] => getc s = None | c :: l' => exists s', getc s = Some (c, s') /\ R s' l' end.

Definition Rres (x : outcome (option (Z * S))) (y : outcome (option (Z * list Z))) : Prop :=
  match x, y with
  | Ret None, Ret None => True
  | Ret (Some (v, s)), Ret (Some (w, l)) => v = w /\ R s l
  | Raise e, Raise f => e = f
  | UB, UB => True
  | Diverge, Diverge => True
  | _, _ => False
  end.
Definition Rinp (x : option (Z * S)) (y : option (Z * list Z)) : Prop :=
  match x, y with
  | None, None => True
  | Some (c, s), Some (d, l) => c = d /\ R s l
  | _, _ => False
  end.

Lemma getc_sim s l : R s l -> Rinp (getc s) (lgetc l).
Proof.
  intros H. apply step in H. destruct l as [|c l]; [now rewrite H|].
  destruct H as (s' & -> & H). now split.
Qed.

Lemma Rres_bind {A} (x : outcome A) f g : (forall a, Rres (f a) (g a)) -> Rres (bind x f) (bind x g).
Proof. intros H. destruct x; cbn; auto. Qed.

Ltac inp s l H x := let Q := fresh in pose proof (getc_sim s l H) as Q;
  destruct (getc s) as [[? ?]|], (lgetc l) as [[? ?]|]; cbn in Q |- *; try easy; try (destruct Q as [-> Q]).

Lemma digr_sim r sgn fuel : forall v s l, R s l -> Rres (digr getc r sgn fuel v s) (digr lgetc r sgn fuel v l).
Proof.
  induction fuel as [|fuel IH]; intros v s l H; cbn [digr]; [exact Logic.I|].
  pose proof (getc_sim s l H) as Q.
  destruct (getc s) as [[c s1]|], (lgetc l) as [[d l1]|]; cbn in Q; try easy.
  destruct Q as [-> Q]. destruct (radix_digit r d); [|now split].
  apply Rres_bind. intros hv. apply Rres_bind. intros v'. now apply IH.
Qed.
Lemma dig1_sim r fuel sgn x y : Rinp x y -> Rres (dig1 getc r fuel sgn x) (dig1 lgetc r fuel sgn y).
Proof.
  intros Q. destruct x as [[c s]|], y as [[d l]|]; cbn in Q; try easy. destruct Q as [-> Q].
  cbn [dig1]. destruct (radix_digit r d); [|exact Logic.I].
  apply Rres_bind. intros hv. apply Rres_bind. intros v'. now apply digr_sim.
Qed.
Lemma or_zero_sim (z : Z) s l x y : R s l -> Rres x y ->
  Rres (do res <- x; match res with None => Ret (Some (z, s)) | Some _ => Ret res end)
       (do res <- y; match res with None => Ret (Some (z, l)) | Some _ => Ret res end).
Proof.
  intros H Q. destruct x as [[[v1 s1]|]| | |], y as [[[v2 l2]|]| | |]; cbn in Q |- *; try easy.
Qed.
Lemma getdigs_sim r fuel sgn s l x y : R s l -> Rinp x y ->
  Rres (getdigs getc r fuel sgn s x) (getdigs lgetc r fuel sgn l y).
Proof. intros H Q. unfold getdigs. apply or_zero_sim; [assumption|]. now apply dig1_sim. Qed.
Lemma hexopt_sim r fuel sgn x y : Rinp x y -> Rres (hexopt getc r fuel sgn x) (hexopt lgetc r fuel sgn y).
Proof.
  intros Q. pose proof (dig1_sim r fuel sgn x y Q) as DS.
  destruct x as [[c s]|], y as [[d l]|]; cbn in Q; try easy. destruct Q as [-> Q].
  cbn [hexopt]. destruct (d =? 48); [|exact DS].
  pose proof (getc_sim s l Q) as Q2.
  destruct (negb _); [now apply getdigs_sim|].
  destruct (getc s) as [[c s1]|] eqn:E1, (lgetc l) as [[d1 l1]|] eqn:E2; cbn in Q2; try easy.
  destruct Q2 as [-> Q2]. destruct (_ || _).
  - apply getdigs_sim; [assumption|now apply getc_sim].
  - apply getdigs_sim; [assumption|now split].
Qed.
Lemma sign_sim r fuel x y : Rinp x y -> Rres (sign getc r fuel x) (sign lgetc r fuel y).
Proof.
  intros Q. pose proof (hexopt_sim r fuel 1 x y Q) as HS.
  destruct x as [[c s]|], y as [[d l]|]; cbn in Q; try easy. destruct Q as [-> Q].
  cbn [sign]. repeat (destruct (_ =? _); [apply hexopt_sim; now apply getc_sim|]). exact HS.
Qed.
Lemma dropl_sim p fuel : forall s l, R s l ->
  match dropl getc p fuel s, dropl lgetc p fuel l with
  | Ret s', Ret l' => R s' l' | Diverge, Diverge => True | _, _ => False end.
Proof.
  induction fuel as [|fuel IH]; intros s l H; cbn [dropl]; [exact Logic.I|].
  pose proof (getc_sim s l H) as Q.
  destruct (getc s) as [[c s1]|], (lgetc l) as [[d l1]|]; cbn in Q; try easy.
  destruct Q as [-> Q]. destruct (p d); [now apply IH|exact H].
Qed.
Lemma int_scan_sim r fuel s l : R s l -> Rres (int_scan getc r fuel s) (int_scan lgetc r fuel l).
Proof.
  intros H. unfold int_scan. pose proof (dropl_sim isSpace fuel s l H) as Q.
  destruct (dropl getc isSpace fuel s), (dropl lgetc isSpace fuel l); cbn [bind] in *; try easy.
  now apply sign_sim, getc_sim.
Qed.

Lemma w_digr_sim r fuel : forall v s l, R s l -> Rres (w_digr getc r fuel v s) (w_digr lgetc r fuel v l).
Proof.
  induction fuel as [|fuel IH]; intros v s l H; cbn [w_digr]; [exact Logic.I|].
  pose proof (getc_sim s l H) as Q.
  destruct (getc s) as [[c s1]|], (lgetc l) as [[d l1]|]; cbn in Q; try easy.
  destruct Q as [-> Q]. destruct (radix_digit r d); [|now split].
  apply Rres_bind. intros m. apply Rres_bind. intros hv. apply Rres_bind. intros v'. now apply IH.
Qed.
Lemma w_dig1_sim r fuel x y : Rinp x y -> Rres (w_dig1 getc r fuel x) (w_dig1 lgetc r fuel y).
Proof.
  intros Q. destruct x as [[c s]|], y as [[d l]|]; cbn in Q; try easy. destruct Q as [-> Q].
  cbn [w_dig1]. destruct (radix_digit r d); [|exact Logic.I].
  apply Rres_bind. intros hv. now apply w_digr_sim.
Qed.
Lemma w_getdigs_sim r fuel s l s1 l1 : R s l -> R s1 l1 ->
  Rres (w_getdigs getc r fuel s s1) (w_getdigs lgetc r fuel l l1).
Proof. intros H Q. unfold w_getdigs. apply or_zero_sim; [assumption|]. now apply w_dig1_sim, getc_sim. Qed.
Lemma hexprefix_sim r fuel s l s1 l1 : R s l -> R s1 l1 ->
  Rres (hexprefix getc r fuel s s1) (hexprefix lgetc r fuel l l1).
Proof.
  intros H Q. unfold hexprefix. destruct (negb _); [now apply w_getdigs_sim|].
  pose proof (getc_sim s1 l1 Q) as Q2.
  destruct (getc s1) as [[c s2]|] eqn:E1, (lgetc l1) as [[d1 l2]|] eqn:E2; cbn in Q2; try easy.
  destruct Q2 as [-> Q2]. destruct (_ || _); now apply w_getdigs_sim.
Qed.
Lemma word_scan_sim r fuel s l : R s l -> Rres (word_scan getc r fuel s) (word_scan lgetc r fuel l).
Proof.
  intros H. unfold word_scan. pose proof (dropl_sim isSpace fuel s l H) as Q.
  destruct (dropl getc isSpace fuel s) as [s0| | |], (dropl lgetc isSpace fuel l) as [l0| | |]; cbn [bind] in *; try easy.
  pose proof (getc_sim s0 l0 Q) as Q2. pose proof (w_dig1_sim r fuel _ _ Q2) as DS.
  destruct (getc s0) as [[c s1]|] eqn:E1, (lgetc l0) as [[d1 l1]|] eqn:E2; cbn in Q2; try easy.
  destruct Q2 as [-> Q2]. destruct (d1 =? 48); [|exact DS].
  pose proof (getc_sim s1 l1 Q2) as Q3.
  destruct (getc s1) as [[c s2]|] eqn:E3, (lgetc l1) as [[d2 l2]|] eqn:E4; cbn in Q3; try easy.
  destruct Q3 as [-> Q3]. destruct (d2 =? 119); now apply hexprefix_sim.
Qed.
End Sim.

(** the relation for a finite source *)
Definition at_ {S} (getc : S -> option (Z * S)) (s0 : S) (l0 : list Z) (s : S) (l : list Z) : Prop :=
  (exists p, l0 = p ++ l /\ reads getc s0 p s) /\ contents getc s l.
Lemma reads_snoc {S} (getc : S -> option (Z * S)) s0 p s c s' :
  reads getc s0 p s -> getc s = Some (c, s') -> reads getc s0 (p ++ [c]) s'.
Proof.
  induction 1 as [s|s c' s1 l s2 G H IH]; intros E.
  - econstructor; [exact E|constructor].
  - econstructor; [exact G|]. now apply IH.
Qed.
Lemma at_step {S} (getc : S -> option (Z * S)) s0 l0 s l : at_ getc s0 l0 s l ->
  match l with [] => getc s = None | c :: l' => exists s', getc s = Some (c, s') /\ at_ getc s0 l0 s' l' end.
Proof.
  intros ((p & E & Rd) & (e & Re & Ge)). inversion Re as [|? c s1 l' ? G Re']; subst.
  - assumption.
  - exists s1. split; [assumption|]. split.
    + exists (p ++ [c]). split; [now rewrite <- app_assoc|]. now apply reads_snoc with s.
    + now exists e.
Qed.
Lemma at_start {S} (getc : S -> option (Z * S)) s0 l0 : contents getc s0 l0 -> at_ getc s0 l0 s0 l0.
Proof. intros H. split; [|assumption]. exists []. split; [reflexivity|constructor]. Qed.
Lemma at_reads {S} (getc : S -> option (Z * S)) s0 l0 p s rest : l0 = p ++ rest -> at_ getc s0 l0 s rest ->
  reads getc s0 p s.
Proof. intros E ((p' & E' & H) & _). rewrite E in E'. apply app_inv_tail in E'. now subst. Qed.
