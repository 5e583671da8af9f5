(** Proofs about mosmllex, part 2: let-names, encode_casedef and encode_lexdef. *)
From Verif Require Import Base Lex_Model Lex_Spec Lex_Proofs.

(** ** Expansion of let-names *)

Lemma name_eqb_spec a b : name_eqb a b = true <-> a = b.
Proof. unfold name_eqb. destruct (list_eq_dec Z.eq_dec a b); split; congruence. Qed.

Lemma name_eqb_neq a b : name_eqb a b = false -> a <> b.
Proof. intros E ->. unfold name_eqb in E. destruct (list_eq_dec Z.eq_dec b b); congruence. Qed.

(** [nls] holds the expansions of the definitions [ds] (most recent first) *)
Definition expands (ds nls : list (name * re)) : Prop :=
  Forall2 (fun d n => fst d = fst n) ds nls /\
  forall s ds1 r ds2, ds = ds1 ++ (s, r) :: ds2 -> (forall r', ~ In (s, r') ds1) ->
  exists r', lookupN s nls = Ret r' /\ (forall w, matches ds2 r w <-> matches [] r' w) .

Lemma lookupN_cases s nls : (exists r, lookupN s nls = Ret r) \/ lookupN s nls = Raise Subscript.
Proof. induction nls as [|[a v] l IH]; cbn; [auto|]. destruct (name_eqb s a); eauto. Qed.

Lemma first_def (s : name) (ds : list (name * re)) :
  (exists ds1 r ds2, ds = ds1 ++ (s, r) :: ds2 /\ (forall r', ~ In (s, r') ds1)) \/
  (forall r', ~ In (s, r') ds).
Proof.
  induction ds as [|[a v] ds IH]; [right; auto|].
  destruct (name_eqb s a) eqn:E.
  - apply name_eqb_spec in E as ->. left. exists [], v, ds. split; [reflexivity|auto].
  - apply name_eqb_neq in E.
    destruct IH as [(ds1 & r & ds2 & -> & H1)|H1].
    + left. exists ((a, v) :: ds1), r, ds2. split; [reflexivity|].
      intros r' [[= -> ->]|H2]; [congruence|]. eapply H1; eauto.
    + right. intros r' [[= -> ->]|H2]; [congruence|]. eapply H1; eauto.
Qed.

Lemma lookupN_none s nls : lookupN s nls = Raise Subscript <-> ~ In s (map fst nls).
Proof.
  induction nls as [|[a v] l IH]; cbn; [tauto|].
  destruct (name_eqb s a) eqn:E.
  - apply name_eqb_spec in E as ->. split; [discriminate|tauto].
  - apply name_eqb_neq in E. rewrite IH. intuition congruence.
Qed.

Lemma expands_names ds nls : expands ds nls -> map fst ds = map fst nls.
Proof. intros [F _]. induction F; cbn; congruence. Qed.

Lemma expandRe_spec ds nls : expands ds nls -> forall r r', expandRe nls r = Ret r' ->
  forall w, matches ds r w <-> matches [] r' w.
Proof.
  intros HE. induction r; cbn; intros r' H w.
  - injection H as <-. split; inversion 1; constructor.
  - injection H as <-. split; inversion 1; now constructor.
  - destruct (expandRe nls r1) as [a|?| |] eqn:E1; cbn in H; try discriminate.
    destruct (expandRe nls r2) as [b|?| |] eqn:E2; cbn in H; try discriminate. injection H as <-.
    specialize (IHr1 _ eq_refl). specialize (IHr2 _ eq_refl).
    split; inversion 1; subst; constructor; first [now apply IHr1|now apply IHr2].
  - destruct (expandRe nls r1) as [a|?| |] eqn:E1; cbn in H; try discriminate.
    destruct (expandRe nls r2) as [b|?| |] eqn:E2; cbn in H; try discriminate. injection H as <-.
    specialize (IHr1 _ eq_refl w). specialize (IHr2 _ eq_refl w).
    split; inversion 1; subst; (apply m_alt1; tauto) || (apply m_alt2; tauto).
  - destruct (expandRe nls r) as [a|?| |] eqn:E1; cbn in H; try discriminate. injection H as <-.
    specialize (IHr _ eq_refl). split; intros M.
    + remember (Repetition r) as q eqn:Eq. revert IHr E1 Eq. clear HE.
      induction M; intros IHr E1 Eq; try discriminate; injection Eq as ->; [constructor|].
      apply m_rep1; [now apply IHr|]. apply IHM2; auto.
    + remember (Repetition a) as q eqn:Eq. remember (@nil (name * re)) as e eqn:Ee. revert Eq.
      induction M; intros Eq; try discriminate; injection Eq as ->; [constructor|]. subst.
      apply m_rep1; [now apply IHr|]. apply IHM2; auto.
  - destruct HE as [F HE]. destruct (lookupN_cases s nls) as [[r0 E]|E]; rewrite E in H.
    + injection H as <-.
      destruct (first_def s ds) as [(ds1 & r & ds2 & Eds & H1)|H1].
      * destruct (HE _ _ _ _ Eds H1) as (r1 & E1 & M1). rewrite E in E1. injection E1 as <-.
        rewrite <- M1. split.
        -- inversion 1 as [| | | | | | |d1 d2 s' r2 w' N2 M2 E3]; subst.
           symmetry in E3. apply HE in E3 as (r3 & E4 & M4); [|exact N2]. rewrite E in E4. injection E4 as <-.
           apply M1, M4, M2.
        -- intros M2. rewrite Eds. now constructor.
      * exfalso.
        assert (IN : In s (map fst nls)).
        { destruct (in_dec (list_eq_dec Z.eq_dec) s (map fst nls)) as [I0|I0]; [auto|].
          apply lookupN_none in I0. congruence. }
        assert (EN : map fst ds = map fst nls) by (clear -F; induction F; cbn; congruence).
        rewrite <- EN in IN. apply in_map_iff in IN as ([s' r'] & E1 & I1). cbn in E1. subst s'.
        now apply (H1 r').
    + discriminate.
Qed.

Lemma expandLets_gen l : forall ds nls nls', expands ds nls -> appM expandLet l nls = Ret nls' ->
  expands (rev l ++ ds) nls'.
Proof.
  induction l as [|[a v] l IH]; cbn; intros ds nls nls' HE H.
  - injection H as <-. exact HE.
  - unfold expandLet in H at 1. cbn in H.
    destruct (expandRe nls v) as [v'|?| |] eqn:E; cbn in H; try discriminate.
    rewrite <- app_assoc. cbn. eapply IH; [|exact H]. split.
    + constructor; [reflexivity|]. apply HE.
    + intros s ds1 r ds2 Eds N. destruct ds1 as [|[b u] ds1]; cbn in Eds.
      * injection Eds as -> -> ->. exists v'. cbn.
        assert (EB : name_eqb s s = true) by now apply name_eqb_spec. rewrite EB.
        split; [auto|]. intros w. exact (expandRe_spec _ _ HE _ _ E w).
      * injection Eds as -> -> Eds. cbn.
        destruct (name_eqb s b) eqn:EB.
        -- apply name_eqb_spec in EB as ->. exfalso. apply (N u). left. reflexivity.
        -- destruct HE as [_ HE]. apply HE with (1 := Eds). intros r' Hr. apply (N r'). right. exact Hr.
Qed.

Lemma expandLets_spec l nls : expandLets l = Ret nls -> expands (rev l) nls.
Proof.
  intros H. rewrite <- (app_nil_r (rev l)). eapply expandLets_gen; [|exact H].
  split; [constructor|]. intros s ds1 r ds2 E. destruct ds1; discriminate.
Qed.

(** classes of the expansions *)
Lemma expandRe_classes (P : list Z -> Prop) nls :
  (forall s r, In (s, r) nls -> Forall P (classes r)) ->
  forall r r', expandRe nls r = Ret r' -> Forall P (classes r) -> Forall P (classes r').
Proof.
  intros HN. induction r; cbn; intros r' H F.
  - injection H as <-. constructor.
  - injection H as <-. exact F.
  - destruct (expandRe nls r1) as [a|?| |] eqn:E1; cbn in H; try discriminate.
    destruct (expandRe nls r2) as [b|?| |] eqn:E2; cbn in H; try discriminate. injection H as <-.
    apply Forall_app in F as [F1 F2]. cbn. apply Forall_app. auto.
  - destruct (expandRe nls r1) as [a|?| |] eqn:E1; cbn in H; try discriminate.
    destruct (expandRe nls r2) as [b|?| |] eqn:E2; cbn in H; try discriminate. injection H as <-.
    apply Forall_app in F as [F1 F2]. cbn. apply Forall_app. auto.
  - destruct (expandRe nls r) as [a|?| |] eqn:E1; cbn in H; try discriminate. injection H as <-. cbn. auto.
  - destruct (lookupN_cases s nls) as [[r0 E]|E]; rewrite E in H; [|discriminate]. injection H as <-.
    clear -E HN. induction nls as [|[b v] l IH]; cbn in E; [discriminate|].
    destruct (name_eqb s b).
    + injection E as <-. eapply HN. left. reflexivity.
    + apply IH; [|exact E]. intros s' r' H'. apply (HN s'). right. exact H'.
Qed.

Lemma expandLets_classes (P : list Z -> Prop) l : forall nls nls',
  (forall s r, In (s, r) nls -> Forall P (classes r)) ->
  (forall s r, In (s, r) l -> Forall P (classes r)) ->
  appM expandLet l nls = Ret nls' ->
  forall s r, In (s, r) nls' -> Forall P (classes r).
Proof.
  induction l as [|[a v] l IH]; cbn; intros nls nls' HN HL H.
  - injection H as <-. exact HN.
  - unfold expandLet in H at 1. cbn in H.
    destruct (expandRe nls v) as [v'|?| |] eqn:E; cbn in H; try discriminate.
    eapply IH; [| |exact H].
    + intros s r [[= -> ->]|Hr]; [|eauto]. eapply expandRe_classes; eauto.
    + intros s r Hr. eapply HL. right. exact Hr.
Qed.

(** expansion leaves no names *)
Fixpoint noname (r : re) : Prop :=
  match r with
  | Name _ => False
  | Sequence r1 r2 | Alternative r1 r2 => noname r1 /\ noname r2
  | Repetition r1 => noname r1
  | _ => True
  end.

Lemma lookupN_in s nls r : lookupN s nls = Ret r -> In (s, r) nls.
Proof.
  induction nls as [|[a v] l IH]; cbn; [discriminate|].
  destruct (name_eqb s a) eqn:E; [|auto]. apply name_eqb_spec in E as ->. intros [= ->]. auto.
Qed.

Lemma expandRe_noname nls : (forall s r, In (s, r) nls -> noname r) ->
  forall r r', expandRe nls r = Ret r' -> noname r'.
Proof.
  intros HN. induction r; cbn; intros r' H.
  - now injection H as <-.
  - now injection H as <-.
  - destruct (expandRe nls r1) as [a|?| |] eqn:E1; cbn in H; try discriminate.
    destruct (expandRe nls r2) as [b|?| |] eqn:E2; cbn in H; try discriminate. injection H as <-. cbn; auto.
  - destruct (expandRe nls r1) as [a|?| |] eqn:E1; cbn in H; try discriminate.
    destruct (expandRe nls r2) as [b|?| |] eqn:E2; cbn in H; try discriminate. injection H as <-. cbn; auto.
  - destruct (expandRe nls r) as [a|?| |] eqn:E1; cbn in H; try discriminate. injection H as <-. cbn. auto.
  - destruct (lookupN_cases s nls) as [[r0 E]|E]; rewrite E in H; [|discriminate]. injection H as <-.
    eapply HN, lookupN_in, E.
Qed.

Lemma expandLets_noname l : forall nls nls', (forall s r, In (s, r) nls -> noname r) ->
  appM expandLet l nls = Ret nls' -> forall s r, In (s, r) nls' -> noname r.
Proof.
  induction l as [|[a v] l IH]; cbn; intros nls nls' HN H.
  - injection H as <-. exact HN.
  - unfold expandLet in H at 1. cbn in H.
    destruct (expandRe nls v) as [v'|?| |] eqn:E; cbn in H; try discriminate.
    eapply IH; [|exact H].
    intros s r [[= -> ->]|Hr]; [|eauto]. eapply expandRe_noname; eauto.
Qed.

(** expansion succeeds when the names are defined *)
Lemma expandRe_ret nls r : (forall s, In s (names r) -> In s (map fst nls)) -> exists r', expandRe nls r = Ret r'.
Proof.
  induction r; cbn; intros H; eauto.
  - destruct IHr1 as [a ->]; [intros; apply H, in_app_iff; auto|].
    destruct IHr2 as [b ->]; [intros; apply H, in_app_iff; auto|]. cbn. eauto.
  - destruct IHr1 as [a ->]; [intros; apply H, in_app_iff; auto|].
    destruct IHr2 as [b ->]; [intros; apply H, in_app_iff; auto|]. cbn. eauto.
  - destruct IHr as [a ->]; [auto|]. cbn. eauto.
  - destruct (lookupN_cases s nls) as [[r0 E]|E]; rewrite E; [eauto|].
    apply lookupN_none in E. destruct E. auto.
Qed.

(** ** encode_regexp succeeds on expanded expressions *)
Lemma encode_regexp_ret r : noname r -> forall st, exists r' st', encode_regexp r st = Ret (r', st').
Proof.
  induction r; cbn; intros N st; try (destruct st); eauto; try tauto.
  - destruct N as [N1 N2]. destruct (IHr1 N1 (l, z)) as (a & st1 & E1). rewrite E1. cbn.
    destruct (IHr2 N2 st1) as (b & st2 & E2). rewrite E2. cbn. eauto.
  - destruct N as [N1 N2]. destruct (IHr1 N1 (l, z)) as (a & st1 & E1). rewrite E1. cbn.
    destruct (IHr2 N2 st1) as (b & st2 & E2). rewrite E2. cbn. eauto.
  - destruct (IHr N (l, z)) as (a & st1 & E1). rewrite E1. cbn. eauto.
Qed.

(** ** encode_casedef *)

(** positions and actions of an expression lie in given intervals *)
Definition between (r : regexp) (lo hi alo ahi : Z) : Prop :=
  forall t, In t (poss r) ->
    match t with OnChars p => lo <= p < hi | ToAction a => alo <= a < ahi end.

Fixpoint number (cnt : Z) (cd : casedef) : list (Z * location) :=
  match cd with [] => [] | c :: r => (cnt, snd c) :: number (cnt + 1) r end.

(** [e] encodes the regular expression of a rule *)
Definition encodes (T : list (list Z)) (c : re * location) (e : regexp) : Prop :=
  (forall w, matches [] (fst c) w <-> exists u, lang e u /\ Forall2 (spells T) u w) /\
  (forall t, In t (poss e) -> exists p, t = OnChars p).

Lemma addacts_spec cd : forall reg0 chars n cnt acts0 reg chars' n' cnt' acts lo alo,
  appM addact cd (reg0, ((chars, n), cnt, acts0)) = Ret (reg, ((chars', n'), cnt', acts)) ->
  n = Z.of_nat (length chars) -> lo <= n -> alo <= cnt ->
  linear reg0 -> between reg0 lo n alo cnt ->
  n' = Z.of_nat (length chars') /\ n <= n' /\
  rev chars' = rev chars ++ concat (map (fun c => classes (fst c)) cd) /\
  cnt' = cnt + Z.of_nat (length cd) /\
  acts = rev (number cnt cd) ++ acts0 /\
  linear reg /\ between reg lo n' alo cnt' /\
  (forall T, (exists ext, T = rev chars' ++ ext) ->
   exists es, Forall2 (encodes T) cd es /\
     forall u, lang reg u <-> lang reg0 u \/
       exists i e u1, nth_error es i = Some e /\ u = u1 ++ [ToAction (cnt + Z.of_nat i)] /\ lang e u1).
Proof.
  induction cd as [|c cd IH]; intros reg0 chars n cnt acts0 reg chars' n' cnt' acts lo alo H Hn Hlo Halo L B.
  - cbn in H. injection H as <- <- <- <- <-. cbn.
    split; [auto|]. split; [lia|]. split; [now rewrite app_nil_r|]. split; [lia|]. split; [auto|].
    split; [auto|]. split; [auto|]. intros T _. exists []. split; [constructor|].
    intros u. split; [auto|]. intros [Hu|(i & e & u1 & E & _)]; [auto|]. now destruct i.
  - cbn [appM] in H. unfold addact in H at 1.
    destruct (encode_regexp (fst c) (chars, n)) as [[e [c1 n1]]|?| |] eqn:E1; cbn [bind] in H; try discriminate.
    destruct (encode_regexp_spec _ _ _ _ _ _ E1 Hn) as (A1 & A2 & A3 & A4 & A5 & A6).
    assert (B1 : between (Alt reg0 (Seq e (Action cnt))) lo n1 alo (cnt + 1)).
    { intros t. cbn. rewrite !in_app_iff. intros [Ht|[Ht|[<-|[]]]].
      - specialize (B t Ht). destruct t; lia.
      - destruct (A5 _ Ht) as (p & -> & R). lia.
      - lia. }
    assert (L1 : linear (Alt reg0 (Seq e (Action cnt)))).
    { cbn. split; [auto|]. split; [split; [auto|split; [auto|]]|].
      - intros t Ht [<-|[]]. destruct (A5 _ Ht) as (p & [=] & R).
      - intros t H1. rewrite in_app_iff. specialize (B t H1). intros [H2|[<-|[]]].
        + destruct (A5 _ H2) as (p & -> & R). lia.
        + lia. }
    assert (Hlo1 : lo <= n1) by lia. assert (Halo1 : alo <= cnt + 1) by lia.
    destruct (IH _ _ _ _ _ _ _ _ _ _ lo alo H A1 Hlo1 Halo1 L1 B1)
      as (C1 & C2 & C3 & C4 & C5 & C6 & C7 & C8).
    split; [auto|]. split; [lia|].
    split; [cbn; rewrite C3, A3, <- app_assoc; reflexivity|].
    split; [cbn [length]; lia|].
    split; [cbn; rewrite C5, <- app_assoc; reflexivity|].
    split; [auto|]. split; [auto|].
    intros T [ext ET]. destruct (C8 T (ex_intro _ ext ET)) as (es & F & HL).
    exists (e :: es). split.
    + constructor; [|exact F]. split.
      * intros w. apply A6. exists (concat (map (fun c => classes (fst c)) cd) ++ ext).
        rewrite ET, C3. now rewrite <- app_assoc.
      * intros t Ht. destruct (A5 _ Ht) as (p & -> & _). eauto.
    + intros u. rewrite HL. split.
      * intros [Hu|(i & e' & u1 & E & Eu & Hu)].
        -- apply lang_alt in Hu as [Hu|Hu]; [auto|]. right.
           destruct (lang_seq _ _ _ Hu) as (w1 & w2 & -> & H1 & H2). apply lang_action in H2 as ->.
           exists O, e, w1. cbn. rewrite Z.add_0_r. auto.
        -- right. exists (S i), e', u1. split; [exact E|]. split; [|exact Hu].
           rewrite Eu. do 3 f_equal. lia.
      * intros [Hu|(i & e' & u1 & E & Eu & Hu)]; [left; now apply l_alt1|].
        destruct i as [|i]; cbn in E.
        -- injection E as <-. left. apply l_alt2. subst u. cbn. rewrite Z.add_0_r.
           constructor; [exact Hu|constructor].
        -- right. exists i, e', u1. split; [exact E|]. split; [|exact Hu]. rewrite Eu. do 3 f_equal. lia.
Qed.

Lemma addacts_ret cd : (forall c, In c cd -> noname (fst c)) -> forall s, exists s', appM addact cd s = Ret s'.
Proof.
  induction cd as [|c cd IH]; cbn; intros N s; [eauto|].
  destruct s as [reg [[st cnt] acts]]. cbn.
  destruct (encode_regexp_ret (fst c) (N c (or_introl eq_refl)) st) as (e & st1 & E). rewrite E. cbn.
  apply IH. auto.
Qed.

(** ** encode_lexdef *)

Lemma Forall2_impl {A B} (P Q : A -> B -> Prop) l1 l2 :
  (forall a b, P a b -> Q a b) -> Forall2 P l1 l2 -> Forall2 Q l1 l2.
Proof. intros I H. induction H; constructor; auto. Qed.

(** what the encoding of an entry point is, for the table T: *)
Definition entry_ok (T : list (list Z)) (acts : list (list (Z * location)))
    (d : name * casedef) (x : name * regexp) : Prop :=
  fst d = fst x /\ linear (snd x) /\
  exists cnt es, 0 <= cnt /\ Forall2 (encodes T) (snd d) es /\
    (forall i c, nth_error (snd d) i = Some c -> In (cnt + Z.of_nat i, snd c) (concat acts)) /\
    forall u, lang (snd x) u <-> u = [] \/
       exists i e u1, nth_error es i = Some e /\ u = u1 ++ [ToAction (cnt + Z.of_nat i)] /\ lang e u1.

Lemma number_in i : forall cd cnt c, nth_error cd i = Some c -> In (cnt + Z.of_nat i, snd c) (number cnt cd).
Proof.
  induction i as [|i IH]; intros [|c0 cd] cnt c E; cbn in E; try discriminate; cbn [number In].
  - injection E as ->. left. f_equal. lia.
  - right. replace (cnt + Z.of_nat (S i)) with (cnt + 1 + Z.of_nat i) by lia. now apply IH.
Qed.
Lemma number_range cd : forall cnt k l, In (k, l) (number cnt cd) -> cnt <= k < cnt + Z.of_nat (length cd).
Proof.
  induction cd as [|c cd IH]; cbn; intros cnt k l; [tauto|].
  intros [[= -> _]|H]; [lia|]. apply IH in H. lia.
Qed.
Lemma number_nodup cd : forall cnt, NoDup (map fst (number cnt cd)).
Proof.
  induction cd as [|c cd IH]; intros cnt; cbn; constructor; [|apply IH].
  intros H. apply in_map_iff in H as ([k l] & E & H). cbn in E. apply number_range in H. lia.
Qed.

Definition enc_entry (d : name * casedef) (s : cstate * Z)
  : outcome (name * (regexp * list (Z * location)) * (cstate * Z)) :=
  do (reg, acts, s1) <- encode_casedef (snd d) s; Ret ((fst d, (reg, acts)), s1).

Lemma enc_entry_unfold d st k : enc_entry d (st, k) =
  match appM addact (snd d) (Empty, (st, k, [])) with
  | Ret (reg, (st1, k1, acts)) => Ret ((fst d, (reg, acts)), (st1, k1))
  | Raise e => Raise e | UB => UB | Diverge => Diverge
  end.
Proof.
  unfold enc_entry, encode_casedef.
  destruct (appM addact (snd d) (Empty, (st, k, []))) as [[reg [[st1 k1] acts]]|?| |]; reflexivity.
Qed.

Definition regs_of (l : list (name * (regexp * list (Z * location)))) : list (name * regexp) :=
  map (fun x => (fst x, fst (snd x))) l.
Definition acts_of (l : list (name * (regexp * list (Z * location)))) : list (list (Z * location)) :=
  map (fun x => snd (snd x)) l.

(** classes of the definition in the order in which they are numbered *)
Fixpoint all_classes (ld : lexdef) : list (list Z) :=
  match ld with [] => [] | d :: r => all_classes r ++ concat (map (fun c => classes (fst c)) (snd d)) end.

Definition disjoint_poss (x y : name * regexp) : Prop :=
  forall t, In t (poss (snd x)) -> In t (poss (snd y)) -> False.

Lemma entry_ok_more T acts acts' d x :
  (forall k, In k (concat acts) -> In k (concat acts')) -> entry_ok T acts d x -> entry_ok T acts' d x.
Proof.
  intros I (E & L & cnt & es & C & F & A & H). split; [auto|]. split; [auto|].
  exists cnt, es. split; [auto|]. split; [auto|]. split; [eauto|exact H].
Qed.

Lemma encode_entries ld : forall l chars n cnt,
  caml_map enc_entry ld (([], 0), 0) = Ret (l, ((chars, n), cnt)) ->
  n = Z.of_nat (length chars) /\ cnt = rule_count ld /\ 0 <= cnt /\
  rev chars = all_classes ld /\
  NoDup (map fst (concat (acts_of l))) /\
  (forall k, In k (map fst (concat (acts_of l))) -> 0 <= k < cnt) /\
  ForallOrdPairs disjoint_poss (regs_of l) /\
  (forall x, In x (regs_of l) -> between (snd x) 0 n 0 cnt) /\
  (forall T, (exists ext, T = rev chars ++ ext) -> Forall2 (entry_ok T (acts_of l)) ld (regs_of l)).
Proof.
  induction ld as [|d ld IH]; intros l chars n cnt H.
  - cbn in H. injection H as <- <- <- <-. cbn.
    split; [auto|]. split; [auto|]. split; [lia|]. split; [auto|]. split; [constructor|].
    split; [tauto|]. split; [constructor|]. split; [tauto|]. intros; constructor.
  - cbn [caml_map] in H.
    destruct (caml_map enc_entry ld ([], 0, 0)) as [[ys [[c1 n1] k1]]|?| |] eqn:E1; cbn [bind] in H; try discriminate.
    rewrite enc_entry_unfold in H.
    match type of H with context [match ?X with Ret _ => _ | _ => _ end] =>
      destruct X as [[reg [[[c2 n2] k2] acts]]|?| |] eqn:E2 end; cbn [bind] in H; try discriminate.
    injection H as <- <- <- <-.
    destruct (IH _ _ _ _ eq_refl) as (A1 & A2 & A3 & A4 & A5 & A6 & A7 & A8 & A9).
    assert (B0 : between Empty n1 n1 k1 k1) by (intros t []).
    destruct (addacts_spec _ _ _ _ _ _ _ _ _ _ _ n1 k1 E2 A1 (Z.le_refl _) (Z.le_refl _) I B0)
      as (C1 & C2 & C3 & C4 & C5 & C6 & C7 & C8).
    rewrite app_nil_r in C5.
    split; [auto|]. split; [cbn; lia|]. split; [lia|].
    split; [cbn; rewrite C3, A4; reflexivity|].
    split; [|split; [|split; [|split]]].
    + cbn. rewrite map_app.
      assert (D : forall k, In k (map fst acts) -> k1 <= k < k2).
      { intros k Hk. rewrite C5, map_rev, <- in_rev in Hk. apply in_map_iff in Hk as ([k' l'] & <- & Hk).
        apply number_range in Hk. cbn. lia. }
      assert (ND : NoDup (map fst acts)).
      { rewrite C5, map_rev. apply NoDup_rev, number_nodup. }
      clear -D ND A5 A6. induction (map fst acts) as [|k ks IHk]; cbn; [exact A5|].
      inversion ND as [|? ? N1 N2]; subst. constructor.
      * rewrite in_app_iff. intros [H|H]; [auto|]. apply A6 in H. specialize (D k (or_introl eq_refl)). lia.
      * apply IHk; [intros k' Hk'; apply D; now right|auto].
    + cbn. intros k. rewrite map_app, in_app_iff. intros [Hk|Hk].
      * rewrite C5, map_rev, <- in_rev in Hk. apply in_map_iff in Hk as ([k' l'] & <- & Hk).
        apply number_range in Hk. cbn. lia.
      * apply A6 in Hk. lia.
    + cbn. constructor; [|exact A7].
      apply Forall_forall. intros x Hx t H1 H2. cbn in H1. specialize (C7 t H1). specialize (A8 x Hx t H2).
      destruct t; lia.
    + cbn. intros x [<-|Hx] t Ht; cbn in *.
      * specialize (C7 t Ht). destruct t; lia.
      * specialize (A8 x Hx t Ht). destruct t; lia.
    + intros T [ext ET]. cbn. constructor.
      * destruct (C8 T (ex_intro _ ext ET)) as (es & F & HL).
        split; [reflexivity|]. split; [exact C6|]. exists k1, es. split; [lia|]. split; [exact F|]. split.
        -- intros i c Hc. cbn. rewrite in_app_iff. left. rewrite C5, <- in_rev. now apply number_in.
        -- intros u. cbn [snd]. rewrite HL. split.
           ++ intros [Hu|Hu]; [left; now apply lang_empty|auto].
           ++ intros [->|Hu]; [left; constructor|auto].
      * assert (PT : exists ext, T = rev c1 ++ ext).
        { exists (concat (map (fun c => classes (fst c)) (snd d)) ++ ext). rewrite ET, C3. now rewrite <- app_assoc. }
        specialize (A9 T PT). change (map (fun x => snd (snd x)) ys) with (acts_of ys).
        change (map (fun x => (fst x, fst (snd x))) ys) with (regs_of ys). clear -A9.
        eapply Forall2_impl; [|exact A9]. intros dd xx H0.
        eapply entry_ok_more; [|exact H0]. intros k Hk. cbn. rewrite in_app_iff. auto.
Qed.

Lemma encode_entries_ret ld : (forall d c, In d ld -> In c (snd d) -> noname (fst c)) ->
  forall s, exists r, caml_map enc_entry ld s = Ret r.
Proof.
  induction ld as [|d ld IH]; intros N s; cbn [caml_map]; [eauto|].
  destruct (IH (fun d' c H1 H2 => N d' c (or_intror H1) H2) s) as [[ys s1] ->]. cbn [bind].
  destruct s1 as [st k]. rewrite enc_entry_unfold.
  destruct (addacts_ret (snd d) (fun c H => N d c (or_introl eq_refl) H) (Empty, (st, k, []))) as [[reg [[st2 k2] acts]] E].
  match goal with |- context [match ?X with Ret _ => _ | _ => _ end] => change X with (appM addact (snd d) (Empty, (st, k, []))) end.
  rewrite E. cbn [bind]. eauto.
Qed.

Lemma encode_lexdef_unfold ld : encode_lexdef ld =
  do (l, (chars, _, _)) <- caml_map enc_entry ld (([], 0), 0);
  Ret (rev chars, regs_of l, acts_of l).
Proof. reflexivity. Qed.

Lemma encode_lexdef_spec ld chars regs acts :
  encode_lexdef ld = Ret (chars, regs, acts) ->
  chars = all_classes ld /\
  NoDup (map fst (concat acts)) /\
  (forall k, In k (map fst (concat acts)) -> 0 <= k < rule_count ld) /\
  ForallOrdPairs disjoint_poss regs /\
  (forall x, In x regs -> between (snd x) 0 (Z.of_nat (length chars)) 0 (rule_count ld)) /\
  Forall2 (entry_ok chars acts) ld regs.
Proof.
  rewrite encode_lexdef_unfold.
  destruct (caml_map enc_entry ld ([], 0, 0)) as [[l [[c n] k]]|?| |] eqn:E; cbn [bind]; try discriminate.
  intros [= <- <- <-]. destruct (encode_entries _ _ _ _ _ E) as (A1 & A2 & A3 & A4 & A5 & A6 & A7 & A8 & A9).
  split; [exact A4|]. split; [exact A5|]. split; [rewrite <- A2; exact A6|]. split; [exact A7|].
  split; [rewrite <- A2, rev_length, <- A1; exact A8|].
  apply A9. exists []. now rewrite app_nil_r.
Qed.

Lemma encode_lexdef_ret ld : (forall d c, In d ld -> In c (snd d) -> noname (fst c)) ->
  exists r, encode_lexdef ld = Ret r.
Proof.
  intros N. rewrite encode_lexdef_unfold.
  destruct (encode_entries_ret ld N (([], 0), 0)) as [[l [[c n] k]] ->]. cbn [bind]. eauto.
Qed.
