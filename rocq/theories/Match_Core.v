(** Proofs for C39: typed values and patterns satisfy what the proof of the dag assumes. *)
From Verif Require Import Base Match_Model Match_Spec Match_Proofs Match_Dag Match_Code.

(** induction into the lists *)
Section ValueInd.
Variable P : value -> Prop.
Hypothesis H1 : forall c, P (VConst c).
Hypothesis H2 : forall l, Forall P l -> P (VTuple l).
Hypothesis H3 : forall l, Forall P l -> P (VVector l).
Hypothesis H4 : forall v, P v -> P (VRef v).
Hypothesis H5 : forall t, P (VCon t None).
Hypothesis H6 : forall t v, P v -> P (VCon t (Some v)).
Hypothesis H7 : forall t, P (VExn t None).
Hypothesis H8 : forall t v, P v -> P (VExn t (Some v)).
Fixpoint value_ind2 (v : value) : P v :=
  let go := fix go (l : list value) : Forall P l := match l with [] => Forall_nil P | x :: l => Forall_cons x (value_ind2 x) (go l) end in
  match v with
  | VConst c => H1 c
  | VTuple l => H2 l (go l)
  | VVector l => H3 l (go l)
  | VRef v => H4 v (value_ind2 v)
  | VCon t None => H5 t
  | VCon t (Some v) => H6 t v (value_ind2 v)
  | VExn t None => H7 t
  | VExn t (Some v) => H8 t v (value_ind2 v)
  end.
End ValueInd.
Section PatInd.
Variable P : pat -> Prop.
Definition lists (p : pat) : Prop := match p with RECpat l | VECpat l => Forall P l | _ => True end.
Hypothesis H : forall p, lists p -> (forall q, match p with CONSpat _ q' | EXCONSpat _ q' | REFpat q' | PARpat q' | TYPEDpat q' => q = q' | LAYEREDpat a b => q = a \/ q = b | _ => False end -> P q) -> P p.
Fixpoint pat_ind2 (p : pat) : P p.
Proof.
  apply H.
  - destruct p as [k|x| |ci|ci q|e|e q|l|q|ps|ps|q|q|q r]; cbn [lists]; try exact I; (induction ps as [|x ps IH]; constructor; [apply pat_ind2|exact IH]).
  - destruct p; intros q' E; try contradiction; try (subst q'; apply pat_ind2). destruct E as [-> | ->]; apply pat_ind2.
Defined.
End PatInd.

Section Core.
Variable E : types.
Hypothesis TOK : types_ok E.
Variable exname : Z -> Z.
Notation kmatch := (kmatch exname).
Notation comp := (comp exname).
Notation kml := (kml exname).
Notation compl := (compl exname).
Notation matches := (matches exname).
Notation pat_type := (pat_type E exname).
Notation has_type := (has_type E).
Notation represents := (represents E).

Lemma kmatch_dec p : forall c, kmatch p c \/ ~ kmatch p c.
Proof.
  assert (LD : forall l, Forall (fun p => forall c, kmatch p c \/ ~ kmatch p c) l -> forall vs, all2 kmatch l vs \/ ~ all2 kmatch l vs).
  { induction l as [|x l IH]; intros F [|v vs]; cbn [all2]; try tauto. inversion F as [|? ? Fx Fl]; subst. destruct (Fx v); destruct (IH Fl vs); tauto. }
  assert (IC : forall k c, is_con exname k c [] \/ ~ is_con exname k c []).
  { intros k c. destruct k as [k|n|n|t sp ar|l], c as [k'|vs|vs|sg m oa|x]; cbn [is_con]; try tauto; try (destruct l; tauto).
    - destruct (scon_dec k k'); [left; auto|right; tauto].
    - destruct (Nat.eq_dec n (length vs)); [|right; tauto]. destruct vs; [left; auto|right; intros [_ X]; discriminate X].
    - destruct (Nat.eq_dec n (length vs)); [|right; tauto]. destruct vs; [left; auto|right; intros [_ X]; discriminate X].
    - destruct (Z.eq_dec t (Z.of_nat m)); [|right; tauto]. destruct (Z.eq_dec sp (Z.of_nat (length sg))); [|right; tauto].
      destruct oa; [right; intros (_ & _ & X & _); discriminate X|]. cbn. destruct (Nat.eq_dec ar 0); [left; auto|right; tauto].
    - destruct l as [i|i l|l|e]; try tauto. destruct (Z.eq_dec (exname e) x); [left; auto|right; tauto]. }
  assert (IC1 : forall t sp sg n a, is_con exname (CCon t sp 1) (CDat sg n (Some a)) [a] \/ ~ is_con exname (CCon t sp 1) (CDat sg n (Some a)) [a]).
  { intros t sp sg n a. cbn. destruct (Z.eq_dec t (Z.of_nat n)); [|right; tauto]. destruct (Z.eq_dec sp (Z.of_nat (length sg))); [left; auto|right; tauto]. }
  induction p as [p FL FP] using pat_ind2. intros c. destruct p as [k|x| |ci|ci q|e|e q|l|q|ps|ps|q|q|q r]; cbn [Match_Proofs.kmatch lists] in *; auto; try (apply FP; auto; fail).
  - destruct c as [k'|vs|vs|sg m [a|]|x]; try tauto. destruct (IC1 (conTag ci) (conSpan ci) sg m a), (FP q eq_refl a); tauto.
  - destruct c as [k'|vs|vs|sg m oa|x]; try tauto. destruct vs as [|[| | | |n] [|w [|]]]; try tauto. destruct (Z.eq_dec (exname e) n); tauto.
  - destruct c as [k'|vs|vs|sg m oa|x]; try tauto. destruct vs as [|[| | | |n] [|w [|]]]; try tauto. destruct (Z.eq_dec (exname e) n), (FP q eq_refl w); tauto.
  - destruct c as [k'|vs|vs|sg m oa|x]; try tauto. destruct vs as [|w [|]]; try tauto. apply FP. reflexivity.
  - destruct c as [k'|vs|vs|sg m oa|x]; try tauto. apply LD, FL.
  - destruct c as [k'|vs|vs|sg m oa|x]; try tauto. apply LD, FL.
Qed.
Lemma kml_dec ps : forall vs, kml ps vs \/ ~ kml ps vs.
Proof. induction ps as [|p ps IH]; intros [|v vs]; unfold Match_Proofs.kml in *; cbn [all2]; try tauto. destruct (kmatch_dec p v), (IH vs); tauto. Qed.

Definition ok (p : pat) (c : cval) (v : value) : Prop := comp p c /\ (kmatch p c <-> matches p v).
Definition head (p : pat) : Prop := match p with VARpat _ | WILDCARDpat | PARpat _ | TYPEDpat _ | LAYEREDpat _ _ => False | _ => True end.
Lemma variable_matches p v : variable p -> matches p v.
Proof. induction 1; constructor. assumption. Qed.
Lemma wrap t c v : (forall p, head p -> pat_type t p -> ok p c v) -> forall p, pat_type t p -> ok p c v.
Proof.
  intros HD. induction p; intros PT; try (apply HD; [exact I|exact PT]).
  - split; [exact I|]. split; intros _; [constructor|exact I].
  - split; [exact I|]. split; intros _; [constructor|exact I].
  - inversion PT; subst. edestruct IHp as [A B]; [eassumption|]. split; [exact A|]. cbn [Match_Proofs.kmatch]. rewrite B. split; [constructor; assumption|inversion 1; assumption].
  - inversion PT; subst. edestruct IHp as [A B]; [eassumption|]. split; [exact A|]. cbn [Match_Proofs.kmatch]. rewrite B. split; [constructor; assumption|inversion 1; assumption].
  - inversion PT; subst. edestruct IHp2 as [A B]; [eassumption|]. split; [exact A|]. cbn [Match_Proofs.kmatch]. rewrite B. split; [constructor; [now apply variable_matches|assumption]|inversion 1; assumption].
Qed.

Definition core (v : value) : Prop := forall t r, has_type t v -> represents t v r ->
  exists c, rep c r /\ (forall ts, t = TTuple ts -> exists cs, c = CTup cs) /\ forall p, pat_type t p -> ok p c v.
Lemma core_list vs : Forall core vs -> forall ts rs, Forall2 has_type ts vs -> rep_list E ts vs rs ->
  exists cs, Forall2 rep cs rs /\ length cs = length vs /\ forall ps, Forall2 pat_type ts ps -> length ps = length cs /\ compl ps cs /\ (kml ps cs <-> Forall2 matches ps vs).
Proof.
  induction 1 as [|v vs C F IH]; intros ts rs HT RL; inversion HT; subst; inversion RL; subst.
  - exists []. split; [constructor|]. split; [reflexivity|]. intros ps PT. inversion PT; subst. repeat split; auto; constructor.
  - edestruct C as (c & R1 & _ & K1); [eassumption|eassumption|]. edestruct IH as (cs & R2 & L2 & K2); [eassumption|eassumption|]. exists (c :: cs).
    split; [now constructor|]. split; [cbn; auto|]. intros ps PT. inversion PT as [|? p ? ps' P1 P2]; subst. destruct (K1 _ P1) as [A B]. destruct (K2 _ P2) as (L & A2 & B2).
    split; [cbn; auto|]. split; [split; [exact A|auto]|]. unfold Match_Proofs.kml in *. cbn [all2]. rewrite B, B2. split; [intros [? ?]; now constructor|inversion 1; auto].
Qed.
Lemma core_vec vs : Forall core vs -> forall t rs, Forall (has_type t) vs -> rep_list E (repeat t (length vs)) vs rs ->
  exists cs, Forall2 rep cs rs /\ length cs = length vs /\ forall ps, Forall (pat_type t) ps -> length ps = length vs -> compl ps cs /\ (kml ps cs <-> Forall2 matches ps vs).
Proof.
  intros F t rs HT RL. destruct (core_list vs F (repeat t (length vs)) rs) as (cs & R & L & K); [|exact RL|].
  { clear F RL. induction HT; cbn; constructor; auto. }
  exists cs. split; [exact R|]. split; [exact L|]. intros ps PT LP. apply K. rewrite <- LP. clear - PT. induction PT; cbn; constructor; auto.
Qed.
Lemma F2_len2 {A B} (R : A -> B -> Prop) l l' : Forall2 R l l' -> length l = length l'.
Proof. induction 1; cbn; auto. Qed.
Definition sig (d : Z) (ts : list ty) : list (bool * bool) := map (fun x : constructor => (match fst x with Some _ => true | None => false end, snd x)) (constructors E d ts).
Lemma sig_nth d ts n o b : nth_error (constructors E d ts) n = Some (o, b) -> nth_error (sig d ts) n = Some (match o with Some _ => true | None => false end, b).
Proof. intros H. unfold sig. rewrite nth_error_map, H. reflexivity. Qed.
Lemma sig_nth2 d ts n o b : nth_error (constructors E d ts) n = Some (o, b) -> snd (nth n (sig d ts) (false, false)) = b.
Proof. intros H. apply sig_nth in H. apply nth_error_nth with (d := (false, false)) in H. now rewrite H. Qed.
Lemma sig_len d ts : length (sig d ts) = length (constructors E d ts).
Proof. apply map_length. Qed.
Lemma sig_datcon d ts n o b : nth_error (constructors E d ts) n = Some (o, b) ->
  datcon (sig d ts) (Z.of_nat n) (Z.of_nat (length (constructors E d ts))) (match o with Some _ => 1 | None => 0 end)%nat.
Proof.
  intros H. split; [now rewrite sig_len|]. split; [lia|]. exists (match o with Some _ => true | None => false end). rewrite Nat2Z.id.
  rewrite (sig_nth2 _ _ _ _ _ H), (sig_nth _ _ _ _ _ H). split; [reflexivity|]. destruct o; reflexivity.
Qed.

Lemma core_all v : core v.
Proof.
  induction v as [k|l IH|l IH|v IH|tg|tg v IH|tg|tg v IH] using value_ind2; intros t r HT RP.
  - inversion RP; subst. exists (CConst k). split; [constructor|]. split; [intros ts ->; inversion HT|]. apply wrap. intros p HP PT.
    inversion HT; subst; inversion PT; subst; try contradiction; (split; [cbn; auto|]); cbn [Match_Proofs.kmatch is_con];
      (split; [intros [X _]; injection X as ->; constructor|inversion 1; auto]).
  - inversion RP; subst. inversion HT; subst. edestruct (core_list _ IH) as (cs & R & L & K); [eassumption|eassumption|]. exists (CTup cs).
    split; [now constructor|]. split; [eauto|]. apply wrap. intros p HP PT. inversion PT; subst; try contradiction. edestruct K as (A & B & C); [eassumption|].
    split; [split; auto|]. cbn [Match_Proofs.kmatch]. change (kml ps cs <-> matches (RECpat ps) (VTuple l)). rewrite C. split; [constructor; auto|inversion 1; auto].
  - inversion RP; subst. inversion HT; subst. edestruct (core_vec _ IH) as (cs & R & L & K); [eassumption|eassumption|]. exists (CVec cs).
    split; [now constructor|]. split; [discriminate|]. apply wrap. intros p HP PT. inversion PT; subst; try contradiction.
    split; [cbn [Match_Proofs.comp]; intros LP; apply K; [assumption|congruence]|]. cbn [Match_Proofs.kmatch].
    change (kml ps cs <-> matches (VECpat ps) (VVector l)). split.
    + intros KM. constructor. apply K; auto. apply kml_length in KM. congruence.
    + intros M. inversion M; subst. apply K; auto. eapply F2_len2; eauto.
  - inversion RP; subst. inversion HT; subst. edestruct IH as (c & R & _ & K); [eassumption|eassumption|]. exists (CTup [c]).
    split; [constructor; constructor; [exact R|constructor]|]. split; [discriminate|]. apply wrap. intros p HP PT. inversion PT; subst; try contradiction.
    edestruct K as [A B]; [eassumption|]. split; [exact A|]. cbn [Match_Proofs.kmatch]. rewrite B. split; [constructor; auto|inversion 1; auto].
  - inversion HT; subst. inversion RP; subst. exists (CDat (sig d ts) n None).
    split; [destruct (Nat.eq_dec (length (sig d ts)) 1); [now apply rep_dat0'|now apply rep_dat0]|]. split; [discriminate|].
    apply wrap. intros p HP PT. inversion PT; subst; try contradiction.
    + split.
      * cbn [Match_Proofs.comp fam conTag conSpan]. split; [eapply (sig_datcon _ _ _ None); eauto|]. exists b. eapply (sig_nth _ _ _ None); eauto.
      * cbn [Match_Proofs.kmatch is_con conTag conSpan olist length]. rewrite sig_len. split.
        -- intros (X & _). rewrite <- X. change (Z.of_nat n0) with (conTag (CI (Z.of_nat n0) (Z.of_nat (length (constructors E d ts))) false)) at 2. constructor.
        -- intros M. inversion M; subst. cbn [conTag] in *. auto.
    + split.
      * cbn [Match_Proofs.comp fam conTag conSpan]. split; [|exact I]. split; [eapply (sig_datcon _ _ _ (Some _)); eauto|]. exists b. eapply (sig_nth _ _ _ None); eauto.
      * cbn [Match_Proofs.kmatch]. split; [tauto|]. intros M. inversion M.
  - inversion HT as [| | | | | | | |d ts n ty b v' N1 HV| |]; subst. inversion RP as [| | | | |d' ts' n' ty' b' v'' r' N2 RV| |]; subst. assert (n' = n) as -> by lia.
    assert (ty' = ty /\ b' = b) as [-> ->] by (split; congruence).
    destruct (IH _ _ HV RV) as (c & R & TU & K). exists (CDat (sig d ts) n (Some c)). split; [|split; [discriminate|]].
    + destruct (Z.eqb_spec (Z.of_nat (length (constructors E d ts))) 1) as [L1|L1].
      * apply rep_dat1; [rewrite sig_len; lia|exact R].
      * assert (NL : length (sig d ts) <> 1%nat) by (rewrite sig_len; lia). apply sig_nth in N1 as SN. destruct b.
        -- destruct (TOK _ _ _ _ N1) as [l ->]. inversion HV; subst. inversion RV; subst. destruct (TU _ eq_refl) as [cs ->].
           inversion R; subst. apply (rep_datg _ _ _ 0); auto. intros t. now constructor.
        -- now apply rep_datn.
    + apply wrap. intros p HP PT. inversion PT as [| | | | | |d0 ts0 n0 b0 NP|d0 ts0 n0 ty0 b0 q NP PQ| | | | | | | |]; subst; try contradiction.
      * split.
        -- cbn [Match_Proofs.comp fam conTag conSpan]. split; [eapply (sig_datcon _ _ _ None); eauto|]. exists b. eapply (sig_nth _ _ _ (Some _)); eauto.
        -- cbn [Match_Proofs.kmatch is_con conTag conSpan olist length]. split; [intros (_ & _ & X & _); discriminate X|]. intros M. inversion M.
      * split.
        -- cbn [Match_Proofs.comp fam conTag conSpan conIsGreedy]. split.
           { split; [eapply (sig_datcon _ _ _ (Some _)); eauto|]. exists b. eapply (sig_nth _ _ _ (Some _)); eauto. }
           intros X. assert (n0 = n) as -> by lia. assert (b0 = b /\ ty0 = ty) as [-> ->] by (split; congruence).
           rewrite (sig_nth2 _ _ _ _ _ N1), sig_len. split; [unfold greedy; f_equal; f_equal; apply Bool.eq_true_iff_eq; rewrite Z.eqb_eq, Nat.eqb_eq; lia|].
           now apply K.
        -- cbn [Match_Proofs.kmatch is_con conTag conSpan olist length]. split.
           ++ intros [(X & _) KM]. assert (n0 = n) as -> by lia. assert (b0 = b /\ ty0 = ty) as [-> ->] by (split; congruence).
              apply (m_cons exname (CI (Z.of_nat n) (Z.of_nat (length (constructors E d ts))) (greedy E d ts b)) q v). now apply K.
           ++ intros M. inversion M as [| | | |ci' q' v' MQ EQ1 EQ2| | | | | | | |]; subst. cbn [conTag] in *. assert (n0 = n) as -> by lia.
              assert (b0 = b /\ ty0 = ty) as [-> ->] by (split; congruence).
              rewrite sig_len. split; [auto|]. now apply K.
  - inversion HT; subst. inversion RP; subst. exists (CTup [CName tg; CDat [(false, false)] 0 None]).
    split; [repeat constructor|]. split; [discriminate|]. apply wrap. intros p HP PT. inversion PT; subst; try contradiction.
    + split; [exact I|]. cbn [Match_Proofs.kmatch]. split; [intros <-; constructor|inversion 1; reflexivity].
    + split; [cbn [Match_Proofs.comp]; intros X; congruence|]. cbn [Match_Proofs.kmatch]. split; [intros [X _]; congruence|inversion 1].
  - inversion HT as [| | | | | | | | | |n ty v' N1 HV]; subst. inversion RP as [| | | | | | |n' ty' v'' r' N2 RV]; subst. assert (ty' = ty) as -> by congruence.
    destruct (IH _ _ HV RV) as (c & R & _ & K).
    exists (CTup [CName tg; c]). split; [constructor; repeat constructor; exact R|]. split; [discriminate|]. apply wrap. intros p HP PT.
    inversion PT as [| | | | | | | |e NE|e ty0 q NE PQ| | | | | |]; subst; try contradiction.
    + split; [exact I|]. cbn [Match_Proofs.kmatch]. split; [intros X; congruence|inversion 1].
    + split.
      * cbn [Match_Proofs.comp]. intros X. assert (ty0 = ty) as -> by congruence. now apply K.
      * cbn [Match_Proofs.kmatch]. split.
        -- intros [<- KM]. constructor. assert (ty0 = ty) as -> by congruence. now apply K.
        -- intros M. inversion M; subst. split; [reflexivity|]. assert (ty0 = ty) as -> by congruence. now apply K.
Qed.
End Core.
