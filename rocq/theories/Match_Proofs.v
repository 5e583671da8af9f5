(** Proofs for C39: the decision dag. *)
From Verif Require Import Base Match_Model.

(** values with everything the compiler's descriptions talk about: references are 1-tuples, exceptions are pairs of a
    name and an argument; a value of a data type knows the constructors of the type (has argument, record argument) *)
Inductive cval :=
| CConst (c : scon)
| CTup (vs : list cval)
| CVec (vs : list cval)
| CDat (sg : list (bool * bool)) (tag : nat) (oa : option cval)
| CName (n : Z).

Definition same_kind (a b : scon) : Prop :=
  match a, b with
  | INTscon _, INTscon _ | WORDscon _, WORDscon _ | STRINGscon _, STRINGscon _ => True
  | CHARscon a, CHARscon b => 0 <= a < 256 /\ 0 <= b < 256
  | _, _ => False
  end.
Definition olist {A} (o : option A) : list A := match o with Some a => [a] | None => [] end.

Section Main.
Variable exname : Z -> Z.

Inductive rep : cval -> rval -> Prop :=
| rep_const c : rep (CConst c) (RConst c)
| rep_tup vs tag rs : Forall2 rep vs rs -> rep (CTup vs) (RBlock tag rs)
| rep_vec vs tag rs : Forall2 rep vs rs -> rep (CVec vs) (RBlock tag rs)
| rep_dat0 sg n : length sg <> 1%nat -> rep (CDat sg n None) (RBlock (Z.of_nat n) [])
| rep_dat0' sg n r : length sg = 1%nat -> rep (CDat sg n None) r
| rep_dat1 sg n a r : length sg = 1%nat -> rep a r -> rep (CDat sg n (Some a)) r
| rep_datg sg n a tag fs : length sg <> 1%nat -> nth_error sg n = Some (true, true) -> rep a (RBlock tag fs) ->
    (forall t, rep a (RBlock t fs)) -> rep (CDat sg n (Some a)) (RBlock (Z.of_nat n) fs)
| rep_datn sg n a r : length sg <> 1%nat -> nth_error sg n = Some (true, false) -> rep a r ->
    rep (CDat sg n (Some a)) (RBlock (Z.of_nat n) [r])
| rep_name n : rep (CName n) (RName n).

(** [c] is a constructor of the type of the value *)
Definition datcon (sg : list (bool * bool)) (tag sp : Z) (ar : nat) : Prop :=
  sp = Z.of_nat (length sg) /\ 0 <= tag /\ exists b, nth_error sg (Z.to_nat tag) = Some (b, snd (nth (Z.to_nat tag) sg (false, false))) /\ ar = if b then 1%nat else 0%nat.
Definition fam (c : con) (v : cval) : Prop :=
  match c, v with
  | SCon k, CConst k' => same_kind k k'
  | Tup n, CTup vs => n = length vs
  | Vec _, CVec _ => True
  | CCon tag sp ar, CDat sg n oa => datcon sg tag sp ar /\ exists b, nth_error sg n = Some (match oa with Some _ => true | None => false end, b)
  | EExn (Lexn _), CName _ => True
  | _, _ => False
  end.
(** the value is made by the constructor, from these arguments *)
Definition is_con (c : con) (v : cval) (args : list cval) : Prop :=
  match c, v with
  | SCon k, CConst k' => k = k' /\ args = []
  | Tup n, CTup vs => n = length vs /\ args = vs
  | Vec n, CVec vs => n = length vs /\ args = vs
  | CCon tag sp ar, CDat sg n oa => tag = Z.of_nat n /\ sp = Z.of_nat (length sg) /\ args = olist oa /\ ar = length args
  | EExn (Lexn e), CName n => exname e = n /\ args = []
  | _, _ => False
  end.
Lemma is_con_arity c v args : is_con c v args -> arity c = length args.
Proof.
  destruct c as [k|n|n|t sp ar|l], v as [k'|vs|vs|sg m oa|x]; cbn [is_con arity]; try tauto; try (destruct l; tauto).
  - intros [_ ->]. reflexivity.
  - intros [-> ->]. reflexivity.
  - intros [-> ->]. reflexivity.
  - destruct l; try tauto. intros [_ ->]. reflexivity.
Qed.
Lemma is_con_fun c v a1 a2 : is_con c v a1 -> is_con c v a2 -> a1 = a2.
Proof.
  destruct c as [k|n|n|t sp ar|l], v as [k'|vs|vs|sg m oa|x]; cbn; try tauto; try (destruct l; tauto); try (intuition congruence).
  destruct l; try tauto. intuition congruence.
Qed.
Lemma is_con_con c c' v a a' : (forall l, c <> EExn l) -> is_con c v a -> is_con c' v a' -> c = c'.
Proof.
  intros NE. destruct v as [k'|vs|vs|sg m oa|x].
  - destruct c as [k|n|n|t sp ar|l], c' as [k2|n2|n2|t2 sp2 ar2|l2]; cbn; try tauto; try (destruct l; tauto); try (destruct l2; tauto). intuition congruence.
  - destruct c as [k|n|n|t sp ar|l], c' as [k2|n2|n2|t2 sp2 ar2|l2]; cbn; try tauto; try (destruct l; tauto); try (destruct l2; tauto). intuition congruence.
  - destruct c as [k|n|n|t sp ar|l], c' as [k2|n2|n2|t2 sp2 ar2|l2]; cbn; try tauto; try (destruct l; tauto); try (destruct l2; tauto). intuition congruence.
  - destruct c as [k|n|n|t sp ar|l], c' as [k2|n2|n2|t2 sp2 ar2|l2]; cbn; try tauto; try (destruct l; tauto); try (destruct l2; tauto). intuition congruence.
  - destruct c as [k|n|n|t sp ar|l]; cbn; try tauto. destruct (NE l). reflexivity.
Qed.

Inductive sat : termd -> cval -> Prop :=
| sat_pos c ds v args : is_con c v args -> Forall2 sat ds args -> sat (Pos c ds) v
| sat_neg cs v : NoDup cs -> (forall c, In c cs -> fam c v /\ forall args, ~ is_con c v args) -> sat (Neg cs) v.
Lemma sat_bot v : sat Bot v.
Proof. constructor; [constructor|intros c []]. Qed.
Lemma sat_bots vs : Forall2 sat (bots (length vs)) vs.
Proof. induction vs; constructor; auto using sat_bot. Qed.

(** ** Static matching *)
(** the constructors of a family *)
Definition family (sg : list (bool * bool)) : list con :=
  map (fun i => CCon (Z.of_nat i) (Z.of_nat (length sg)) (if fst (nth i sg (false, false)) then 1 else 0)%nat) (seq 0 (length sg)).
Lemma datcon_family sg tag sp ar : datcon sg tag sp ar -> In (CCon tag sp ar) (family sg).
Proof.
  intros (-> & P & b & E & ->). apply in_map_iff. exists (Z.to_nat tag). assert (L : (Z.to_nat tag < length sg)%nat) by (apply nth_error_Some; congruence).
  split; [|apply in_seq; lia]. rewrite Z2Nat.id by lia. apply nth_error_nth with (d := (false, false)) in E. rewrite E. reflexivity.
Qed.
Lemma is_con_dat_total sg n oa b : nth_error sg n = Some (match oa with Some _ => true | None => false end, b) ->
  exists c, In c (family sg) /\ is_con c (CDat sg n oa) (olist oa).
Proof.
  intros E. exists (CCon (Z.of_nat n) (Z.of_nat (length sg)) (length (olist oa))). split.
  - apply datcon_family. split; [reflexivity|]. split; [lia|]. exists (match oa with Some _ => true | None => false end). rewrite Nat2Z.id.
    apply nth_error_nth with (d := (false, false)) in E as E'. rewrite E'. cbn [snd]. split; [exact E|]. destruct oa; reflexivity.
  - cbn. auto.
Qed.
Definition chars : list con := map (fun i => SCon (CHARscon (Z.of_nat i))) (seq 0 256).
Lemma in_chars c : 0 <= c < 256 -> In (SCon (CHARscon c)) chars.
Proof. intros H. apply in_map_iff. exists (Z.to_nat c). split; [now rewrite Z2Nat.id by lia|]. apply in_seq. lia. Qed.
(** if all but one of a family are excluded, the remaining one is it *)
Lemma pigeon (F nonset : list con) p q : incl (p :: nonset) F -> NoDup (p :: nonset) -> length F = length (p :: nonset) ->
  In q F -> ~ In q nonset -> q = p.
Proof.
  intros I N L Q NQ. assert (X : incl F (p :: nonset)) by (apply NoDup_length_incl; [exact N|lia|exact I]).
  destruct (X q Q) as [Y|Y]; [now symmetry|contradiction].
Qed.
Lemma static_yes c d v : fam c v -> sat d v -> staticmatch c d = Yes -> exists args, is_con c v args.
Proof.
  intros F S. destruct S as [c' ds v args IC _|cs v N C]; cbn [staticmatch].
  - destruct (con_dec c c') as [->|]; [eauto|]. destruct c; discriminate.
  - destruct (in_dec con_dec c cs); [discriminate|]. destruct (Z.eqb_spec (span c) (1 + Z.of_nat (length cs))) as [SP|]; [|discriminate].
    intros _. assert (N' : NoDup (c :: cs)) by now constructor.
    destruct c as [k|m|m|t sp ar|l]; cbn [span] in SP.
    + destruct k as [| |k|]; try lia. destruct v as [k'|vs|vs|sg m oa|x]; cbn in F; try tauto. destruct k' as [| |k'|]; try tauto.
      assert (SCon (CHARscon k') = SCon (CHARscon k)) as E.
      { apply (pigeon chars cs); [|exact N'| |now apply in_chars|].
        - intros x [<-|Hx]; [apply in_chars; tauto|]. destruct (C x Hx) as [G _]. destruct x as [[| |kx|]|m|m|t sp ar|l]; cbn in G; try tauto; [|destruct l; tauto].
          apply in_chars. tauto.
        - cbn [length]. unfold chars. rewrite map_length, seq_length. lia.
        - intros X. destruct (C _ X) as [_ G]. apply (G []). cbn. auto. }
      injection E as ->. exists []. cbn. auto.
    + destruct v as [k'|vs|vs|sg m' oa|x]; cbn in F; try tauto. subst m. exists vs. cbn. auto.
    + lia.
    + destruct v as [k'|vs|vs|sg m oa|x]; cbn in F; try tauto. destruct F as [F [b E]].
      destruct (is_con_dat_total sg m oa b E) as (q & QF & Q). exists (olist oa).
      replace (CCon t sp ar) with q; [exact Q|].
      apply (pigeon (family sg) cs); [|exact N'| |exact QF|].
      * intros x [<-|Hx]; [now apply datcon_family|]. destruct (C x Hx) as [G _]. destruct x as [k|m'|m'|t' sp' ar'|l]; cbn in G; try tauto; [|destruct l; tauto].
        apply datcon_family. tauto.
      * cbn [length]. unfold family. rewrite map_length, seq_length. destruct F as [-> _]. lia.
      * intros X. destruct (C _ X) as [_ G]. apply (G _ Q).
    + lia.
Qed.
Lemma static_no c d v : fam c v -> sat d v -> staticmatch c d = No -> forall args, ~ is_con c v args.
Proof.
  intros F S. destruct S as [c' ds v args IC _|cs v N C]; cbn [staticmatch].
  - destruct (con_dec c c') as [->|NE]; [discriminate|]. intros E a Ha. apply NE. eapply is_con_con; [|exact Ha|exact IC].
    intros l ->. discriminate.
  - destruct (in_dec con_dec c cs) as [I|]; [|destruct (_ =? _); discriminate]. intros _. apply C, I.
Qed.
Lemma static_neg c d v : fam c v -> sat d v -> staticmatch c d = Maybe -> (forall args, ~ is_con c v args) -> sat (addneg d c) v.
Proof.
  intros F S E NC. destruct S as [c' ds v args IC S|cs v N C]; cbn [addneg].
  - now apply (sat_pos c' ds v args).
  - cbn [staticmatch] in E. destruct (in_dec con_dec c cs) as [I|NI]; [discriminate|]. constructor; [now constructor|].
    intros x [<-|Hx]; [tauto|]. apply C, Hx.
Qed.
Lemma static_maybe_span t sp ar d sg m oa : fam (CCon t sp ar) (CDat sg m oa) -> sat d (CDat sg m oa) ->
  staticmatch (CCon t sp ar) d = Maybe -> length sg <> 1%nat.
Proof.
  intros [F [b E]] S X L. destruct F as (-> & P & b' & E' & ->).
  remember (CDat sg m oa) as v. destruct S as [c' ds v args IC S|cs v N C]; cbn [staticmatch] in X.
  - destruct (con_dec _ c'); discriminate.
  - destruct (in_dec con_dec _ cs) as [I|NI]; [discriminate|]. cbn [span] in X. destruct (Z.eqb_spec (Z.of_nat (length sg)) (1 + Z.of_nat (length cs))) as [|NE]; [discriminate|].
    apply NI. destruct cs as [|c cs]; [cbn in NE; lia|]. left. destruct (C c (or_introl eq_refl)) as [G _]. subst v.
    assert (T : (Z.to_nat t < length sg)%nat) by (apply nth_error_Some; congruence).
    destruct c as [k|m'|m'|t' sp' ar'|l]; cbn in G; try tauto; [|destruct l; tauto]. destruct G as [(-> & P2 & b2 & E2 & ->) _].
    assert (T2 : (Z.to_nat t' < length sg)%nat) by (apply nth_error_Some; congruence).
    assert (t' = t) as -> by lia. rewrite E' in E2. injection E2 as ->. reflexivity.
Qed.

(** ** Patterns *)
Section All2.
Variable P : pat -> cval -> Prop.
Fixpoint all2 (ps : list pat) (vs : list cval) : Prop :=
  match ps, vs with
  | [], [] => True
  | p :: ps, v :: vs => P p v /\ all2 ps vs
  | _, _ => False
  end.
Variable Q : pat -> cval -> Prop.
(** the later ones only matter if the earlier ones match *)
Fixpoint seq2 (ps : list pat) (vs : list cval) : Prop :=
  match ps, vs with
  | [], [] => True
  | p :: ps, v :: vs => Q p v /\ (P p v -> seq2 ps vs)
  | _, _ => False
  end.
End All2.
Fixpoint kmatch (p : pat) (c : cval) {struct p} : Prop :=
  match p with
  | SCONpat k => is_con (SCon k) c []
  | VARpat _ | WILDCARDpat => True
  | NILpat ci => is_con (CCon (conTag ci) (conSpan ci) 0) c []
  | CONSpat ci p => match c with CDat _ _ (Some a) => is_con (CCon (conTag ci) (conSpan ci) 1) c [a] /\ kmatch p a | _ => False end
  | EXNILpat e => match c with CTup [CName n; _] => exname e = n | _ => False end
  | EXCONSpat e p => match c with CTup [CName n; a] => exname e = n /\ kmatch p a | _ => False end
  | EXNAMEpat l => is_con (EExn l) c []
  | REFpat p => match c with CTup [a] => kmatch p a | _ => False end
  | RECpat ps => match c with CTup vs => all2 kmatch ps vs | _ => False end
  | VECpat ps => match c with CVec vs => all2 kmatch ps vs | _ => False end
  | PARpat p | TYPEDpat p | LAYEREDpat _ p => kmatch p c
  end.
(** pattern and value can have the same type *)
Fixpoint comp (p : pat) (c : cval) {struct p} : Prop :=
  match p with
  | SCONpat k => fam (SCon k) c
  | VARpat _ | WILDCARDpat => True
  | NILpat ci => fam (CCon (conTag ci) (conSpan ci) 0) c
  | CONSpat ci p => fam (CCon (conTag ci) (conSpan ci) 1) c /\
      match c with
      | CDat sg n (Some a) => conTag ci = Z.of_nat n ->
          conIsGreedy ci = snd (nth n sg (false, false)) && negb (Nat.eqb (length sg) 1) /\ comp p a
      | _ => True
      end
  | EXNILpat e => match c with CTup [CName n; _] => True | _ => False end
  | EXCONSpat e p => match c with CTup [CName n; a] => exname e = n -> comp p a | _ => False end
  | EXNAMEpat l => fam (EExn l) c
  | REFpat p => match c with CTup [a] => comp p a | _ => False end
  | RECpat ps => match c with CTup vs => length ps = length vs /\ seq2 kmatch comp ps vs | _ => False end
  | VECpat ps => match c with CVec vs => length ps = length vs -> seq2 kmatch comp ps vs | _ => False end
  | PARpat p | TYPEDpat p | LAYEREDpat _ p => comp p c
  end.
Definition kml := all2 kmatch.
Definition compl := seq2 kmatch comp.
Lemma kml_app ps qs : forall vs ws, length ps = length vs -> (kml (ps ++ qs) (vs ++ ws) <-> kml ps vs /\ kml qs ws).
Proof.
  induction ps as [|p ps IH]; intros [|v vs] ws L; try discriminate L; cbn [app kml all2]; [cbn; tauto|].
  cbn in L. injection L as L. specialize (IH vs ws L). unfold kml in *. cbn [all2]. tauto.
Qed.
Lemma compl_app ps qs : forall vs ws, length ps = length vs -> (compl (ps ++ qs) (vs ++ ws) <-> compl ps vs /\ (kml ps vs -> compl qs ws)).
Proof.
  induction ps as [|p ps IH]; intros [|v vs] ws L; try discriminate L; unfold compl, kml in *; cbn [app seq2 all2]; [tauto|].
  cbn in L. injection L as L. specialize (IH vs ws L). tauto.
Qed.
Lemma compl_length ps : forall vs, compl ps vs -> (kml ps vs -> length ps = length vs).
Proof.
  induction ps as [|p ps IH]; intros [|v vs]; unfold compl, kml in *; cbn; try tauto. intros [_ H] [K M]. f_equal. now apply IH; auto.
Qed.
Lemma kml_length ps : forall vs, kml ps vs -> length ps = length vs.
Proof. induction ps as [|p ps IH]; intros [|v vs]; unfold kml in *; cbn; try tauto. intros [_ H]. f_equal. now apply IH. Qed.
Lemma simplify_match p c : kmatch (simplifyPat p) c <-> kmatch p c.
Proof.
  revert c. induction p; intros cv; cbn [simplifyPat]; try tauto; try (cbn; tauto); try apply IHp; try apply IHp2.
  - unfold mkExnPat. cbn [kmatch]. destruct cv as [k|vs|vs|sg n oa|n]; try tauto. destruct vs as [|v [|w [|x vs]]]; cbn [all2]; try tauto.
    + destruct v; tauto.
    + destruct v as [k|us|us|sg n oa|n]; cbn; tauto.
    + destruct v; tauto.
  - unfold mkExnPat. cbn [kmatch]. destruct cv as [k|vs|vs|sg n oa|n]; try tauto. destruct vs as [|v [|w [|x vs]]]; cbn [all2]; try tauto.
    + destruct v; tauto.
    + destruct v as [k|us|us|sg n oa|n]; cbn; tauto.
    + destruct v; tauto.
  - cbn [kmatch]. destruct cv as [k|vs|vs|sg n oa|n]; try tauto. destruct vs as [|v [|w vs]]; cbn [all2]; tauto.
Qed.
Lemma simplify_comp p c : comp p c -> comp (simplifyPat p) c.
Proof.
  revert c. induction p; intros cv; cbn [simplifyPat]; try tauto; try (cbn; tauto); try apply IHp; try apply IHp2.
  - unfold mkExnPat. cbn [comp]. destruct cv as [k|vs|vs|sg n oa|n]; try tauto. destruct vs as [|v [|w [|x vs]]]; cbn [seq2]; try tauto.
    + destruct v; tauto.
    + destruct v as [k|us|us|sg n oa|n]; cbn; tauto.
    + destruct v; tauto.
  - unfold mkExnPat. cbn [comp]. destruct cv as [k|vs|vs|sg n oa|n]; try tauto. destruct vs as [|v [|w [|x vs]]]; cbn [seq2]; try tauto.
    + destruct v; tauto.
    + destruct v as [k|us|us|sg n oa|n]; cbn; tauto.
    + destruct v; tauto.
  - cbn [comp]. destruct cv as [k|vs|vs|sg n oa|n]; try tauto. destruct vs as [|v [|w vs]]; cbn [seq2]; tauto.
Qed.

(** ** Running the dag *)
Section Values.
Variable env : list rval.
Notation access := (access exname env).
(** the test of a node *)
Definition test (obj : lam) (c : con) : option bool :=
  match c, access obj with
  | SCon k, Some (RConst k') => Some (if scon_dec k' k then true else false)
  | Vec n, Some (RConst k') => Some (if scon_dec k' (INTscon (Z.of_nat n)) then true else false)
  | CCon t _ _, Some (RBlock t' _) => Some (t' =? t)
  | EExn l, Some (RName n) => match access l with Some (RName m) => Some (n =? m) | _ => None end
  | _, _ => None
  end.
Inductive leads (ns : list dec) : nat -> nat -> Prop :=
| ld_refl n : leads ns n n
| ld_step n obj c t e b m : nth_error ns n = Some (IfEq obj c t e) -> test obj c = Some b -> leads ns (if b then t else e) m -> leads ns n m.
Definition ext (s s' : state) : Prop := exists l, nodes s' = nodes s ++ l.
Lemma ext_refl s : ext s s. Proof. exists []. now rewrite app_nil_r. Qed.
Lemma ext_trans a b c : ext a b -> ext b c -> ext a c.
Proof. intros [l E] [k F]. exists (l ++ k). now rewrite F, E, app_assoc. Qed.
Lemma leads_ext s s' n m : ext s s' -> leads (nodes s) n m -> leads (nodes s') n m.
Proof.
  intros [l E] H. induction H as [|n obj c t e b m N T H IH]; [constructor|]. eapply ld_step; eauto.
  rewrite E, nth_error_app1; [exact N|]. apply nth_error_Some. congruence.
Qed.

Definition orep (obj : lam) (v : cval) : Prop := exists r, access obj = Some r /\ rep v r.
Lemma split_map obj : forall n acc, split_loop n obj acc = map (fun i => Pfield (Z.of_nat i) obj) (seq 0 n) ++ acc.
Proof.
  induction n as [|n IH]; intros acc; [reflexivity|]. cbn [split_loop]. rewrite IH, seq_S, map_app, <- app_assoc. reflexivity.
Qed.
Lemma split_orep obj t : forall vs fs, access obj = Some (RBlock t fs) -> Forall2 rep vs fs -> Forall2 orep (splitPath (length vs) obj) vs.
Proof.
  intros vs fs A F. unfold splitPath. rewrite split_map, app_nil_r.
  assert (G : forall k vs, Forall2 rep vs (skipn k fs) -> Forall2 orep (map (fun i => Pfield (Z.of_nat i) obj) (seq k (length vs))) vs).
  { intros k ws. revert k. induction ws as [|w ws IH]; intros k H; cbn [length seq map]; constructor.
    - inversion H as [|? r ? rs R1 R2 E1 E2]; subst. exists r. split; [|exact R1]. cbn [Match_Model.access]. rewrite A.
      destruct (Z.ltb_spec (Z.of_nat k) 0); [lia|]. rewrite Nat2Z.id. rewrite <- (firstn_skipn k fs), <- E2.
      assert (k < length fs)%nat by (assert (length (skipn k fs) = length (r :: rs)) as X by congruence; rewrite skipn_length in X; cbn in X; lia).
      rewrite nth_error_app2; rewrite firstn_length_le by lia; [|lia]. now rewrite Nat.sub_diag.
    - apply IH. inversion H as [|? r ? rs R1 R2 E1 E2]; subst.
      replace (skipn (S k) fs) with rs; [exact R2|]. clear - E2. revert k E2. induction fs as [|f fs IH]; intros [|k] E; cbn in *; try discriminate; [congruence|auto]. }
  apply (G 0%nat). exact F.
Qed.
(** the test decides *)
Lemma test_ok c obj d v : fam c v -> sat d v -> staticmatch c d = Maybe -> (forall n, c <> Tup n) -> orep obj v ->
  exists b, test (match c with Vec _ => Pvectlength obj | _ => obj end) c = Some b /\
    (b = true -> exists args, is_con c v args) /\ (b = false -> forall args, ~ is_con c v args).
Proof.
  intros F S M NT (r & A & R). destruct c as [k|n|n|t sp ar|l]; unfold test.
  - destruct v as [k'|vs|vs|sg m oa|x]; cbn in F; try tauto. inversion R; subst. rewrite A. eexists. split; [reflexivity|].
    destruct (scon_dec k' k) as [->|NE]; split; try discriminate; intros _; [exists []; cbn; auto|intros args [E _]; congruence].
  - destruct (NT n eq_refl).
  - destruct v as [k'|vs|vs|sg m oa|x]; cbn in F; try tauto. inversion R as [| |? tag rs F2| | | | | |]; subst. cbn [Match_Model.access]. rewrite A. eexists. split; [reflexivity|].
    assert (length rs = length vs) as -> by (clear - F2; induction F2; cbn; auto).
    destruct (scon_dec _ _) as [E|NE]; split; try discriminate; intros _.
    + injection E as E. exists vs. cbn. split; [lia|reflexivity].
    + intros args [-> _]. apply NE. reflexivity.
  - destruct v as [k'|vs|vs|sg m oa|x]; cbn in F; try tauto. pose proof (static_maybe_span _ _ _ _ _ _ _ F S M) as SP.
    assert (RB : exists fs, r = RBlock (Z.of_nat m) fs) by (inversion R; subst; try contradiction; eauto).
    destruct RB as [fs ->]. rewrite A. eexists. split; [reflexivity|]. destruct F as [(-> & P & b & E & ->) [b2 E2]].
    destruct (Z.eqb_spec (Z.of_nat m) t) as [EQ|NE]; split; try discriminate; intros _.
    + subst t. rewrite Nat2Z.id in E. rewrite E2 in E. exists (olist oa). cbn. split; [reflexivity|]. split; [reflexivity|]. split; [reflexivity|].
      injection E as <- _. destruct oa; reflexivity.
    + intros args (EQ & _). congruence.
  - destruct v as [k'|vs|vs|sg m oa|x]; cbn in F; try (destruct l; tauto). destruct l as [| | |e]; try tauto. inversion R; subst. rewrite A. cbn [Match_Model.access].
    eexists. split; [reflexivity|]. destruct (Z.eqb_spec x (exname e)) as [->|NE]; split; try discriminate; intros _; [exists []; cbn; auto|].
    intros args [E _]. congruence.
Qed.
End Values.
End Main.
