(** Proofs for C50: the second and third pass. *)
From Verif Require Import Base ArrayLib Mem Link_Model Link_Spec.

Lemma uid_eqb_spec a b : reflect (a = b) (uid_eqb a b).
Proof.
  destruct a as [[a1 a2] a3], b as [[b1 b2] b3]. cbn.
  destruct (Z.eqb_spec a1 b1), (Z.eqb_spec a2 b2), (Z.eqb_spec a3 b3); cbn; constructor; congruence.
Qed.
Lemma uid_eqb_refl a : uid_eqb a a = true.
Proof. destruct (uid_eqb_spec a a); congruence. Qed.

(** ** missing globals as sets *)
Lemma is_in_spec m g : is_in_missing m g = true <-> In g m.
Proof.
  unfold is_in_missing. rewrite existsb_exists. split.
  - intros (h & H & E). destruct (uid_eqb_spec g h); [now subst|discriminate].
  - intros H. exists g. split; [exact H|apply uid_eqb_refl].
Qed.
Lemma is_in_false m g : is_in_missing m g = false <-> ~ In g m.
Proof. rewrite <- is_in_spec. destruct (is_in_missing m g); split; congruence. Qed.
Lemma in_remove g h m : In h (remove_from_missing g m) <-> In h m /\ h <> g.
Proof.
  unfold remove_from_missing. rewrite filter_In. destruct (uid_eqb_spec g h); cbn; intuition congruence.
Qed.
Definition sets (l : list (reloc * Z)) (g : uid) : Prop := exists pos, In (Reloc_setglobal g, pos) l.
Definition gets (l : list (reloc * Z)) (g : uid) : Prop := exists pos, In (Reloc_getglobal g, pos) l.
Lemma in_remove_required l : forall m g, In g (fold_left remove_required l m) <-> In g m /\ ~ sets l g.
Proof.
  induction l as [|[r pos] l IH]; intros m g; cbn [fold_left].
  - split; [intros H; split; [exact H|intros (p & [])]|tauto].
  - rewrite IH. unfold remove_required at 1. cbn [fst]. split.
    + intros [H1 H2]. destruct r; try (split; [exact H1|intros (p & [E|E]); [congruence|apply H2; now exists p]]).
      apply in_remove in H1. split; [tauto|]. intros (p & [E|E]); [injection E as -> ->; tauto|apply H2; now exists p].
    + intros [H1 H2]. assert (~ sets l g) by (intros (p & E); apply H2; exists p; now right). split; [|assumption].
      destruct r as [| | |h]; try exact H1. apply in_remove. split; [exact H1|]. intros ->. apply H2. exists pos. now left.
Qed.
Lemma in_add_required l : forall m g, In g (fold_left add_required l m) <-> In g m \/ gets l g.
Proof.
  induction l as [|[r pos] l IH]; intros m g; cbn [fold_left].
  - split; [tauto|]. intros [H|(p & [])]. exact H.
  - rewrite IH. unfold add_required at 1. cbn [fst]. split.
    + intros [H|(p & H)]; [|right; exists p; now right]. destruct r as [h| | |]; try (now left).
      destruct H as [->|H]; [right; exists pos; now left|now left].
    + intros [H|(p & [E|H])]; [left; destruct r; try exact H; now right| |right; now exists p].
      injection E as -> ->. left. now left.
Qed.

(** ** writes into the code *)
Fixpoint writes (w : list (Z * list Z)) (b : list Z) : outcome (list Z) :=
  match w with [] => Ret b | (pos, l) :: w => do b <- putn b pos l; writes w b end.
Definition cells (w : Z * list Z) : list Z := map (fun i => fst w + Z.of_nat i) (seq 0 (length (snd w))).
Lemma in_cells pos l i : In i (cells (pos, l)) <-> pos <= i < pos + zlen l.
Proof.
  unfold cells, zlen. cbn [fst snd]. rewrite in_map_iff. split.
  - intros (n & <- & H). apply in_seq in H. lia.
  - intros H. exists (Z.to_nat (i - pos)). split; [lia|]. apply in_seq. lia.
Qed.
Lemma writes_app w1 : forall w2 b, writes (w1 ++ w2) b = do b <- writes w1 b; writes w2 b.
Proof.
  induction w1 as [|[pos l] w1 IH]; intros w2 b; cbn [app writes bind]; [reflexivity|].
  destruct (putn b pos l); cbn [bind]; auto.
Qed.
Lemma NoDup_app_inv {A} (a b : list A) : NoDup (a ++ b) -> NoDup a /\ NoDup b /\ forall x, In x a -> ~ In x b.
Proof.
  induction a as [|x a IH]; cbn; intros H.
  - split; [constructor|]. split; [exact H|]. intros x [].
  - inversion_clear H as [|? ? N D]. destruct (IH D) as (A1 & A2 & A3). rewrite in_app_iff in N. split; [constructor; tauto|].
    split; [exact A2|]. intros y [->|Y]; [tauto|now apply A3].
Qed.
Lemma writes_ok w : forall b, NoDup (flat_map cells w) -> Forall (fun i => 0 <= i < zlen b) (flat_map cells w) ->
  Forall (fun x => 0 < zlen (snd x)) w ->
  exists b', writes w b = Ret b' /\ zlen b' = zlen b /\
    (forall i, ~ In i (flat_map cells w) -> zget b' i = zget b i) /\
    (forall pos l, In (pos, l) w -> forall i, 0 <= i < zlen l -> zget b' (pos + i) = zget l i).
Proof.
  induction w as [|[pos l] w IH]; intros b D R P; cbn [writes flat_map] in *.
  - exists b. split; [reflexivity|]. split; [reflexivity|]. split; [reflexivity|]. intros pos l [].
  - apply NoDup_app_inv in D. destruct D as (D1 & D2 & D3). apply Forall_app in R. destruct R as [R1 R2].
    inversion_clear P as [|? ? P1 P2]. cbn [snd] in P1. rewrite Forall_forall in R1.
    assert (A1 : 0 <= pos) by (apply (R1 pos); apply in_cells; lia).
    assert (A2 : pos + zlen l <= zlen b). { assert (0 <= pos + zlen l - 1 < zlen b); [|lia]. apply R1. apply in_cells. lia. }
    destruct (putn_spec b pos l A1 A2) as (b1 & E1 & L1 & G1). rewrite E1. cbn [bind].
    destruct (IH b1 D2) as (b2 & E2 & L2 & O2 & W2); [now rewrite L1|exact P2|]. exists b2. split; [exact E2|]. split; [lia|]. split.
    + intros i H. rewrite in_app_iff in H. rewrite O2 by tauto. rewrite G1.
      destruct (Z.leb_spec pos i), (Z.ltb_spec i (pos + zlen l)); cbn [andb]; try reflexivity. destruct H. left. now apply in_cells.
    + intros pos' l' [E|H] i Hi; [|now apply W2]. injection E as <- <-. rewrite O2 by (apply D3; apply in_cells; lia). rewrite G1.
      destruct (Z.leb_spec pos (pos + i)), (Z.ltb_spec (pos + i) (pos + zlen l)); try lia. cbn [andb]. f_equal. lia.
Qed.

Definition long_of (v : Z) : list Z := [Z.land 255 v; Z.land 255 (Z.shiftr v 8); Z.land 255 (Z.shiftr v 16); Z.land 255 (Z.shiftr v 24)].
Definition short_of (v : Z) : list Z := [Z.land v 255; Z.shiftr v 8].
Lemma cells_long pos v : cells (pos, long_of v) = long_bytes pos.
Proof. unfold cells, long_bytes. cbn. rewrite Z.add_0_r. reflexivity. Qed.
Lemma cells_short pos v : cells (pos, short_of v) = [pos; pos + 1].
Proof. unfold cells. cbn. rewrite Z.add_0_r. reflexivity. Qed.
Lemma land255 v : Z.land 255 v = v mod 256.
Proof. rewrite Z.land_comm. change 255 with (Z.ones 8). rewrite Z.land_ones by lia. reflexivity. Qed.
Lemma long_at_intro c pos v : 0 <= v < 2 ^ 32 -> (forall i, 0 <= i < 4 -> zget c (pos + i) = zget (long_of v) i) -> long_at c pos v.
Proof.
  intros Hv H. unfold long_of in H. rewrite !land255, !Z.shiftr_div_pow2 in H by lia.
  exists (v mod 256), (v / 2 ^ 8 mod 256), (v / 2 ^ 16 mod 256), (v / 2 ^ 24 mod 256).
  rewrite <- (Z.add_0_r pos) at 1. rewrite !H by lia. repeat (split; [reflexivity|]). split.
  - repeat constructor; lia.
  - lia.
Qed.
Lemma short_at_intro c pos v : 0 <= v < 65536 -> (forall i, 0 <= i < 2 -> zget c (pos + i) = zget (short_of v) i) -> short_at c pos v.
Proof.
  intros Hv H. unfold short_of in H. rewrite Z.land_comm, land255, Z.shiftr_div_pow2 in H by lia.
  exists (v mod 256), (v / 2 ^ 8). rewrite <- (Z.add_0_r pos) at 1. rewrite !H by lia. repeat (split; [reflexivity|]). lia.
Qed.

(** ** invariants of the tables *)
Definition slots := def -> option Z.
Definition tinv (f : slots) (t : ltab) : Prop :=
  0 <= cnt t /\
  (forall d s, f d = Some s -> 0 <= s < cnt t) /\
  (forall d1 d2 s, f d1 = Some s -> f d2 = Some s -> d1 = d2) /\
  (forall s sc, In (s, sc) (litt t) -> 0 <= s < cnt t /\ forall d, f d <> Some s) /\
  NoDup (map fst (litt t)).
Definition agree (f : slots) (e : env) (t : ltab) (M : uid -> Prop) : Prop :=
  forall g, M g -> match e g with
                   | Some d => exists s, f d = Some s /\ find_uid (tbl t) g = Some s
                   | None => find_uid (tbl t) g = None
                   end.
Definition grows (f : slots) (t : ltab) (f' : slots) (t' : ltab) : Prop :=
  (forall d s, f d = Some s -> f' d = Some s) /\ incl (litt t) (litt t') /\ cnt t <= cnt t'.
Lemma grows_refl f t : grows f t f t.
Proof. split; [tauto|]. split; [apply incl_refl|lia]. Qed.
Lemma grows_trans f t f1 t1 f2 t2 : grows f t f1 t1 -> grows f1 t1 f2 t2 -> grows f t f2 t2.
Proof. intros (A1 & A2 & A3) (B1 & B2 & B3). split; [auto|]. split; [eapply incl_tran; eauto|lia]. Qed.
Lemma agree_weaken f e t (M M' : uid -> Prop) : agree f e t M -> (forall g, M' g -> M g) -> agree f e t M'.
Proof. intros H S g G. apply H. auto. Qed.

Definition isl (t : ltab) (s sc : Z) : Prop := In (s, sc) (litt t).

Lemma literal_inv f t sc : tinv f t -> tinv f (snd (get_slot_for_literal sc t)).
Proof.
  intros (A1 & A2 & A3 & A4 & A5). unfold get_slot_for_literal. cbn. split; [cbn; lia|]. split.
  - intros d s H. specialize (A2 d s H). cbn. lia.
  - split; [exact A3|]. split; cbn.
    + intros s sc' [E|H].
      * injection E as <- <-. split; [lia|]. intros d H. specialize (A2 _ _ H). lia.
      * destruct (A4 _ _ H) as [B1 B2]. split; [lia|exact B2].
    + constructor; [|exact A5]. intros H. apply in_map_iff in H. destruct H as ([s sc'] & E & H). cbn in E. subst s. specialize (A4 _ _ H). lia.
Qed.
Lemma literal_grows f t sc : grows f t f (snd (get_slot_for_literal sc t)).
Proof. split; [tauto|]. cbn. split; [now right|lia]. Qed.

(** ** literals *)
Lemma patch_all_writes poss slot : forall buff, patch_all poss slot buff = writes (map (fun pos => (pos, long_of slot)) poss) buff.
Proof.
  induction poss as [|pos poss IH]; intros buff; cbn [patch_all map writes]; [reflexivity|]. unfold patch_long.
  change [Z.land 255 slot; Z.land 255 (Z.shiftr slot 8); Z.land 255 (Z.shiftr slot 16); Z.land 255 (Z.shiftr slot 24)] with (long_of slot).
  destruct (putn buff pos (long_of slot)); cbn [bind]; auto.
Qed.
Lemma cells_longs poss slot : flat_map cells (map (fun pos => (pos, long_of slot)) poss) = flat_map long_bytes poss.
Proof. induction poss as [|pos poss IH]; [reflexivity|]. cbn [map flat_map]. now rewrite cells_long, IH. Qed.
Lemma bind_assoc {A B C} (m : outcome A) (f : A -> outcome B) (g : B -> outcome C) :
  bind (bind m f) g = bind m (fun x => bind (f x) g).
Proof. destruct m; reflexivity. Qed.
Lemma bind_ext {A B} (m : outcome A) (f g : A -> outcome B) : (forall x, f x = g x) -> bind m f = bind m g.
Proof. intros H. destruct m; cbn; auto. Qed.

Lemma literals_spec f : forall l t, tinv f t -> exists w t',
  (forall buff, relliterals l buff t = do b <- writes w buff; Ret (b, t')) /\
  flat_map cells w = flat_map (fun x => flat_map long_bytes (snd x)) l /\ Forall (fun x => 0 < zlen (snd x)) w /\
  tinv f t' /\ tbl t' = tbl t /\ grows f t f t' /\
  forall lit poss, In (lit, poss) l -> exists s, isl t' s lit /\ 0 <= s < cnt t' /\ forall pos, In pos poss -> In (pos, long_of s) w.
Proof.
  induction l as [|[lit poss] l IH]; intros t T.
  - exists [], t. cbn. split; [reflexivity|]. split; [reflexivity|]. split; [constructor|]. split; [exact T|]. split; [reflexivity|].
    split; [apply grows_refl|]. intros lit poss [].
  - destruct (IH _ (literal_inv f t lit T)) as (w & t' & E & C & P & T' & B & G & H).
    exists (map (fun pos => (pos, long_of (cnt t))) poss ++ w), t'. split.
    { intros buff. cbn [relliterals]. destruct (get_slot_for_literal lit t) as [sl t1] eqn:Q. injection Q as <- <-. rewrite patch_all_writes, writes_app, bind_assoc.
      apply bind_ext. intros b. apply E. }
    split; [rewrite flat_map_app, cells_longs, C; reflexivity|]. split.
    { apply Forall_app. split; [|exact P]. apply Forall_forall. intros [pos x] Hx. apply in_map_iff in Hx. destruct Hx as (pos' & Q & _). injection Q as <- <-. cbn. unfold zlen. cbn. lia. }
    split; [exact T'|]. split; [exact B|]. split; [eapply grows_trans; [apply literal_grows|exact G]|].
    intros lit' poss' [Q|Q].
    + injection Q as <- <-. destruct G as (_ & G2 & G3). exists (cnt t). split; [apply G2; now left|]. split.
      * destruct T as (T1 & _). cbn in G3. lia.
      * intros pos Hp. apply in_or_app. left. apply in_map_iff. now exists pos.
    + destruct (H _ _ Q) as (s & H1 & H2 & H3). exists s. split; [exact H1|]. split; [exact H2|]. intros pos Hp. apply in_or_app. right. auto.
Qed.

(** ** primitives *)
Lemma prims_spec_gen (prims : list Z) : forall i acc,
  fold_left (fun s p => let '(i, l) := s in (i + 1, (p, i) :: l)) prims (i, acc)
  = (i + zlen prims, rev (combine prims (map (fun n => i + Z.of_nat n) (seq 0 (length prims)))) ++ acc).
Proof.
  induction prims as [|p prims IH]; intros i acc; cbn [fold_left].
  - cbn. unfold zlen. cbn. now rewrite Z.add_0_r.
  - rewrite IH. f_equal.
    + unfold zlen. cbn [length]. lia.
    + cbn [length seq map combine rev]. rewrite <- app_assoc. cbn [app]. rewrite Z.add_0_r. f_equal. f_equal. f_equal.
      rewrite <- seq_shift, map_map. apply map_ext. intros n. lia.
Qed.
Lemma findZ_in {A} (l : list (Z * A)) x a : findZ l x = Some a -> In (x, a) l.
Proof.
  induction l as [|[y b] l IH]; cbn; [discriminate|]. destruct (Z.eqb_spec y x); intros H; [injection H as ->; subst; now left|right; auto].
Qed.
Lemma findZ_none {A} (l : list (Z * A)) x : findZ l x = None -> forall a, ~ In (x, a) l.
Proof.
  induction l as [|[y b] l IH]; cbn; [tauto|]. destruct (Z.eqb_spec y x); intros H a [E|E]; try discriminate; [congruence|now apply (IH H a)].
Qed.
Lemma in_combine_seq (l : list Z) : forall m x n, In (x, n) (combine l (map (fun n => Z.of_nat n) (seq m (length l)))) <->
  exists i, n = Z.of_nat (m + i) /\ nth_error l i = Some x.
Proof.
  induction l as [|a l IH]; intros m x n; cbn [length seq map combine In].
  - split; [intros []|]. intros ([|i] & _ & H); discriminate.
  - rewrite IH. split.
    + intros [E|(i & -> & H)]; [injection E as <- <-; exists 0%nat; split; [f_equal; lia|reflexivity]|]. exists (S i). split; [f_equal; lia|exact H].
    + intros ([|i] & -> & H); [left; cbn in H; injection H as ->; f_equal; f_equal; lia|right]. exists i. split; [f_equal; lia|exact H].
Qed.
Lemma prims_in prims x n : In (x, n) (set_c_primitives prims) <-> exists i, n = Z.of_nat i /\ nth_error prims i = Some x.
Proof.
  unfold set_c_primitives. rewrite prims_spec_gen. cbn [snd]. rewrite app_nil_r, <- in_rev.
  apply (in_combine_seq prims 0).
Qed.
Lemma prim_spec prims name : zlen prims <= 65536 ->
  (exists i, get_num_of_prim (set_c_primitives prims) name = Ret (Z.of_nat i) /\ nth_error prims i = Some name /\ Z.of_nat i < 65536) \/
  (get_num_of_prim (set_c_primitives prims) name = Raise NotFound /\ ~ In name prims).
Proof.
  intros L. unfold get_num_of_prim. destruct (findZ (set_c_primitives prims) name) as [n|] eqn:E.
  - apply findZ_in in E. apply prims_in in E. destruct E as (i & -> & H). left. exists i. split; [reflexivity|]. split; [exact H|].
    assert (i < length prims)%nat by (apply nth_error_Some; congruence). unfold zlen in L. lia.
  - right. split; [reflexivity|]. intros H. apply In_nth_error in H. destruct H as (i & H).
    apply (findZ_none _ _ E (Z.of_nat i)). apply prims_in. now exists i.
Qed.

(** ** the other relocations *)
Definition addslot (f : slots) (k j : nat) (s : Z) : slots :=
  fun d => match d with Def k' j' => if (Nat.eqb k' k && Nat.eqb j' j)%bool then Some s else f d | _ => f d end.
Lemma addslot_same f k j s : addslot f k j s (Def k j) = Some s.
Proof. cbn. now rewrite !Nat.eqb_refl. Qed.
Lemma addslot_inv f k j s d s' : addslot f k j s d = Some s' -> (d = Def k j /\ s' = s) \/ f d = Some s'.
Proof.
  destruct d as [i|k' j']; cbn; [now right|]. destruct (Nat.eqb_spec k' k), (Nat.eqb_spec j' j); cbn; intros H; try (now right).
  injection H as <-. subst. now left.
Qed.
Lemma addslot_old f k j s d s' : f (Def k j) = None -> f d = Some s' -> addslot f k j s d = Some s'.
Proof.
  intros N H. destruct d as [i|k' j']; cbn; [exact H|]. destruct (Nat.eqb_spec k' k), (Nat.eqb_spec j' j); cbn; try exact H. subst. congruence.
Qed.
Lemma define_inv f t g k j : tinv f t -> f (Def k j) = None -> tinv (addslot f k j (cnt t)) (snd (get_slot_for_defined_variable g t)).
Proof.
  intros (A1 & A2 & A3 & A4 & A5) N. cbn. split; [cbn; lia|]. split.
  { intros d s H. cbn. apply addslot_inv in H. destruct H as [[-> ->]|H]; [lia|]. specialize (A2 _ _ H). lia. }
  split.
  { intros d1 d2 s H1 H2. apply addslot_inv in H1. apply addslot_inv in H2.
    destruct H1 as [[-> ->]|H1], H2 as [[-> E]|H2]; try reflexivity.
    - specialize (A2 _ _ H2). lia.
    - subst. specialize (A2 _ _ H1). lia.
    - eapply A3; eauto. }
  split; [|exact A5]. cbn. intros s sc H. destruct (A4 _ _ H) as [B1 B2]. split; [lia|].
  intros d D. apply addslot_inv in D. destruct D as [[-> ->]|D]; [lia|]. now apply (B2 d).
Qed.
Lemma define_grows f t g k j : f (Def k j) = None -> grows f t (addslot f k j (cnt t)) (snd (get_slot_for_defined_variable g t)).
Proof. intros N. split; [intros d s; now apply addslot_old|]. cbn. split; [apply incl_refl|lia]. Qed.
Lemma define_agree f e t g k j M : f (Def k j) = None -> agree f e t M ->
  agree (addslot f k j (cnt t)) (upd e g (Some (Def k j))) (snd (get_slot_for_defined_variable g t)) (fun h => M h \/ h = g).
Proof.
  intros N A h H. unfold upd. cbn. destruct (uid_eqb_spec g h) as [<-|D].
  - exists (cnt t). split; [apply addslot_same|reflexivity].
  - destruct H as [H|H]; [|congruence]. specialize (A h H). destruct (e h) as [d|]; [|exact A].
    destruct A as (s & A1 & A2). exists s. split; [now apply addslot_old|exact A2].
Qed.

Definition opnd (f : slots) (t : ltab) (prims : list Z) (k j : nat) (w : list (Z * list Z)) (ds : list (option def)) (i : nat) (r : reloc) (pos : Z) : Prop :=
  match r with
  | Reloc_getglobal _ => exists d s, nth_error ds i = Some (Some d) /\ f d = Some s /\ In (pos, long_of s) w
  | Reloc_setglobal _ => exists s, f (Def k (j + i)) = Some s /\ In (pos, long_of s) w
  | Reloc_literal sc => exists s, isl t s sc /\ In (pos, long_of s) w
  | Reloc_primitive name => exists n, nth_error prims n = Some name /\ Z.of_nat n < 65536 /\ In (pos, short_of (Z.of_nat n)) w
  end.
Lemma opnd_grows f t f' t' prims k j w ds i r pos d w0 : grows f t f' t' -> incl w w0 ->
  opnd f t prims k (S j) w ds i r pos -> opnd f' t' prims k j w0 (d :: ds) (S i) r pos.
Proof.
  intros (G1 & G2 & G3) W. destruct r; cbn [opnd nth_error].
  - intros (d' & s & A & B & C). exists d', s. auto.
  - intros (s & A & B). exists s. split; [now apply G2|auto].
  - intros (n & A & B & C). exists n. auto.
  - intros (s & A & B). exists s. split; [|auto]. apply G1. now rewrite Nat.add_succ_r.
Qed.

Lemma others_spec prims : zlen prims <= 65536 -> forall l k j e t f M,
  tinv f t -> agree f e t M -> (forall g, gets l g -> M g) -> (forall j', (j <= j')%nat -> f (Def k j') = None) ->
  let '(ds, e') := resolve_list k j l e in
  (exists w f' t', (forall buff, relothers (set_c_primitives prims) l buff t = do b <- writes w buff; Ret (b, t')) /\
     flat_map cells w = flat_map reloc_bytes l /\ Forall (fun x => 0 < zlen (snd x)) w /\
     tinv f' t' /\ grows f t f' t' /\ agree f' e' t' (fun g => M g \/ sets l g) /\
     (forall d s, f' d = Some s -> f d = Some s \/ exists i g pos, d = Def k (j + i) /\ nth_error l i = Some (Reloc_setglobal g, pos)) /\
     (forall i r pos, nth_error l i = Some (r, pos) -> opnd f' t' prims k j w ds i r pos)) \/
  (exists w x rest, (forall buff, relothers (set_c_primitives prims) l buff t = do b <- writes w buff; Raise x) /\
     flat_map reloc_bytes l = flat_map cells w ++ rest /\ Forall (fun x => 0 < zlen (snd x)) w /\
     exists i r pos, nth_error l i = Some (r, pos) /\
       match r with
       | Reloc_getglobal _ => nth_error ds i = Some None
       | Reloc_primitive name => ~ In name prims
       | _ => False
       end).
Proof.
  intros LP. induction l as [|[r pos] l IH]; intros k j e t f M T A Gs Fr.
  - cbn. left. exists [], f, t. split; [reflexivity|]. split; [reflexivity|]. split; [constructor|]. split; [exact T|]. split; [apply grows_refl|].
    split; [eapply agree_weaken; [exact A|]; intros g [H|(p & [])]; exact H|]. split; [now left|]. intros [|i] r pos H; discriminate.
  - assert (KEY : forall d e1 c1 f1 t1 M1,
      (exists pre, pre = (pos, c1) /\ cells pre = reloc_bytes (r, pos) /\ 0 < zlen c1) ->
      (match r with
       | Reloc_getglobal g => (e g, e) | Reloc_setglobal g => (Some (Def k j), upd e g (Some (Def k j))) | _ => (None, e) end) = (d, e1) ->
      (forall buff, relother (set_c_primitives prims) r pos buff t = do b <- putn buff pos c1; Ret (b, t1)) ->
      tinv f1 t1 -> grows f t f1 t1 -> agree f1 e1 t1 M1 -> (forall g, M g -> M1 g) -> (forall g, r = Reloc_setglobal g -> M1 g) ->
      (forall d s, f1 d = Some s -> f d = Some s \/ (d = Def k j /\ exists g, r = Reloc_setglobal g)) ->
      (forall f2 t2 w ds, grows f1 t1 f2 t2 -> opnd f2 t2 prims k j ((pos, c1) :: w) (d :: ds) 0 r pos) ->
      let '(ds, e') := resolve_list k j ((r, pos) :: l) e in
      (exists w f' t', (forall buff, relothers (set_c_primitives prims) ((r, pos) :: l) buff t = do b <- writes w buff; Ret (b, t')) /\
         flat_map cells w = flat_map reloc_bytes ((r, pos) :: l) /\ Forall (fun x => 0 < zlen (snd x)) w /\
         tinv f' t' /\ grows f t f' t' /\ agree f' e' t' (fun g => M g \/ sets ((r, pos) :: l) g) /\
         (forall d s, f' d = Some s -> f d = Some s \/ exists i g pos0, d = Def k (j + i) /\ nth_error ((r, pos) :: l) i = Some (Reloc_setglobal g, pos0)) /\
         (forall i r0 pos0, nth_error ((r, pos) :: l) i = Some (r0, pos0) -> opnd f' t' prims k j w ds i r0 pos0)) \/
      (exists w x rest, (forall buff, relothers (set_c_primitives prims) ((r, pos) :: l) buff t = do b <- writes w buff; Raise x) /\
         flat_map reloc_bytes ((r, pos) :: l) = flat_map cells w ++ rest /\ Forall (fun x => 0 < zlen (snd x)) w /\
         exists i r0 pos0, nth_error ((r, pos) :: l) i = Some (r0, pos0) /\
           match r0 with
           | Reloc_getglobal _ => nth_error ds i = Some None
           | Reloc_primitive name => ~ In name prims
           | _ => False
           end)).
    { intros d e1 c1 f1 t1 M1 (pre & -> & C1 & P1) Ed Er T1 G1 A1 MM Mg N1 O1. cbn [resolve_list]. rewrite Ed.
      specialize (IH k (S j) e1 t1 f1 M1 T1 A1). destruct (resolve_list k (S j) l e1) as [ds e'].
      destruct IH as [(w & f' & t' & E & C & P & T' & G & A' & N & H)|(w & x & rest & E & C & P & i & r0 & pos0 & H1 & H2)].
      { intros g (p & Hp). apply MM, Gs. exists p. now right. }
      { intros j' J. destruct (f1 (Def k j')) as [s|] eqn:Q; [|reflexivity]. destruct (N1 _ _ Q) as [Q'|[Q' _]].
        - rewrite Fr in Q' by lia. discriminate.
        - injection Q' as ->. lia. }
      - left. exists ((pos, c1) :: w), f', t'. split.
        { intros buff. cbn [relothers writes]. rewrite Er, !bind_assoc. apply bind_ext. intros b. cbn [bind]. apply E. }
        split; [cbn [flat_map]; rewrite C1, C; reflexivity|]. split; [constructor; assumption|]. split; [exact T'|].
        split; [eapply grows_trans; eauto|]. split.
        { eapply agree_weaken; [exact A'|]. cbn beta. intros g [Hg|(p & [Hg|Hg])]; [left; auto| |right; now exists p]. left. apply Mg. congruence. }
        split.
        { intros d' s Hd. destruct (N _ _ Hd) as [Q|(i & g & p & -> & Hi)].
          - destruct (N1 _ _ Q) as [Q'|[-> (g & ->)]]; [now left|]. right. exists 0%nat, g, pos. split; [now rewrite Nat.add_0_r|reflexivity].
          - right. exists (S i), g, p. split; [now rewrite Nat.add_succ_r|exact Hi]. }
        intros [|i] r0 pos0 Hi; cbn [nth_error] in Hi.
        + injection Hi as <- <-. apply O1. exact G.
        + apply opnd_grows with (f := f') (t := t') (w := w); [apply grows_refl|now right|]. now apply H.
      - right. exists ((pos, c1) :: w), x, rest. split.
        { intros buff. cbn [relothers writes]. rewrite Er, !bind_assoc. apply bind_ext. intros b. cbn [bind]. apply E. }
        split; [cbn [flat_map]; rewrite C1, C, app_assoc; reflexivity|]. split; [constructor; assumption|].
        exists (S i), r0, pos0. split; [exact H1|exact H2]. }
    destruct r as [g|sc|name|g].
    + assert (Ag := A g (Gs g (ex_intro _ pos (or_introl eq_refl)))). destruct (e g) as [d|] eqn:Eg.
      * destruct Ag as (s & Fd & Fu). apply KEY with (d := Some d) (e1 := e) (c1 := long_of s) (f1 := f) (t1 := t) (M1 := M); auto.
        -- exists (pos, long_of s). split; [reflexivity|]. split; [apply cells_long|reflexivity].
        -- intros buff. cbn [relother]. unfold get_slot_for_variable. rewrite Fu. cbn [bind]. reflexivity.
        -- apply grows_refl.
        -- discriminate.
        -- intros f2 t2 w ds (G1 & _). cbn. exists d, s. split; [reflexivity|]. split; [auto|now left].
      * clear KEY. destruct (resolve_list k j ((Reloc_getglobal g, pos) :: l) e) as [ds e'] eqn:R. right. exists [], NotFound, (flat_map reloc_bytes ((Reloc_getglobal g, pos) :: l)).
        split; [intros buff; cbn; unfold get_slot_for_variable; rewrite Ag; reflexivity|]. split; [reflexivity|]. split; [constructor|].
        exists 0%nat, (Reloc_getglobal g), pos. split; [reflexivity|]. cbn in R. rewrite Eg in R. destruct (resolve_list k (S j) l e). injection R as <- _. reflexivity.
    + apply KEY with (d := None) (e1 := e) (c1 := long_of (cnt t)) (f1 := f) (t1 := snd (get_slot_for_literal sc t)) (M1 := M); auto.
      * exists (pos, long_of (cnt t)). split; [reflexivity|]. split; [apply cells_long|reflexivity].
      * now apply literal_inv.
      * apply literal_grows.
      * discriminate.
      * intros f2 t2 w ds (G1 & G2 & _). cbn. exists (cnt t). split; [apply G2; now left|now left].
    + destruct (prim_spec prims name LP) as [(n & E & H & L)|[E H]].
      * apply KEY with (d := None) (e1 := e) (c1 := short_of (Z.of_nat n)) (f1 := f) (t1 := t) (M1 := M); auto.
        -- exists (pos, short_of (Z.of_nat n)). split; [reflexivity|]. split; [apply cells_short|reflexivity].
        -- intros buff. cbn [relother]. rewrite E. cbn [bind]. unfold patch_short. rewrite Z.shiftr_div_pow2 by lia.
           destruct (Z.ltb_spec 255 (Z.of_nat n / 2 ^ 8)); [lia|]. unfold short_of. now rewrite Z.shiftr_div_pow2 by lia.
        -- apply grows_refl.
        -- discriminate.
        -- intros f2 t2 w ds _. cbn. exists n. split; [exact H|]. split; [exact L|now left].
      * clear KEY. destruct (resolve_list k j ((Reloc_primitive name, pos) :: l) e) as [ds e'] eqn:R. right. exists [], NotFound, (flat_map reloc_bytes ((Reloc_primitive name, pos) :: l)).
        split; [intros buff; cbn; rewrite E; reflexivity|]. split; [reflexivity|]. split; [constructor|].
        exists 0%nat, (Reloc_primitive name), pos. split; [reflexivity|exact H].
    + apply KEY with (d := Some (Def k j)) (e1 := upd e g (Some (Def k j))) (c1 := long_of (cnt t)) (f1 := addslot f k j (cnt t))
        (t1 := snd (get_slot_for_defined_variable g t)) (M1 := fun h => M h \/ h = g); auto.
      * exists (pos, long_of (cnt t)). split; [reflexivity|]. split; [apply cells_long|reflexivity].
      * apply define_inv; auto.
      * apply define_grows; auto.
      * apply define_agree; auto.
      * intros h Q. right. congruence.
      * intros d s H. apply addslot_inv in H. destruct H as [[-> _]|H]; [right|now left]. split; [reflexivity|now exists g].
      * intros f2 t2 w ds (G1 & G2 & _). cbn. exists (cnt t). rewrite Nat.add_0_r. split; [apply G1, addslot_same|now left].
Qed.

(** ** a phrase *)
Lemma patched_grows f t f' t' prims k p ds c : grows f t f' t' -> patched f (isl t) prims k p ds c -> patched f' (isl t') prims k p ds c.
Proof.
  intros (G1 & G2 & G3) (P1 & P2 & P3 & P4). split; [exact P1|]. split; [exact P2|]. split.
  - intros lit poss H. destruct (P3 _ _ H) as (s & A & B). exists s. split; [now apply G2|exact B].
  - intros j r pos H. specialize (P4 j r pos H). destruct r.
    + destruct P4 as (d & s & A & B & C). exists d, s. auto.
    + destruct P4 as (s & A & B). exists s. split; [now apply G2|exact B].
    + exact P4.
    + destruct P4 as (s & A & B). exists s. auto.
Qed.
Definition newdefs (f f' : slots) (k : nat) (ps : list phrase) (kept : list (option (list Z))) : Prop :=
  forall d s, f' d = Some s -> f d = Some s \/
    exists i j p g pos c, d = Def (k + i) j /\ nth_error ps i = Some p /\ nth_error (others p) j = Some (Reloc_setglobal g, pos) /\
      nth_error kept i = Some (Some c).

Lemma phrase_spec prims : zlen prims <= 65536 -> forall p k e t f M,
  layout p -> tinv f t -> agree f e t M -> (forall g, gets (others p) g -> M g) -> (forall j', f (Def k j') = None) ->
  let '(ds, e') := resolve_list k 0 (others p) e in
  (exists c f' t', patch_object (set_c_primitives prims) p t = Ret (c, t') /\
     tinv f' t' /\ grows f t f' t' /\ agree f' e' t' (fun g => M g \/ sets (others p) g) /\
     newdefs f f' k [p] [Some c] /\
     (cnt t' <= 2 ^ 32 -> patched f' (isl t') prims k p ds c)) \/
  (exists x, patch_object (set_c_primitives prims) p t = Raise x /\
     exists i r pos, nth_error (others p) i = Some (r, pos) /\
       match r with
       | Reloc_getglobal _ => nth_error ds i = Some None
       | Reloc_primitive name => ~ In name prims
       | _ => False
       end).
Proof.
  intros LP p k e t f M [ND RG] T A Gs Fr.
  destruct (literals_spec f (lits p) t T) as (w1 & t1 & E1 & C1 & P1 & T1 & B1 & G1 & H1).
  assert (A1 : agree f e t1 M). { intros g Hg. rewrite B1. now apply A. }
  assert (OS := others_spec prims LP (others p) k 0 e t1 f M T1 A1 Gs (fun j' _ => Fr j')).
  destruct (resolve_list k 0 (others p) e) as [ds e'].
  unfold patch_object.
  destruct OS as [(w2 & f' & t' & E2 & C2 & P2 & T2 & G2 & A2 & N2 & H2)|(w2 & x & rest & E2 & C2 & P2 & U)].
  - assert (CW : flat_map cells (w1 ++ w2) = operand_bytes p) by (rewrite flat_map_app, C1, C2; reflexivity).
    destruct (writes_ok (w1 ++ w2) (code p)) as (c & Ec & Lc & Oc & Wc); [now rewrite CW|now rewrite CW|apply Forall_app; now split|].
    left. exists c, f', t'. split.
    { rewrite E1, bind_assoc. rewrite writes_app in Ec. destruct (writes w1 (code p)) as [b| | |]; try discriminate Ec. cbn [bind] in *.
      rewrite E2, Ec. reflexivity. }
    split; [exact T2|]. split; [eapply grows_trans; eauto|]. split; [exact A2|]. split.
    { intros d s Hd. destruct (N2 _ _ Hd) as [Q|(i & g & pos & -> & Hi)]; [now left|]. right. exists 0%nat, i, p, g, pos, c.
      rewrite Nat.add_0_r. repeat (split; [reflexivity|]). split; [exact Hi|reflexivity]. }
    intros BD.
    assert (RB : forall s, 0 <= s < cnt t' -> 0 <= s < 2 ^ 32) by (intros; lia).
    assert (LW : forall pos s, In (pos, long_of s) (w1 ++ w2) -> 0 <= s < cnt t' -> long_at c pos s).
    { intros pos s Hi Hs. apply long_at_intro; [auto|]. intros i Hi'. apply (Wc _ _ Hi). exact Hi'. }
    split; [exact Lc|]. split; [rewrite <- CW; exact Oc|]. split.
    + intros lit poss Hl. destruct (H1 _ _ Hl) as (s & Hs1 & Hs2 & Hs3). destruct G2 as (_ & G22 & G23). exists s. split; [now apply G22|].
      intros pos Hp. apply LW; [apply in_or_app; left; auto|lia].
    + intros j r pos Hj. specialize (H2 j r pos Hj). destruct T2 as (_ & T22 & _ & T24 & _). destruct r; cbn [opnd] in H2.
      * destruct H2 as (d & s & Q1 & Q2 & Q3). exists d, s. split; [exact Q1|]. split; [exact Q2|]. apply LW; [apply in_or_app; now right|eauto].
      * destruct H2 as (s & Q1 & Q2). exists s. split; [exact Q1|]. apply LW; [apply in_or_app; now right|]. apply (T24 _ _ Q1).
      * destruct H2 as (n & Q1 & Q2 & Q3). exists n. split; [exact Q1|]. apply short_at_intro; [lia|]. intros i Hi.
        apply (Wc pos (short_of (Z.of_nat n))); [apply in_or_app; now right|exact Hi].
      * destruct H2 as (s & Q1 & Q2). exists s. split; [exact Q1|]. apply LW; [apply in_or_app; now right|eauto].
  - right. exists x. split; [|exact U].
    assert (CW : operand_bytes p = flat_map cells (w1 ++ w2) ++ rest) by (rewrite flat_map_app, C1, <- app_assoc, <- C2; reflexivity).
    rewrite CW in ND, RG. apply NoDup_app_inv in ND. apply Forall_app in RG.
    destruct (writes_ok (w1 ++ w2) (code p)) as (c & Ec & _); [tauto|tauto|apply Forall_app; now split|].
    rewrite E1, bind_assoc. rewrite writes_app in Ec. destruct (writes w1 (code p)) as [b| | |]; try discriminate Ec. cbn [bind] in *.
    rewrite E2, Ec. reflexivity.
Qed.

(** ** the phrases of a unit *)
Lemma resolve_list_other k g : forall l j e, ~ sets l g -> snd (resolve_list k j l e) g = e g.
Proof.
  induction l as [|[r pos] l IH]; intros j e N; cbn [resolve_list]; [reflexivity|].
  assert (N' : ~ sets l g) by (intros (p & Hp); apply N; exists p; now right).
  set (de := match r with Reloc_getglobal g => (e g, e) | Reloc_setglobal g => (Some (Def k j), upd e g (Some (Def k j))) | _ => (None, e) end).
  assert (E : snd de g = e g).
  { subst de. destruct r; try reflexivity. cbn. unfold upd. destruct (uid_eqb_spec g0 g); [|reflexivity]. destruct N. exists pos. left. congruence. }
  destruct de as [d e1]. cbn [snd] in E. rewrite <- E, <- (IH (S j) e1 N'). destruct (resolve_list k (S j) l e1). reflexivity.
Qed.
Lemma aligned_grows f t f' t' prims : grows f t f' t' -> forall ps k ds kept,
  aligned f (isl t) prims k ps ds kept -> aligned f' (isl t') prims k ps ds kept.
Proof.
  intros G. induction ps as [|p ps IH]; intros k [|d ds] [|o kept]; cbn; try tauto. intros [H1 H2]. split; [|now apply IH].
  destruct o; [|exact H1]. now apply patched_grows with (f := f) (t := t).
Qed.
Lemma undefined_cons prims p ps d ds : undefined_in prims ps ds -> undefined_in prims (p :: ps) (d :: ds).
Proof. intros (i & p' & d' & j & r & pos & H1 & H2 & H3). exists (S i), p', d', j, r, pos. auto. Qed.

Lemma phrases_spec prims : zlen prims <= 65536 -> forall ps k e t f M m0 req,
  fold_right scan_phrase (M, []) ps = (m0, req) -> Forall layout ps -> tinv f t -> agree f e t (fun g => In g m0) ->
  (forall k' j', (k <= k')%nat -> f (Def k' j') = None) ->
  let '(rs, e') := resolve_phrases k ps e in
  (exists cs t' f' kept, link_phrases (set_c_primitives prims) req t = Ret (cs, t') /\ cs = somes kept /\
     tinv f' t' /\ grows f t f' t' /\ agree f' e' t' (fun g => In g M) /\
     newdefs f f' k ps kept /\ length kept = length ps /\ length rs = length ps /\
     (cnt t' <= 2 ^ 32 -> aligned f' (isl t') prims k ps rs kept)) \/
  ((exists x, link_phrases (set_c_primitives prims) req t = Raise x) /\ undefined_in prims ps rs).
Proof.
  intros LP. induction ps as [|p ps IH]; intros k e t f M m0 req Sc Ly T A Fr.
  - cbn in Sc. injection Sc as <- <-. cbn. left. exists [], t, f, []. split; [reflexivity|]. split; [reflexivity|]. split; [exact T|].
    split; [apply grows_refl|]. split; [exact A|]. split; [now left|]. split; [reflexivity|]. split; [reflexivity|]. intros _. exact Logic.I.
  - cbn [fold_right] in Sc. destruct (fold_right scan_phrase (M, []) ps) as [m1 req1] eqn:S1. cbn [scan_phrase] in Sc.
    inversion_clear Ly as [|? ? Ly1 Ly2]. cbn [resolve_phrases].
    destruct (negb (pure p) || existsb (is_required m1) (others p))%bool eqn:Rq; injection Sc as <- <-.
    + set (M1 := fun g => In g (fold_left add_required (others p) (fold_left remove_required (others p) m1))) in *.
      assert (PS := phrase_spec prims LP p k e t f M1 Ly1 T A). destruct (resolve_list k 0 (others p) e) as [ds e1].
      destruct PS as [(c & f1 & t1 & E1 & T1 & G1 & A1 & N1 & P1)|(x & E1 & i & r & pos & H1 & H2)].
      { intros g Hg. apply in_add_required. now right. }
      { intros j'. now apply Fr. }
      * specialize (IH (S k) e1 t1 f1 M m1 req1 S1 Ly2 T1).
        destruct (resolve_phrases (S k) ps e1) as [rs e'].
        destruct IH as [(cs & t' & f' & kept & E2 & C2 & T2 & G2 & A2 & N2 & L2 & L3 & P2)|[(x & E2) U]].
        { eapply agree_weaken; [exact A1|]. cbn beta. intros g Hg. unfold M1. rewrite in_add_required, in_remove_required.
          assert (D : sets (others p) g \/ ~ sets (others p) g).
          { destruct (existsb (fun r => match fst r with Reloc_setglobal h => uid_eqb h g | _ => false end) (others p)) eqn:X.
            - left. apply existsb_exists in X. destruct X as ([r pos] & X1 & X2). cbn in X2. destruct r as [| | |h]; try discriminate. destruct (uid_eqb_spec h g); [|discriminate]. subst. now exists pos.
            - right. intros (pos & Hp). assert (Y : existsb (fun r => match fst r with Reloc_setglobal h => uid_eqb h g | _ => false end) (others p) = true); [|congruence].
              apply existsb_exists. exists (Reloc_setglobal g, pos). split; [exact Hp|]. cbn. apply uid_eqb_refl. }
          tauto. }
        { intros k' j' K'. destruct (f1 (Def k' j')) as [s|] eqn:Q; [|reflexivity]. destruct (N1 _ _ Q) as [Q'|(i & j & p' & g & pos & c' & Q' & Q2 & _)].
          - rewrite Fr in Q' by lia. discriminate.
          - injection Q' as -> ->. destruct i as [|[|i]]; cbn in Q2; try discriminate. lia. }
        -- left. exists (c :: cs), t', f', (Some c :: kept). split; [cbn [link_phrases]; rewrite E1; cbn [bind]; rewrite E2; reflexivity|].
           split; [cbn; now rewrite C2|]. split; [exact T2|]. split; [eapply grows_trans; eauto|]. split; [exact A2|]. split.
           { intros d s Hd. destruct (N2 _ _ Hd) as [Q|(i & j & p' & g & pos & c' & Q1 & Q2)].
             - destruct (N1 _ _ Q) as [Q'|(i & j & p' & g & pos & c' & Q1 & Q2 & Q3 & Q4)]; [now left|]. right.
               destruct i as [|[|i]]; cbn in Q2; try discriminate. exists 0%nat, j, p', g, pos, c'. auto.
             - right. exists (S i), j, p', g, pos, c'. rewrite Nat.add_succ_r. auto. }
           split; [cbn; now rewrite L2|]. split; [cbn; now rewrite L3|].
           intros BD. cbn [aligned]. split; [|now apply P2]. apply patched_grows with (f := f1) (t := t1); [exact G2|]. apply P1. destruct G2 as (_ & _ & G2). lia.
        -- right. split; [exists x; cbn [link_phrases]; rewrite E1; cbn [bind]; rewrite E2; reflexivity|]. now apply undefined_cons.
      * destruct (resolve_phrases (S k) ps e1) as [rs e']. right. split.
        -- exists x. cbn [link_phrases]. rewrite E1. reflexivity.
        -- exists 0%nat, p, ds, i, r, pos. repeat (split; [first [reflexivity|exact H1]|]). exact H2.
    + apply orb_false_elim in Rq. destruct Rq as [Pu Rq]. apply negb_false_iff in Pu.
      assert (NS : forall g, In g m1 -> ~ sets (others p) g).
      { intros g Hg (pos & Hp). assert (X : existsb (is_required m1) (others p) = true); [|congruence].
        apply existsb_exists. exists (Reloc_setglobal g, pos). split; [exact Hp|]. cbn. now apply is_in_spec. }
      assert (RO : forall g, In g m1 -> snd (resolve_list k 0 (others p) e) g = e g) by (intros g Hg; apply resolve_list_other, NS, Hg).
      destruct (resolve_list k 0 (others p) e) as [ds e1]. cbn [snd] in RO.
      specialize (IH (S k) e1 t f M m1 req1 S1 Ly2 T). destruct (resolve_phrases (S k) ps e1) as [rs e'].
      destruct IH as [(cs & t' & f' & kept & E2 & C2 & T2 & G2 & A2 & N2 & L2 & L3 & P2)|[(x & E2) U]].
      { intros g Hg. rewrite RO by exact Hg. now apply A. }
      { intros k' j' K'. apply Fr. lia. }
      * left. exists cs, t', f', (None :: kept). split; [exact E2|]. split; [exact C2|]. split; [exact T2|]. split; [exact G2|]. split; [exact A2|]. split.
        { intros d s Hd. destruct (N2 _ _ Hd) as [Q|(i & j & p' & g & pos & c' & Q1 & Q2)]; [now left|]. right. exists (S i), j, p', g, pos, c'. rewrite Nat.add_succ_r. auto. }
        split; [cbn; now rewrite L2|]. split; [cbn; now rewrite L3|]. intros BD. cbn [aligned]. split; [exact Pu|auto].
      * right. split; [now exists x|now apply undefined_cons].
Qed.

(** ** exported identifiers *)
Definition keys (q : Z) (vs : list (Z * Z)) (g : uid) : Prop := exists id st, In (id, st) vs /\ g = (q, id, 0).
Lemma scan_vals_spec q : forall vs M acc, NoDup (map fst vs) -> exists M',
  fold_left (fun s v => scan_val q v s) vs (M, acc) = (M', rev (filter (fun v => is_in_missing M (q, fst v, 0)) vs) ++ acc) /\
  forall g, In g M' <-> (In g M /\ ~ keys q vs g) \/ (exists id st, In (id, st) vs /\ In (q, id, 0) M /\ g = (q, id, st)).
Proof.
  induction vs as [|[id st] vs IH]; intros M acc D.
  - exists M. split; [reflexivity|]. intros g. split; [|intros [[H _]|(id & st & [] & _)]; exact H]. intros H. left. split; [exact H|]. intros (id & st & [] & _).
  - cbn [map fst] in D. inversion_clear D as [|? ? N D']. cbn [fold_left scan_val filter fst].
    assert (NK : forall st', ~ In (id, st') vs). { intros st' H. apply N. apply in_map_iff. exists (id, st'). now split. }
    destruct (is_in_missing M (q, id, 0)) eqn:E.
    + destruct (IH (add_to_missing (q, id, st) (remove_from_missing (q, id, 0) M)) ((id, st) :: acc) D') as (M' & F & S). exists M'. split.
      * rewrite F. f_equal. cbn [rev]. rewrite <- app_assoc. f_equal. f_equal. apply filter_ext_in. intros [id' st'] H. cbn [fst].
        assert (id' <> id). { intros ->. now apply (NK st'). }
        apply eq_true_iff_eq. rewrite !is_in_spec. unfold add_to_missing. cbn [In]. rewrite in_remove. intuition congruence.
      * apply is_in_spec in E. intros g. rewrite S. unfold add_to_missing. cbn [In]. split.
        -- intros [[[<-|H] K]|(id' & st' & H1 & H2 & ->)].
           ++ right. exists id, st. split; [now left|]. auto.
           ++ apply in_remove in H. left. split; [tauto|]. intros (id' & st' & [Q|Q] & ->); [injection Q as -> ->; tauto|]. apply K. exists id', st'. auto.
           ++ right. exists id', st'. split; [now right|]. split; [|reflexivity]. destruct H2 as [H2|H2]; [|apply in_remove in H2; tauto].
              injection H2 as -> ->. exact E.
        -- intros [[H K]|(id' & st' & [Q|Q] & H2 & ->)].
           ++ left. split; [|intros (id' & st' & Q & ->); apply K; exists id', st'; split; [now right|reflexivity]].
              right. apply in_remove. split; [exact H|]. intros ->. apply K. exists id, st. split; [now left|reflexivity].
           ++ injection Q as -> ->. left. split; [now left|]. intros (id'' & st'' & Q & R). injection R as -> ->. now apply (NK st'').
           ++ right. exists id', st'. split; [exact Q|]. split; [|reflexivity]. right. apply in_remove. split; [exact H2|]. intros R. injection R as ->. now apply (NK st').
    + destruct (IH M acc D') as (M' & F & S). exists M'. split; [exact F|]. apply is_in_false in E. intros g. rewrite S. split.
      * intros [[H K]|(id' & st' & H1 & H2 & ->)].
        -- left. split; [exact H|]. intros (id' & st' & [Q|Q] & ->); [injection Q as -> ->; contradiction|]. apply K. exists id', st'. auto.
        -- right. exists id', st'. split; [now right|]. auto.
      * intros [[H K]|(id' & st' & [Q|Q] & H2 & ->)].
        -- left. split; [exact H|]. intros (id' & st' & Q & ->). apply K. exists id', st'. split; [now right|reflexivity].
        -- injection Q as -> ->. contradiction.
        -- right. exists id', st'. auto.
Qed.

Lemma find_uid_cons g h s l : find_uid ((h, s) :: l) g = if uid_eqb h g then Some s else find_uid l g.
Proof. reflexivity. Qed.
Lemma export_spec f q : forall xs t, NoDup (map fst xs) -> tinv f t ->
  (exists t', exportPublicNames q xs t = Ret t' /\ cnt t' = cnt t /\ litt t' = litt t /\
     (forall g, ~ keys q xs g -> find_uid (tbl t') g = find_uid (tbl t) g) /\
     (forall id st, In (id, st) xs -> find_uid (tbl t') (q, id, 0) = find_uid (tbl t) (q, id, st) /\ find_uid (tbl t) (q, id, st) <> None)) \/
  (exists x id st, exportPublicNames q xs t = Raise x /\ In (id, st) xs /\ find_uid (tbl t) (q, id, st) = None).
Proof.
  induction xs as [|[id st] xs IH]; intros t D T.
  - left. exists t. do 3 (split; [reflexivity|]). split; [reflexivity|]. intros id st [].
  - cbn [map fst] in D. inversion_clear D as [|? ? N D'].
    assert (NK : forall st', ~ In (id, st') xs). { intros st' H. apply N. apply in_map_iff. exists (id, st'). now split. }
    cbn [exportPublicNames]. unfold defineGlobalValueAlias, get_slot_for_variable.
    destruct (find_uid (tbl t) (q, id, st)) as [s|] eqn:F; cbn [bind].
    + set (t1 := mkL (cnt t) ((q, id, 0, s) :: tbl t) (litt t)).
      assert (F1 : forall g, g <> (q, id, 0) -> find_uid (tbl t1) g = find_uid (tbl t) g).
      { intros g Hg. unfold t1. cbn [tbl]. rewrite find_uid_cons. destruct (uid_eqb_spec (q, id, 0) g); [congruence|reflexivity]. }
      destruct (IH t1 D' T) as [(t' & E & C & L & O & V)|(x & id' & st' & E & H & V)].
      * left. exists t'. split; [exact E|]. split; [exact C|]. split; [exact L|]. split.
        -- intros g K. rewrite O; [apply F1|].
           ++ intros ->. apply K. exists id, st. split; [now left|reflexivity].
           ++ intros (id' & st' & Q & ->). apply K. exists id', st'. split; [now right|reflexivity].
        -- intros id' st' [Q|Q].
           ++ injection Q as -> ->. split; [|congruence]. rewrite O; [|intros (id'' & st'' & Q & R); injection R as ->; now apply (NK st'')].
              unfold t1. cbn [tbl]. rewrite find_uid_cons, uid_eqb_refl. congruence.
           ++ rewrite <- F1 by (intros R; injection R as -> ->; now apply (NK 0)). now apply V.
      * right. exists x, id', st'. split; [exact E|]. split; [now right|].
        rewrite <- F1; [exact V|]. intros R. injection R as -> ->. now apply (NK 0).
    + right. exists NotFound, id, st. split; [reflexivity|]. split; [now left|exact F].
Qed.

Lemma findZ_nodup {A} (l : list (Z * A)) x a : NoDup (map fst l) -> In (x, a) l -> findZ l x = Some a.
Proof.
  induction l as [|[y b] l IH]; cbn; intros D []; inversion_clear D as [|? ? N D'].
  - injection H as -> ->. now rewrite Z.eqb_refl.
  - destruct (Z.eqb_spec y x); [|auto]. subst. destruct N. apply in_map_iff. now exists (x, a).
Qed.
Lemma NoDup_map_filter {A B} (h : A -> B) (P : A -> bool) l : NoDup (map h l) -> NoDup (map h (filter P l)).
Proof.
  induction l as [|a l IH]; cbn; intros D; [constructor|]. inversion_clear D as [|? ? N D']. destruct (P a); cbn; [|auto]. constructor; [|auto].
  intros H. apply N. apply in_map_iff in H. destruct H as (b & E & H). apply in_map_iff. exists b. split; [exact E|]. apply filter_In in H. tauto.
Qed.

Lemma export_agree f q vs e t M M' : NoDup (map fst vs) -> tinv f t ->
  (forall g, In g M' <-> (In g M /\ ~ keys q vs g) \/ (exists id st, In (id, st) vs /\ In (q, id, 0) M /\ g = (q, id, st))) ->
  agree f e t (fun g => In g M') ->
  (exists t', exportPublicNames q (rev (filter (fun v => is_in_missing M (q, fst v, 0)) vs)) t = Ret t' /\
     cnt t' = cnt t /\ litt t' = litt t /\ agree f (export q vs e) t' (fun g => In g M)) \/
  ((exists x, exportPublicNames q (rev (filter (fun v => is_in_missing M (q, fst v, 0)) vs)) t = Raise x) /\
   exists id st, In (id, st) vs /\ e (q, id, st) = None).
Proof.
  intros D T S A. set (xs := rev (filter (fun v => is_in_missing M (q, fst v, 0)) vs)).
  assert (X : forall id st, In (id, st) xs <-> In (id, st) vs /\ In (q, id, 0) M).
  { intros id st. unfold xs. rewrite <- in_rev, filter_In. cbn [fst]. now rewrite is_in_spec. }
  assert (Dx : NoDup (map fst xs)). { unfold xs. rewrite map_rev. apply NoDup_rev. now apply NoDup_map_filter. }
  destruct (export_spec f q xs t Dx T) as [(t' & E & C & L & O & V)|(x & id & st & E & H & V)].
  - left. exists t'. split; [exact E|]. split; [exact C|]. split; [exact L|]. intros g Hg.
    assert (CASE : (exists id st, In (id, st) vs /\ g = (q, id, 0)) \/ ~ keys q vs g).
    { destruct g as [[q' id] st0]. destruct (Z.eqb_spec q' q) as [->|Q]; [|right; intros (? & ? & _ & R); congruence].
      destruct (Z.eqb_spec st0 0) as [->|Q]; [|right; intros (? & ? & _ & R); congruence].
      destruct (findZ vs id) as [st|] eqn:F; [left; exists id, st; split; [now apply findZ_in|reflexivity]|].
      right. intros (id' & st' & H & R). injection R as ->. now apply (findZ_none _ _ F st'). }
    destruct CASE as [(id & st & H & ->)|NK].
    + assert (Hx : In (id, st) xs) by (apply X; auto). destruct (V _ _ Hx) as [V1 V2]. rewrite V1.
      unfold export. rewrite !Z.eqb_refl. cbn [andb]. rewrite (findZ_nodup vs id st D H).
      assert (Am : In (q, id, st) M') by (apply S; right; exists id, st; auto). exact (A _ Am).
    + assert (Am : In g M') by (apply S; left; auto). rewrite O.
      * specialize (A _ Am). cbn beta in A. assert (EE : export q vs e g = e g); [|now rewrite EE].
        unfold export. destruct g as [[q' id] st0]. destruct (Z.eqb_spec q' q) as [->|Q]; [|reflexivity]. destruct (Z.eqb_spec st0 0) as [->|Q]; [|reflexivity]. cbn [andb].
        destruct (findZ vs id) as [st|] eqn:F; [|reflexivity]. destruct NK. exists id, st. split; [now apply findZ_in|reflexivity].
      * intros (id & st & H & ->). apply NK. exists id, st. split; [|reflexivity]. now apply X in H.
  - right. split; [now exists x|]. exists id, st. apply X in H. destruct H as [H1 H2]. split; [exact H1|].
    assert (Am : In (q, id, st) M') by (apply S; right; exists id, st; auto). specialize (A _ Am). cbn beta in A.
    destruct (e (q, id, st)) as [d|]; [|reflexivity]. destruct A as (s & _ & A). congruence.
Qed.

(** ** the units *)
Lemma aligned_app f il prims : forall ps1 k ds1 k1 ps2 ds2 k2,
  aligned f il prims k ps1 ds1 k1 -> aligned f il prims (k + length ps1) ps2 ds2 k2 -> aligned f il prims k (ps1 ++ ps2) (ds1 ++ ds2) (k1 ++ k2).
Proof.
  induction ps1 as [|p ps1 IH]; intros k [|d ds1] [|o k1] ps2 ds2 k2; cbn [aligned app]; try tauto.
  - intros _. now rewrite Nat.add_0_r.
  - intros [H1 H2] H3. split; [exact H1|]. apply IH; [exact H2|]. cbn [length] in H3. now rewrite Nat.add_succ_r in H3.
Qed.
Lemma somes_app {A} (a b : list (option A)) : somes (a ++ b) = somes a ++ somes b.
Proof. induction a as [|[x|] a IH]; cbn; congruence. Qed.

Lemma units_spec prims : zlen prims <= 65536 -> forall us k e t f m0 objs,
  fold_right scan_file ([], []) us = (m0, objs) -> Forall unit_ok us -> tinv f t -> agree f e t (fun g => In g m0) ->
  (forall k' j', (k <= k')%nat -> f (Def k' j') = None) ->
  (exists css t' f' kept, link_objects (set_c_primitives prims) objs t = Ret (css, t') /\ concat css = somes kept /\
     tinv f' t' /\ grows f t f' t' /\ newdefs f f' k (all_phrases us) kept /\ length kept = length (all_phrases us) /\
     (cnt t' <= 2 ^ 32 -> aligned f' (isl t') prims k (all_phrases us) (resolve k us e) kept)) \/
  ((exists x, link_objects (set_c_primitives prims) objs t = Raise x) /\ undefined prims k us e).
Proof.
  intros LP. induction us as [|[q tb] us IH]; intros k e t f m0 objs Sc Ok T A Fr.
  - cbn in Sc. injection Sc as <- <-. left. exists [], t, f, []. split; [reflexivity|]. split; [reflexivity|]. split; [exact T|].
    split; [apply grows_refl|]. split; [now left|]. split; [reflexivity|]. intros _. exact Logic.I.
  - cbn [fold_right] in Sc. destruct (fold_right scan_file ([], []) us) as [m2 objs2] eqn:S2.
    inversion_clear Ok as [|? ? [Ok1 Ok2] Ok3]. cbn [fst snd] in Ok1, Ok2. cbn [scan_file] in Sc.
    destruct (scan_vals_spec q (val_ren tb) m2 [] Ok1) as (m1 & F1 & Sv). rewrite F1, app_nil_r in Sc.
    rewrite <- fold_left_rev_right in Sc. fold (phrases_of (q, tb)) in Sc. cbn [snd] in *.
    change (rev (phrase_index tb)) with (phrases_of (q, tb)) in Sc.
    replace (fold_right (fun y x => scan_phrase y x) (m1, []) (phrases_of (q, tb))) with (fold_right scan_phrase (m1, []) (phrases_of (q, tb))) in Sc by reflexivity.
    destruct (fold_right scan_phrase (m1, []) (phrases_of (q, tb))) as [m3 req] eqn:S3. injection Sc as <- <-.
    assert (Ly : Forall layout (phrases_of (q, tb))). { unfold phrases_of. apply Forall_rev. exact Ok2. }
    assert (PS := phrases_spec prims LP (phrases_of (q, tb)) k e t f m1 m3 req S3 Ly T A Fr).
    cbn [undefined resolve all_phrases flat_map fst snd]. destruct (resolve_phrases k (phrases_of (q, tb)) e) as [rs e1].
    cbn [link_objects]. unfold link_object. cbn [o_required o_unit o_exported].
    destruct PS as [(cs & t1 & f1 & kept1 & E1 & C1 & T1 & G1 & A1 & N1 & L1 & L1' & P1)|[(xx & E1) U]].
    + rewrite E1. cbn [bind].
      destruct (export_agree f1 q (val_ren tb) e1 t1 m2 m1 Ok1 T1 Sv A1) as [(t2 & E2 & C2 & Li2 & A2)|[(xx & E2) U]].
      * rewrite E2. cbn [bind].
        assert (T2 : tinv f1 t2). { unfold tinv in *. rewrite C2, Li2. exact T1. }
        assert (G2 : grows f1 t1 f1 t2). { split; [tauto|]. rewrite C2, Li2. split; [apply incl_refl|lia]. }
        destruct (IH (k + length (phrases_of (q, tb)))%nat (export q (val_ren tb) e1) t2 f1 m2 objs2 eq_refl Ok3 T2 A2) as
          [(css & t' & f' & kept & E3 & C3 & T3 & G3 & N3 & L3 & P3)|[(xx & E3) U]].
        { intros k' j' K'. destruct (f1 (Def k' j')) as [s|] eqn:Q; [|reflexivity]. destruct (N1 _ _ Q) as [Q'|(i & j & p' & g & pos & c' & Q' & Q2 & _)].
          - rewrite Fr in Q' by lia. discriminate.
          - injection Q' as -> ->. assert (i < length (phrases_of (q, tb)))%nat by (apply nth_error_Some; congruence). lia. }
        -- left. exists (cs :: css), t', f', (kept1 ++ kept). rewrite E3. cbn [bind]. split; [reflexivity|].
           split; [cbn [concat]; now rewrite C1, C3, somes_app|]. split; [exact T3|].
           split; [eapply grows_trans; [exact G1|eapply grows_trans; [exact G2|exact G3]]|]. split.
           { intros d s Hd. destruct (N3 _ _ Hd) as [Q|(i & j & p' & g & pos & c' & Q1 & Q2 & Q3 & Q4)].
             - destruct (N1 _ _ Q) as [Q'|(i & j & p' & g & pos & c' & Q1 & Q2 & Q3 & Q4)]; [now left|]. right. exists i, j, p', g, pos, c'.
               split; [exact Q1|]. split; [rewrite nth_error_app1; [exact Q2|apply nth_error_Some; congruence]|]. split; [exact Q3|].
               rewrite nth_error_app1; [exact Q4|apply nth_error_Some; congruence].
             - right. exists (length (phrases_of (q, tb)) + i)%nat, j, p', g, pos, c'. split; [rewrite Q1; f_equal; lia|].
               split; [rewrite nth_error_app2 by lia; rewrite Nat.add_comm, Nat.add_sub; exact Q2|]. split; [exact Q3|].
               rewrite nth_error_app2 by lia. rewrite L1. rewrite Nat.add_comm, Nat.add_sub. exact Q4. }
           split; [rewrite !app_length; unfold all_phrases in L3; lia|].
           intros BD. apply aligned_app.
           ++ apply aligned_grows with (f := f1) (t := t1); [eapply grows_trans; [exact G2|exact G3]|]. apply P1. destruct G2 as (_ & _ & G2), G3 as (_ & _ & G3). lia.
           ++ now apply P3.
        -- right. split; [exists xx; rewrite E3; reflexivity|]. right. right. exact U.
      * right. split; [exists xx; rewrite E2; reflexivity|]. right. left. exact U.
    + right. split; [exists xx; rewrite E1; reflexivity|]. left. exact U.
Qed.

(** ** the start and the end *)
Lemma start_gen predef : forall i e t f,
  tinv f t -> cnt t = Z.of_nat i -> litt t = [] -> agree f e t (fun _ => True) ->
  (forall d s, f d = Some s -> exists i', d = Predef i' /\ (i' < i)%nat /\ s = Z.of_nat i') ->
  exists f', tinv f' (fold_left (fun t q => snd (get_slot_for_defined_variable (fst q, snd q, 0) t)) predef t) /\
    agree f' (predefined i predef e) (fold_left (fun t q => snd (get_slot_for_defined_variable (fst q, snd q, 0) t)) predef t) (fun _ => True) /\
    (forall d s, f' d = Some s -> exists i', d = Predef i' /\ (i' < i + length predef)%nat /\ s = Z.of_nat i').
Proof.
  induction predef as [|[q id] predef IH]; intros i e t f T C L A D.
  - exists f. cbn. split; [exact T|]. split; [exact A|]. intros d s H. destruct (D _ _ H) as (i' & Q1 & Q2 & Q3). exists i'. split; [exact Q1|]. split; [lia|exact Q3].
  - cbn [fold_left predefined fst snd length].
    set (f1 := fun d => match d with Predef i' => if Nat.eqb i' i then Some (cnt t) else f d | _ => f d end).
    assert (I1 : forall d s, f1 d = Some s -> (d = Predef i /\ s = cnt t) \/ f d = Some s).
    { intros [i'|k j] s; cbn; [|now right]. destruct (Nat.eqb_spec i' i); [|now right]. intros H. injection H as <-. subst. now left. }
    assert (O1 : forall d s, f d = Some s -> f1 d = Some s).
    { intros d s H. destruct (D _ _ H) as (i' & -> & Q2 & Q3). cbn. destruct (Nat.eqb_spec i' i); [lia|exact H]. }
    destruct T as (A1 & A2 & A3 & A4 & A5).
    destruct (IH (S i) (upd e (q, id, 0) (Some (Predef i))) (snd (get_slot_for_defined_variable (q, id, 0) t)) f1) as (f' & T' & A' & D').
    + cbn. split; [cbn; lia|]. split; [intros d s H; cbn; apply I1 in H; destruct H as [[-> ->]|H]; [lia|specialize (A2 _ _ H); lia]|]. split.
      * intros d1 d2 s H1 H2. apply I1 in H1. apply I1 in H2. destruct H1 as [[-> ->]|H1], H2 as [[-> E]|H2]; try reflexivity.
        -- specialize (A2 _ _ H2). lia.
        -- subst. specialize (A2 _ _ H1). lia.
        -- eapply A3; eauto.
      * cbn. rewrite L. split; [intros s sc []|constructor].
    + cbn. lia.
    + exact L.
    + intros g _. unfold upd, get_slot_for_defined_variable. cbn [snd tbl]. rewrite find_uid_cons. destruct (uid_eqb_spec (q, id, 0) g) as [<-|N].
      * exists (cnt t). split; [cbn; now rewrite Nat.eqb_refl|reflexivity].
      * specialize (A g Logic.I). cbn beta in A. destruct (e g) as [d|]; [|exact A]. destruct A as (s & B1 & B2). exists s. auto.
    + intros d s H. apply I1 in H. destruct H as [[-> ->]|H]; [exists i; split; [reflexivity|split; [lia|exact C]]|].
      destruct (D _ _ H) as (i' & Q1 & Q2 & Q3). exists i'. split; [exact Q1|]. split; [lia|exact Q3].
    + exists f'. split; [exact T'|]. split; [exact A'|]. intros d s H. destruct (D' _ _ H) as (i' & Q1 & Q2 & Q3). exists i'. split; [exact Q1|]. split; [lia|exact Q3].
Qed.
Lemma start_spec predef : exists f, tinv f (reset_linker_tables predef) /\ agree f (start predef) (reset_linker_tables predef) (fun _ => True) /\
  (forall d s, f d = Some s -> exists i, d = Predef i /\ (i < length predef)%nat /\ s = Z.of_nat i).
Proof.
  apply (start_gen predef 0 (fun _ => None) (mkL 0 [] []) (fun _ => None)).
  - unfold tinv. cbn. split; [lia|]. split; [discriminate|]. split; [discriminate|]. split; [intros s sc []|constructor].
  - reflexivity.
  - reflexivity.
  - intros g _. reflexivity.
  - discriminate.
Qed.

Lemma fill_spec : forall l (b : list (option Z)), NoDup (map fst l) -> (forall s sc, In (s, sc) l -> 0 <= s < zlen b) ->
  exists b', fill_data l b = Ret b' /\ zlen b' = zlen b /\ (forall s sc, In (s, sc) l -> zget b' s = Some (Some sc)) /\
    (forall s, ~ In s (map fst l) -> zget b' s = zget b s).
Proof.
  induction l as [|[n sc] l IH]; intros b D R; cbn [fill_data].
  - exists b. split; [reflexivity|]. split; [reflexivity|]. split; [intros s sc []|reflexivity].
  - cbn [map fst] in D. inversion_clear D as [|? ? N D'].
    destruct (zset_some b n (Some sc) (R n sc (or_introl eq_refl))) as (b1 & E & L & G). unfold update_raw. rewrite E. cbn [bind].
    destruct (IH b1 D') as (b' & E' & L' & I' & O'). { intros s sc' H. rewrite L. apply (R s sc'). now right. }
    exists b'. split; [exact E'|]. split; [lia|]. split.
    + intros s sc' [Q|Q]; [|auto]. injection Q as -> ->. rewrite O' by exact N. rewrite G. now rewrite Z.eqb_refl.
    + intros s H. cbn [map fst In] in H. rewrite O' by tauto. rewrite G. destruct (Z.eqb_spec s n); [subst; tauto|reflexivity].
Qed.
Lemma zget_none_repeat n s : 0 <= s < Z.of_nat n -> zget (repeat (None : option Z) n) s = Some None.
Proof.
  intros H. unfold zget. destruct (Z.ltb_spec s 0); [lia|]. rewrite nth_error_nth' with (d := None) by (rewrite repeat_length; lia). now rewrite nth_repeat.
Qed.
Lemma data_spec f t : tinv f t -> exists data, emit_data t = Ret data /\ zlen data = cnt t /\
  (forall s sc, In (s, sc) (litt t) -> zget data s = Some (Some sc)) /\
  (forall d s, f d = Some s -> zget data s = Some None).
Proof.
  intros (A1 & A2 & A3 & A4 & A5). unfold emit_data.
  assert (L : zlen (repeat (None : option Z) (Z.to_nat (cnt t))) = cnt t) by (unfold zlen; rewrite repeat_length; lia).
  destruct (fill_spec (litt t) (repeat None (Z.to_nat (cnt t))) A5) as (b & E & L' & H & O).
  { intros s sc H. rewrite L. apply (A4 _ _ H). }
  exists b. split; [exact E|]. split; [lia|]. split; [exact H|]. intros d s Hd. rewrite O.
  - apply zget_none_repeat. specialize (A2 _ _ Hd). lia.
  - intros Q. apply in_map_iff in Q. destruct Q as ([s' sc] & Q1 & Q2). cbn in Q1. subst s'. now apply (A4 _ _ Q2) in Hd.
Qed.

Lemma aligned_lits f (il il' : Z -> Z -> Prop) prims : (forall s sc, il s sc -> il' s sc) -> forall ps k ds kept,
  aligned f il prims k ps ds kept -> aligned f il' prims k ps ds kept.
Proof.
  intros G. induction ps as [|p ps IH]; intros k [|d ds] [|o kept]; cbn; try tauto. intros [H1 H2]. split; [|now apply IH].
  destruct o; [|exact H1]. destruct H1 as (P1 & P2 & P3 & P4). split; [exact P1|]. split; [exact P2|]. split.
  - intros lit poss H. destruct (P3 _ _ H) as (s & A & B). exists s. auto.
  - intros j r pos H. specialize (P4 j r pos H). destruct r; try exact P4. destruct P4 as (s & A & B). exists s. auto.
Qed.

(** the second and third pass on the units [us] *)
Theorem link_units_spec predef prims us : zlen prims <= 65536 -> Forall unit_ok us ->
  let tolink := snd (scan_files (rev us)) in
  (exists css t data, link_objects (set_c_primitives prims) tolink (reset_linker_tables predef) = Ret (css, t) /\ emit_data t = Ret data /\
     (zlen data <= 2 ^ 32 -> linked predef prims us (concat css) data)) \/
  ((exists x, link_objects (set_c_primitives prims) tolink (reset_linker_tables predef) = Raise x) /\ undefined prims 0 us (start predef)).
Proof.
  intros LP Ok tolink. destruct (start_spec predef) as (f0 & T0 & A0 & D0).
  destruct (fold_right scan_file ([], []) us) as [m0 objs] eqn:S.
  assert (EQ : tolink = objs).
  { unfold tolink, scan_files. rewrite <- fold_left_rev_right, rev_involutive.
    replace (fold_right (fun y x => scan_file y x) ([], []) us) with (fold_right scan_file ([], []) us) by reflexivity. now rewrite S. }
  rewrite EQ.
  destruct (units_spec prims LP us 0 (start predef) (reset_linker_tables predef) f0 m0 objs S Ok T0) as
    [(css & t & f & kept & E & C & T & G & N & L & P)|[Ex U]].
  - eapply agree_weaken; [exact A0|]. intros g _. exact Logic.I.
  - intros k j _. destruct (f0 (Def k j)) as [s|] eqn:Q; [|reflexivity]. destruct (D0 _ _ Q) as (i & Q' & _). discriminate.
  - left. destruct (data_spec f t T) as (data & Ed & Ld & Hd & Od). exists css, t, data. split; [exact E|]. split; [exact Ed|].
    intros BD. exists f, kept. split; [exact C|]. split; [apply aligned_lits with (il := isl t); [exact Hd|apply P; lia]|].
    split; [apply T|]. split; [exact Od|]. split.
    + intros i s H. destruct (N _ _ H) as [Q|(i' & j & p & g & pos & c & Q & _)]; [|discriminate]. destruct (D0 _ _ Q) as (i' & R & R1 & R2). injection R as ->. auto.
    + intros k j s H. destruct (N _ _ H) as [Q|(i' & j' & p & g & pos & c & Q & Q1 & Q2 & Q3)]; [destruct (D0 _ _ Q) as (i' & R & _); discriminate|].
      cbn [Nat.add] in Q. injection Q as -> ->. exists p, g, pos, c. auto.
  - right. split; [exact Ex|exact U].
Qed.

(** ** The first pass *)
Section Order.
Variable files : list (Z * tables).
Variable autolink : bool.
Variable reserved : list Z.

Lemma memZ_spec x l : memZ x l = true <-> In x l.
Proof. unfold memZ. rewrite existsb_exists. split; [intros (y & H & E); apply Z.eqb_eq in E; now subst|]. intros H. exists x. split; [exact H|apply Z.eqb_refl]. Qed.
Lemma memZ_false x l : memZ x l = false <-> ~ In x l.
Proof. rewrite <- memZ_spec. destruct (memZ x l); split; congruence. Qed.

(** the units processed, latest first *)
Fixpoint ok (l : list (Z * tables)) : Prop :=
  match l with
  | [] => True
  | (u, t) :: l => ~ In u (map fst l) /\ findZ files u = Some t /\ ~ In u reserved /\
                   (forall v s, In (v, s) (mentions t) -> exists t', In (v, t') l /\ sig_stamp t' = s) /\ ok l
  end.
Definition dog (l : list (Z * tables)) : list (Z * Z) := map (fun x => (fst x, sig_stamp (snd x))) l.
Lemma findZ_dog l u : findZ (dog l) u = match findZ l u with Some t => Some (sig_stamp t) | None => None end.
Proof. induction l as [|[v t] l IH]; cbn; [reflexivity|]. destruct (v =? u); [reflexivity|exact IH]. Qed.
Lemma findZ_notin {A} (l : list (Z * A)) u : findZ l u = None <-> ~ In u (map fst l).
Proof.
  induction l as [|[v a] l IH]; cbn; [tauto|]. destruct (Z.eqb_spec v u); split; try discriminate; try tauto.
Qed.

(** the loop in check_file *)
Definition needs (fuel : nat) (pending : list Z) : list (Z * Z) -> cstate -> outcome cstate :=
  fix needs (l : list (Z * Z)) (st : cstate) : outcome cstate :=
  match l with
  | [] => Ret st
  | (sub, stamp) :: l => do st <- check_file files autolink reserved fuel sub (Some stamp) pending st; needs l st
  end.
Lemma check_file_eq fuel u so pending st : check_file files autolink reserved (S fuel) u so pending st =
  if memZ u pending then Raise FailExn
  else if memZ u reserved then Raise FailExn
  else match findZ (fst st) u with
       | Some stamp' => match so with Some stamp => if stamp =? stamp' then Ret st else Raise FailExn | None => Ret st end
       | None =>
           do t <- (match so with
                    | None => read_file files u
                    | Some stamp => if autolink then do t <- read_file files u; if stamp =? sig_stamp t then Ret t else Raise FailExn else Raise FailExn
                    end);
           do st <- needs fuel (u :: pending) (mentions t) st;
           Ret ((u, sig_stamp t) :: fst st, (u, t) :: snd st)
       end.
Proof. reflexivity. Qed.

(** what happens when a unit is checked *)
Definition checked (u : Z) (so : option Z) (pending : list Z) (st st' : cstate) : Prop :=
  exists new, snd st' = new ++ snd st /\ fst st' = dog (snd st') /\ ok (snd st') /\
    (forall v, In v pending -> ~ In v (map fst new)) /\
    (exists t, In (u, t) (snd st') /\ match so with Some s => sig_stamp t = s | None => True end) /\
    (autolink = false -> forall v, In v (map fst new) -> so = None /\ v = u) /\
    (forall v, In v (map fst new) -> v = u \/ exists w t, In (w, t) new /\ In v (map fst (mentions t))).

Lemma check_file_ok : forall fuel u so pending st st', fst st = dog (snd st) -> ok (snd st) ->
  check_file files autolink reserved fuel u so pending st = Ret st' -> checked u so pending st st'.
Proof.
  induction fuel as [|fuel IH]; intros u so pending st st' D K E; [discriminate|]. rewrite check_file_eq in E.
  destruct (memZ u pending) eqn:M1; [discriminate|]. destruct (memZ u reserved) eqn:M2; [discriminate|].
  apply memZ_false in M1. apply memZ_false in M2.
  destruct (findZ (fst st) u) as [stamp'|] eqn:F.
  - rewrite D, findZ_dog in F. destruct (findZ (snd st) u) as [t|] eqn:Ft; [|discriminate]. injection F as <-. apply findZ_in in Ft.
    assert (st' = st /\ match so with Some s => sig_stamp t = s | None => True end) as [-> Hs].
    { destruct so as [s|]; [|split; [congruence|exact Logic.I]]. destruct (Z.eqb_spec s (sig_stamp t)); [|discriminate]. split; congruence. }
    exists []. split; [reflexivity|]. split; [exact D|]. split; [exact K|]. split; [tauto|]. split; [now exists t|]. split; [intros _ v []|]. intros v [].
  - rewrite D, findZ_dog in F. destruct (findZ (snd st) u) as [t|] eqn:Ft; [discriminate|]. clear F. apply findZ_notin in Ft.
    set (rd := match so with None => read_file files u | Some stamp => if autolink then do t <- read_file files u; if stamp =? sig_stamp t then Ret t else Raise FailExn else Raise FailExn end) in E.
    destruct rd as [t| | |] eqn:Rd; try discriminate E. cbn [bind] in E.
    assert (findZ files u = Some t /\ match so with Some s => autolink = true /\ sig_stamp t = s | None => True end) as [Ff Hs].
    { subst rd. unfold read_file in Rd. destruct so as [s|].
      - destruct autolink; [|discriminate]. destruct (findZ files u); [|discriminate]. cbn [bind] in Rd. destruct (Z.eqb_spec s (sig_stamp t0)); [|discriminate]. injection Rd as <-. auto.
      - destruct (findZ files u); [|discriminate]. injection Rd as <-. auto. }
    clear rd Rd. destruct (needs fuel (u :: pending) (mentions t) st) as [st1| | |] eqn:N; try discriminate E. cbn [bind] in E. injection E as <-.
    assert (NS : forall l st st1, fst st = dog (snd st) -> ok (snd st) -> needs fuel (u :: pending) l st = Ret st1 ->
      exists new, snd st1 = new ++ snd st /\ fst st1 = dog (snd st1) /\ ok (snd st1) /\
        (forall v, In v (u :: pending) -> ~ In v (map fst new)) /\
        (forall v s, In (v, s) l -> exists t, In (v, t) (snd st1) /\ sig_stamp t = s) /\
        (autolink = false -> new = []) /\
        (forall v, In v (map fst new) -> In v (map fst l) \/ exists w t, In (w, t) new /\ In v (map fst (mentions t)))).
    { clear - IH. induction l as [|[v s] l IHl]; intros st st1 D K E; cbn [needs] in E.
      - injection E as <-. exists []. split; [reflexivity|]. split; [exact D|]. split; [exact K|]. split; [tauto|]. split; [intros v s []|]. split; [reflexivity|]. intros v [].
      - destruct (check_file files autolink reserved fuel v (Some s) (u :: pending) st) as [st2| | |] eqn:C; try discriminate E. cbn [bind] in E.
        destruct (IH _ _ _ _ _ D K C) as (n1 & A1 & A2 & A3 & A4 & (t1 & A5 & A6) & A7 & A8).
        destruct (IHl _ _ A2 A3 E) as (n2 & B1 & B2 & B3 & B4 & B5 & B6 & B7).
        exists (n2 ++ n1). split; [rewrite B1, A1, app_assoc; reflexivity|]. split; [exact B2|]. split; [exact B3|]. split.
        { intros v' H. rewrite map_app, in_app_iff. intros [Q|Q]; [now apply (B4 v')|now apply (A4 v')]. }
        split.
        { intros v' s' [Q|Q]; [|auto]. injection Q as <- <-. exists t1. split; [|exact A6]. rewrite B1. apply in_or_app. now right. }
        split.
        { intros H. rewrite (B6 H). cbn. destruct n1 as [|[v1 t1'] n1]; [reflexivity|]. destruct (A7 H v1 (or_introl eq_refl)). discriminate. }
        intros v'. rewrite map_app, in_app_iff. intros [Q|Q].
        + destruct (B7 _ Q) as [R|(w & t & R1 & R2)]; [left; now right|]. right. exists w, t. split; [apply in_or_app; now left|exact R2].
        + destruct (A8 _ Q) as [->|(w & t & R1 & R2)]; [left; now left|]. right. exists w, t. split; [apply in_or_app; now right|exact R2]. }
    destruct (NS _ _ _ D K N) as (new & A1 & A2 & A3 & A4 & A5 & A6 & A7). clear NS.
    exists ((u, t) :: new). cbn [fst snd map]. split; [rewrite A1; reflexivity|]. split; [unfold dog; cbn; unfold dog in A2; now rewrite A2|]. split.
    { cbn [ok]. split; [|auto]. rewrite A1, map_app, in_app_iff. intros [Q|Q]; [|contradiction]. apply (A4 u); [now left|exact Q]. }
    split.
    { intros v H [->|Q]; [contradiction|]. apply (A4 v); [now right|exact Q]. }
    split; [exists t; split; [now left|destruct so; tauto]|]. split.
    { intros H v [<-|Q]; [destruct so; [destruct Hs; congruence|now split]|]. rewrite (A6 H) in Q. destruct Q. }
    intros v [<-|Q]; [now left|]. right. destruct (A7 _ Q) as [R|(w & t' & R1 & R2)]; [exists u, t; split; [now left|exact R]|].
    exists w, t'. split; [now right|exact R2].
Qed.

Lemma check_files_ok fuel : forall units st st', fst st = dog (snd st) -> ok (snd st) ->
  check_files files autolink reserved fuel units st = Ret st' ->
  exists new, snd st' = new ++ snd st /\ fst st' = dog (snd st') /\ ok (snd st') /\
    (forall u, In u units -> In u (map fst (snd st'))) /\
    (autolink = false -> forall v, In v (map fst new) -> In v units) /\
    (forall v, In v (map fst new) -> In v units \/ exists w t, In (w, t) new /\ In v (map fst (mentions t))).
Proof.
  induction units as [|u units IH]; intros st st' D K E; cbn [check_files] in E.
  - injection E as <-. exists []. split; [reflexivity|]. split; [exact D|]. split; [exact K|]. split; [intros u []|]. split; [intros _ v []|]. intros v [].
  - destruct (check_file files autolink reserved fuel u None [] st) as [st1| | |] eqn:C; try discriminate E. cbn [bind] in E.
    destruct (check_file_ok _ _ _ _ _ _ D K C) as (n1 & A1 & A2 & A3 & A4 & (t & A5 & A6) & A7 & A8).
    destruct (IH _ _ A2 A3 E) as (n2 & B1 & B2 & B3 & B4 & B5 & B6).
    exists (n2 ++ n1). split; [rewrite B1, A1, app_assoc; reflexivity|]. split; [exact B2|]. split; [exact B3|]. split.
    { intros v [<-|H]; [|auto]. rewrite B1, map_app, in_app_iff. right. apply in_map_iff. now exists (u, t). }
    split.
    { intros H v. rewrite map_app, in_app_iff. intros [Q|Q]; [right; auto|]. destruct (A7 H _ Q). now left. }
    intros v. rewrite map_app, in_app_iff. intros [Q|Q].
    + destruct (B6 _ Q) as [R|(w & t' & R1 & R2)]; [left; now right|]. right. exists w, t'. split; [apply in_or_app; now left|exact R2].
    + destruct (A8 _ Q) as [->|(w & t' & R1 & R2)]; [left; now left|]. right. exists w, t'. split; [apply in_or_app; now right|exact R2].
Qed.

Lemma ok_consistent : forall l, ok l -> consistent files reserved (rev l).
Proof.
  induction l as [|[u t] l IH]; intros K.
  - split; [constructor|]. split; [intros u t []|]. intros us1 u t us2 v s H. destruct us1; discriminate.
  - destruct K as (K1 & K2 & K3 & K4 & K5). destruct (IH K5) as (C1 & C2 & C3). cbn [rev]. split.
    + rewrite map_app. cbn. rewrite map_rev in *. apply NoDup_rev in C1. rewrite rev_involutive in C1.
      assert (X : NoDup (u :: map fst l)) by now constructor. apply NoDup_rev in X. exact X.
    + split.
      * intros v t'. rewrite in_app_iff. intros [H|[H|[]]]; [auto|]. injection H as <- <-. auto.
      * intros us1 v t' us2 w s E H. destruct us2 as [|x us2 _] using rev_ind.
        -- apply app_inj_tail in E. destruct E as [E1 E2]. injection E2 as <- <-. destruct (K4 _ _ H) as (t'' & Q1 & Q2). exists t''. split; [|exact Q2]. rewrite <- E1. now apply -> in_rev.
        -- change (us1 ++ (v, t') :: us2 ++ [x]) with (us1 ++ ((v, t') :: us2) ++ [x]) in E. rewrite app_assoc in E. apply app_inj_tail in E. destruct E as [E _].
           eapply C3; eauto.
Qed.

(** ** the first pass stops *)
Lemma needs_stops fuel pending : (forall u so st, check_file files autolink reserved fuel u so pending st <> Diverge) ->
  forall l st, needs fuel pending l st <> Diverge.
Proof.
  intros H. induction l as [|[v s] l IH]; intros st; cbn [needs]; [discriminate|]. specialize (H v (Some s) st).
  destruct (check_file files autolink reserved fuel v (Some s) pending st); cbn [bind]; congruence.
Qed.
Lemma check_file_stops : forall fuel u so pending st, NoDup pending -> incl pending (map fst files) ->
  (length files < fuel + length pending)%nat -> check_file files autolink reserved fuel u so pending st <> Diverge.
Proof.
  induction fuel as [|fuel IH]; intros u so pending st ND IN L.
  - apply (NoDup_incl_length ND) in IN. rewrite map_length in IN. lia.
  - rewrite check_file_eq. destruct (memZ u pending) eqn:M; [discriminate|]. apply memZ_false in M. destruct (memZ u reserved); [discriminate|].
    destruct (findZ (fst st) u); [destruct so as [s|]; [destruct (s =? z)|]; discriminate|].
    assert (X : match so with None => read_file files u | Some stamp => if autolink then do t <- read_file files u; if stamp =? sig_stamp t then Ret t else Raise FailExn else Raise FailExn end
      <> Diverge /\ forall t, match so with None => read_file files u | Some stamp => if autolink then do t <- read_file files u; if stamp =? sig_stamp t then Ret t else Raise FailExn else Raise FailExn end = Ret t -> In u (map fst files)).
    { unfold read_file. destruct (findZ files u) as [t|] eqn:F.
      - apply findZ_in in F. assert (In u (map fst files)) by (apply in_map_iff; now exists (u, t)). split; [|auto].
        destruct so as [s|]; [|discriminate]. destruct autolink; [|discriminate]. cbn [bind]. destruct (s =? sig_stamp t); discriminate.
      - split; [destruct so; [destruct autolink|]; discriminate|]. intros t. destruct so; [destruct autolink|]; discriminate. }
    destruct X as [X1 X2].
    destruct (match so with None => read_file files u | Some stamp => if autolink then do t <- read_file files u; if stamp =? sig_stamp t then Ret t else Raise FailExn else Raise FailExn end) as [t| | |]; cbn [bind]; try congruence.
    specialize (X2 t eq_refl).
    assert (NS : needs fuel (u :: pending) (mentions t) st <> Diverge).
    { apply needs_stops. intros v s' st'. apply IH; [now constructor|intros x [<-|Hx]; auto|cbn; lia]. }
    destruct (needs fuel (u :: pending) (mentions t) st); cbn [bind]; congruence.
Qed.
Lemma check_files_stops fuel : (length files < fuel)%nat -> forall units st, check_files files autolink reserved fuel units st <> Diverge.
Proof.
  intros L. induction units as [|u units IH]; intros st; cbn [check_files]; [discriminate|].
  assert (C := check_file_stops fuel u None [] st (NoDup_nil _)). destruct (check_file files autolink reserved fuel u None [] st); cbn [bind]; try congruence.
  exfalso. apply C; [intros x []|cbn; lia|reflexivity].
Qed.
(** only Fail, and nothing undefined *)
Definition fails {A} (o : outcome A) : Prop := match o with Ret _ => True | Raise x => x = FailExn | UB => False | Diverge => True end.
Lemma check_file_fails : forall fuel u so pending st, fails (check_file files autolink reserved fuel u so pending st).
Proof.
  induction fuel as [|fuel IH]; intros u so pending st; [exact Logic.I|]. rewrite check_file_eq.
  destruct (memZ u pending); [reflexivity|]. destruct (memZ u reserved); [reflexivity|].
  destruct (findZ (fst st) u); [destruct so as [s|]; [destruct (s =? z)|]; cbn; auto|].
  assert (R : fails (match so with None => read_file files u | Some stamp => if autolink then do t <- read_file files u; if stamp =? sig_stamp t then Ret t else Raise FailExn else Raise FailExn end)).
  { unfold read_file. destruct (findZ files u) as [t|], so as [s|], autolink; cbn [bind]; try exact Logic.I; try reflexivity. destruct (s =? sig_stamp t); [exact Logic.I|reflexivity]. }
  destruct (match so with None => read_file files u | Some stamp => if autolink then do t <- read_file files u; if stamp =? sig_stamp t then Ret t else Raise FailExn else Raise FailExn end) as [t| | |]; cbn [bind]; try exact R.
  assert (NS : forall l st, fails (needs fuel (u :: pending) l st)).
  { induction l as [|[v s] l IHl]; intros st'; cbn [needs]; [exact Logic.I|]. specialize (IH v (Some s) (u :: pending) st').
    destruct (check_file files autolink reserved fuel v (Some s) (u :: pending) st'); cbn [bind]; try exact IH. apply IHl. }
  specialize (NS (mentions t) st). destruct (needs fuel (u :: pending) (mentions t) st); cbn [bind]; try exact NS.
Qed.
Lemma check_files_fails fuel : forall units st, fails (check_files files autolink reserved fuel units st).
Proof.
  induction units as [|u units IH]; intros st; cbn [check_files]; [exact Logic.I|]. assert (F := check_file_fails fuel u None [] st).
  destruct (check_file files autolink reserved fuel u None [] st); cbn [bind]; try exact F. apply IH.
Qed.

(** ** the first pass succeeds when it can *)
(** everything processed is from the files *)
Definition from_files (st : cstate) : Prop := fst st = dog (snd st) /\ ok (snd st).
Lemma consistent_split us u : consistent files reserved us -> In u (map fst us) ->
  exists us1 t us2, us = us1 ++ (u, t) :: us2 /\ findZ files u = Some t /\ ~ In u reserved /\ ~ In u (map fst us1) /\
    forall v s, In (v, s) (mentions t) -> exists t', In (v, t') us1 /\ sig_stamp t' = s /\ findZ files v = Some t'.
Proof.
  intros (C1 & C2 & C3) H. apply in_map_iff in H. destruct H as ([u' t] & E & H). cbn in E. subst u'. apply in_split in H. destruct H as (us1 & us2 & ->).
  exists us1, t, us2. split; [reflexivity|]. destruct (C2 u t) as [D1 D2]; [apply in_or_app; right; now left|]. split; [exact D1|]. split; [exact D2|]. split.
  - rewrite map_app in C1. cbn in C1. apply NoDup_remove_2 in C1. rewrite in_app_iff in C1. tauto.
  - intros v s H. destruct (C3 _ _ _ _ _ _ eq_refl H) as (t' & Q1 & Q2). exists t'. split; [exact Q1|]. split; [exact Q2|]. apply C2. apply in_or_app. now left.
Qed.
Lemma ok_find : forall l u t, ok l -> findZ l u = Some t -> findZ files u = Some t.
Proof.
  induction l as [|[v t'] l IH]; intros u t K F; cbn in *; [discriminate|]. destruct K as (K1 & K2 & K3 & K4 & K5).
  destruct (Z.eqb_spec v u); [|eauto]. injection F as <-. now subst.
Qed.
Lemma check_file_succeeds us : autolink = true -> consistent files reserved us ->
  forall n us1 u t us2, length us1 = n -> us = us1 ++ (u, t) :: us2 ->
  forall fuel so pending st, from_files st -> (length us1 < fuel)%nat -> (forall v, In v pending -> ~ In v (u :: map fst us1)) ->
    match so with Some s => s = sig_stamp t | None => True end ->
    exists st', check_file files autolink reserved fuel u so pending st = Ret st'.
Proof.
  intros AL C. induction n as [n IH] using lt_wf_ind. intros us1 u t us2 Ln E fuel so pending st FF L P Hs.
  destruct fuel as [|fuel]; [lia|]. rewrite check_file_eq.
  destruct C as (C1 & C2 & C3). destruct (C2 u t) as [D1 D2]; [rewrite E; apply in_or_app; right; now left|].
  destruct (memZ u pending) eqn:M. { apply memZ_spec in M. destruct (P _ M). now left. }
  destruct (memZ u reserved) eqn:M2. { apply memZ_spec in M2. contradiction. }
  destruct FF as [FF1 FF2].
  destruct (findZ (fst st) u) as [stamp'|] eqn:F.
  - rewrite FF1, findZ_dog in F. destruct (findZ (snd st) u) as [t'|] eqn:Ft; [|discriminate]. injection F as <-.
    apply ok_find in Ft; [|exact FF2]. rewrite Ft in D1. injection D1 as ->. destruct so as [s|]; [|eauto]. subst s. rewrite Z.eqb_refl. eauto.
  - assert (R : match so with None => read_file files u | Some stamp => if autolink then do t <- read_file files u; if stamp =? sig_stamp t then Ret t else Raise FailExn else Raise FailExn end = Ret t).
    { unfold read_file. rewrite D1. destruct so as [s|]; [|reflexivity]. subst s. rewrite AL. cbn [bind]. now rewrite Z.eqb_refl. }
    rewrite R. cbn [bind].
    assert (NS : forall l st, from_files st -> incl l (mentions t) -> exists st', needs fuel (u :: pending) l st = Ret st').
    { induction l as [|[v s] l IHl]; intros st' FF I; [eexists; reflexivity|].
      destruct (C3 _ _ _ _ _ _ E (I _ (or_introl eq_refl))) as (t' & Q1 & Q2). apply in_split in Q1. destruct Q1 as (a & b & Eab).
      cbn [needs]. destruct (IH (length a)) with (us1 := a) (u := v) (t := t') (us2 := b ++ (u, t) :: us2) (fuel := fuel) (so := Some s) (pending := u :: pending) (st := st') as (st2 & E2).
      - rewrite <- Ln, Eab, app_length. cbn. lia.
      - reflexivity.
      - rewrite E, Eab, <- app_assoc. reflexivity.
      - exact FF.
      - rewrite Eab, app_length in L. cbn in L. lia.
      - assert (SUB : forall x, In x (v :: map fst a) -> In x (map fst us1)).
        { rewrite Eab, map_app. cbn. intros x [<-|Hx]; apply in_or_app; [right; now left|now left]. }
        intros x [<-|Hx] Hin.
        + apply SUB in Hin. rewrite E, map_app in C1. cbn in C1. apply NoDup_remove_2 in C1. apply C1. apply in_or_app. now left.
        + apply (P x Hx). right. auto.
      - auto.
      - rewrite E2. cbn [bind]. apply IHl; [|intros x Hx; apply I; now right].
        destruct FF as [G1 G2]. destruct (check_file_ok _ _ _ _ _ _ G1 G2 E2) as (new & _ & B1 & B2 & _). now split. }
    destruct (NS (mentions t) st (conj FF1 FF2) (incl_refl _)) as (st1 & E1). rewrite E1. cbn [bind]. eauto.
Qed.
Lemma check_files_succeed us fuel : autolink = true -> consistent files reserved us -> (length us <= fuel)%nat ->
  forall units st, from_files st -> incl units (map fst us) -> exists st', check_files files autolink reserved fuel units st = Ret st'.
Proof.
  intros AL C L. induction units as [|u units IH]; intros st FF I; cbn [check_files]; [eauto|].
  destruct (consistent_split us u C (I _ (or_introl eq_refl))) as (us1 & t & us2 & E & _).
  destruct (check_file_succeeds us AL C (length us1) us1 u t us2 eq_refl E fuel None [] st FF) as (st1 & E1).
  - rewrite E, app_length in L. cbn in L. lia.
  - intros v [].
  - exact Logic.I.
  - rewrite E1. cbn [bind]. apply IH; [|intros x Hx; apply I; now right].
    destruct FF as [G1 G2]. destruct (check_file_ok _ _ _ _ _ _ G1 G2 E1) as (new & _ & B1 & B2 & _). now split.
Qed.

(** without automatic linking: the units given, if their order is right *)
Lemma needs_present fuel pending l st : (0 < fuel)%nat -> fst st = dog (snd st) ->
  (forall v s, In (v, s) l -> ~ In v pending /\ ~ In v reserved /\ exists t, findZ (snd st) v = Some t /\ sig_stamp t = s) ->
  needs fuel pending l st = Ret st.
Proof.
  intros L D. induction l as [|[v s] l IH]; intros H; [reflexivity|]. cbn [needs].
  destruct (H v s (or_introl eq_refl)) as (H1 & H2 & t & H3 & H4). destruct fuel as [|fuel]; [lia|]. rewrite check_file_eq.
  apply memZ_false in H1. apply memZ_false in H2. rewrite H1, H2, D, findZ_dog, H3, H4, Z.eqb_refl. cbn [bind]. apply IH. intros v' s' Hv. apply H. now right.
Qed.
Lemma check_files_given fuel us : (2 <= fuel)%nat -> consistent files reserved us ->
  forall us2 us1, us = us1 ++ us2 -> check_files files autolink reserved fuel (map fst us2) (dog (rev us1), rev us1) = Ret (dog (rev us), rev us).
Proof.
  intros L C. destruct C as (C1 & C2 & C3). induction us2 as [|[u t] us2 IH]; intros us1 E; cbn [map check_files fst].
  - rewrite app_nil_r in E. now subst.
  - destruct fuel as [|fuel]; [lia|]. rewrite check_file_eq. cbn [memZ existsb]. destruct (C2 u t) as [D1 D2]; [rewrite E; apply in_or_app; right; now left|].
    apply memZ_false in D2. rewrite D2. cbn [fst]. rewrite findZ_dog.
    assert (NI : forall x, In x (map fst us1) -> x <> u).
    { intros x Hx ->. rewrite E, map_app in C1. cbn in C1. apply NoDup_remove_2 in C1. apply C1. apply in_or_app. now left. }
    assert (F : findZ (rev us1) u = None). { apply findZ_notin. rewrite map_rev, <- in_rev. intros Hx. now apply (NI u). }
    rewrite F. unfold read_file. rewrite D1. cbn [bind]. rewrite needs_present.
    + cbn [bind fst snd]. specialize (IH (us1 ++ [(u, t)])). rewrite rev_app_distr in IH. cbn [rev app dog map fst snd] in IH. apply IH. rewrite E, <- app_assoc. reflexivity.
    + lia.
    + reflexivity.
    + cbn [snd]. intros v s Hv. destruct (C3 _ _ _ _ _ _ E Hv) as (t' & Q1 & Q2).
      assert (Hv1 : In v (map fst us1)) by (apply in_map_iff; now exists (v, t')).
      split; [intros [Q|[]]; now apply (NI v)|]. split; [apply (C2 v t'); rewrite E; apply in_or_app; now left|].
      exists t'. split; [|exact Q2]. apply findZ_nodup.
      * rewrite map_rev. apply NoDup_rev. rewrite E, map_app in C1. apply NoDup_app_inv in C1. tauto.
      * now apply -> in_rev.
Qed.
End Order.
