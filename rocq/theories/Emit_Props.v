(** C44: back-patched branch offsets are correct. *)
From Verif Require Import Base ArrayLib Opcodes Emit_Model Emit_Proofs.

(** *** Specification.  What a list of calls of the emitting functions stands for. *)
(** bytes it takes *)
Definition size (c : call) : Z :=
  match c with
  | Out _ => 1 | Short _ => 2 | Long _ => 4 | Label _ => 4 | Table ls => 4 * Z.of_nat (length ls) | Def _ => 0
  | Lit _ => 4 | Get _ => 4 | Set_ _ => 4 | CPrim _ => 2 | Fail => 0
  end.
Fixpoint length_of (cs : list call) : Z := match cs with [] => 0 | c :: cs => size c + length_of cs end.
(** little-endian bytes of a number *)
Fixpoint bytes (k : nat) (x : Z) : list Z := match k with O => [] | S k => x mod 256 :: bytes k (x / 256) end.
(** position where a label is defined *)
Fixpoint label_pos (p : Z) (cs : list call) (l : Z) : option Z :=
  match cs with
  | [] => None
  | Def l' :: cs => if l' =? l then Some p else label_pos p cs l
  | c :: cs => label_pos (p + size c) cs l
  end.
(** the operand for a label, relative to orig; 0 if the label is never defined *)
Definition offset (where_is : Z -> option Z) (orig l : Z) : list Z :=
  bytes 4 (match where_is l with Some d => d - orig | None => 0 end).
Definition call_bytes (where_is : Z -> option Z) (p : Z) (c : call) : list Z :=
  match c with
  | Out b => bytes 1 b | Short x => bytes 2 x | Long x => bytes 4 x
  | Label l => offset where_is p l
  | Table ls => flat_map (offset where_is p) ls
  | Def _ => [] | Fail => []
  | Lit _ => [0; 0; 0; 0] | Get _ => [0; 0; 0; 0] | Set_ _ => [0; 0; 0; 0] | CPrim _ => [0; 0]
  end.
Fixpoint code (where_is : Z -> option Z) (p : Z) (cs : list call) : list Z :=
  match cs with [] => [] | c :: cs => call_bytes where_is p c ++ code where_is (p + size c) cs end.
(** relocations: the position of every slot *)
Fixpoint relocs (p : Z) (cs : list call) : list (reloc * Z) :=
  match cs with
  | [] => []
  | c :: cs => (match c with Lit x => [(Reloc_literal x, p)] | Get x => [(Reloc_getglobal x, p)] | Set_ x => [(Reloc_setglobal x, p)]
                | CPrim x => [(Reloc_primitive x, p)] | _ => [] end) ++ relocs (p + size c) cs
  end.
Fixpoint defined (cs : list call) : list Z := match cs with [] => [] | Def l :: cs => l :: defined cs | _ :: cs => defined cs end.
(** no error call, labels are numbers from 0 *)
Definition valid (cs : list call) : Prop :=
  forall c, In c cs -> match c with Fail => False | Def l => 0 <= l | Label l => 0 <= l | Table ls => forall l, In l ls -> 0 <= l | _ => True end.

Definition start (buffer : list Z) : st := {| buf := buffer; pos := 0; tbl := repeat (Label_undefined []) 16; rel := [] |}.
(** the code emitted so far *)
Definition emitted (s : st) : list Z := firstn (Z.to_nat (pos s)) (buf s).
(** reading a signed 32-bit little-endian word *)
Definition read32 (a : list Z) (p : Z) : Z :=
  let u := znth 0 a p + 256 * znth 0 a (p + 1) + 65536 * znth 0 a (p + 2) + 16777216 * znth 0 a (p + 3) in
  if u <? 2147483648 then u else u - 4294967296.

(** *** Proofs *)
Lemma bytes_le k : forall x, bytes k x = le k x.
Proof. induction k; intros x; cbn; [reflexivity|]. now rewrite IHk. Qed.
Lemma total_map_IR p ls : total (map (IR p) ls) = 4 * Z.of_nat (length ls).
Proof. induction ls; cbn [map total isize length]; lia. Qed.
Lemma size_items p c : total (items_of p c) = size c.
Proof. destruct c; cbn; try reflexivity. now rewrite total_map_IR. Qed.
Lemma items_total p cs : total (items p cs) = length_of cs.
Proof. revert p. induction cs as [|c cs IH]; intros p; cbn; [reflexivity|]. now rewrite total_app, IH, size_items. Qed.
Lemma where_map_IR p q ls l : where_ q (map (IR p) ls) l = None.
Proof. revert q. induction ls; intros q; cbn; auto. Qed.
Lemma items_where p cs l : where_ p (items p cs) l = label_pos p cs l.
Proof.
  revert p. induction cs as [|c cs IH]; intros p; cbn [items]; [reflexivity|]. rewrite where_app, size_items.
  destruct c; cbn [items_of where_ label_pos]; try apply IH.
  - now rewrite where_map_IR.
  - destruct (lbl =? l); [reflexivity|]. cbn [size]. rewrite Z.add_0_r. apply IH.
Qed.
Lemma icode_table e p ls : icode e (map (IR p) ls) = flat_map (offset e p) ls.
Proof. induction ls; cbn [map icode flat_map]; [reflexivity|]. now rewrite IHls. Qed.
Lemma items_code e p cs : icode e (items p cs) = code e p cs.
Proof.
  revert p. induction cs as [|c cs IH]; intros p; cbn [items code]; [reflexivity|]. rewrite icode_app, size_items, IH. f_equal.
  destruct c; cbn [items_of icode ibytes call_bytes]; rewrite ?app_nil_r; try reflexivity.
  - rewrite bytes_le. apply raw2_le.
  - rewrite bytes_le. apply raw4_le.
  - apply icode_table.
Qed.
Lemma slots_table p q ls : slots q (map (IR p) ls) = [].
Proof. revert q. induction ls; intros q; cbn; auto. Qed.
Lemma items_slots p cs : slots p (items p cs) = relocs p cs.
Proof.
  revert p. induction cs as [|c cs IH]; intros p; cbn [items relocs]; [reflexivity|]. rewrite slots_app, size_items, IH. f_equal.
  destruct c; cbn; try reflexivity. apply slots_table.
Qed.
Lemma defs_table p ls : defs (map (IR p) ls) = [].
Proof. induction ls; cbn; auto. Qed.
Lemma items_defs p cs : defs (items p cs) = defined cs.
Proof.
  revert p. induction cs as [|c cs IH]; intros p; cbn [items defined]; [reflexivity|]. rewrite defs_app, IH.
  destruct c; cbn; try reflexivity. now rewrite defs_table.
Qed.
Lemma items_labels p cs : valid cs -> labels_ok (items p cs).
Proof.
  revert p. induction cs as [|c cs IH]; intros p V i Hi; cbn [items] in Hi; [contradiction|].
  apply in_app_or in Hi as [Hi|Hi].
  - specialize (V c (or_introl eq_refl)). destruct c; cbn [items_of] in Hi; try (destruct Hi as [<-|[]]; cbn; auto; fail); [|contradiction].
    apply in_map_iff in Hi as (l & <- & Hl). now apply V.
  - eapply IH, Hi. intros c' Hc. apply V. now right.
Qed.

Lemma inv_start buffer : 0 < zlen buffer -> inv [] (start buffer).
Proof.
  intros L. split; cbn; auto; try reflexivity; [now exists buffer|].
  intros l Hl. unfold look. destruct (zget (repeat (Label_undefined []) 16) l) as [d|] eqn:E; [|now cbn in E; rewrite E].
  pose proof (zget_In _ _ _ E) as HI. apply repeat_spec in HI. subst. cbn in E. now rewrite E.
Qed.

Lemma calls_items cs : forall done s, inv done s -> valid cs ->
  do_calls cs s = do_items (items (total done) cs) s.
Proof.
  induction cs as [|c cs IH]; intros done s I V; [reflexivity|]. cbn [do_calls items]. rewrite do_items_app.
  rewrite do_call_items by (intros ->; exact (V Fail (or_introl eq_refl))). rewrite (inv_pos _ _ I).
  assert (V' : valid cs) by (intros c' Hc; apply V; now right).
  assert (LO : labels_ok (items_of (total done) c)).
  { intros i Hi. apply (items_labels (total done) (c :: cs) V). cbn. apply in_or_app. now left. }
  destruct (do_items (items_of (total done) c) s) as [s1| | |] eqn:E; cbn [bind]; try reflexivity.
  pose proof (do_items_inv _ _ _ _ I LO E) as I1.
  rewrite (IH _ s1 I1 V'), total_app. reflexivity.
Qed.

(** a run that succeeds used only labels from 0 *)
Lemma ref_label o l s s' : out_label_with_orig o l s = Ret s' -> 0 <= l.
Proof.
  unfold out_label_with_orig. destruct (l =? Nolabel); [discriminate|].
  destruct (Z.leb_spec (zlen (tbl s)) l) as [H|H]; [intros _; pose proof (zlen_nonneg (tbl s)); lia|]. cbn [bind].
  unfold sub_chk. destruct (zget (tbl s) l) eqn:E; [|discriminate]. intros _. apply zget_range in E. lia.
Qed.
Lemma def_label l s s' : define_label l s = Ret s' -> 0 <= l.
Proof.
  unfold define_label. destruct (Z.ltb_spec l (zlen (tbl s))) as [H|H]; [|intros _; pose proof (zlen_nonneg (tbl s)); lia]. cbn [bind].
  unfold sub_chk. destruct (zget (tbl s) l) eqn:E; [|discriminate]. intros _. apply zget_range in E. lia.
Qed.
Lemma table_label o ls : forall s s', out_table o ls s = Ret s' -> forall l, In l ls -> 0 <= l.
Proof.
  induction ls as [|x ls IH]; intros s s' E l Hl; [contradiction|]. cbn [out_table] in E.
  destruct (out_label_with_orig o x s) as [s1| | |] eqn:E1; cbn [bind] in E; try discriminate.
  destruct Hl as [<-|Hl]; [eapply ref_label, E1|eapply IH; eassumption].
Qed.
Lemma run_valid cs : forall s s', do_calls cs s = Ret s' -> valid cs.
Proof.
  induction cs as [|c cs IH]; intros s s' E x Hx; [contradiction|]. cbn [do_calls] in E.
  destruct (do_call c s) as [s1| | |] eqn:E1; cbn [bind] in E; try discriminate.
  destruct Hx as [<-|Hx]; [|eapply IH; eassumption].
  destruct c; cbn [do_call] in E1; auto; try discriminate.
  - eapply ref_label, E1. - eapply table_label, E1. - eapply def_label, E1.
Qed.

Lemma run_facts buffer cs : 0 < zlen buffer -> valid cs ->
  (NoDup (defined cs) -> exists s, do_calls cs (start buffer) = Ret s /\ pos s = length_of cs /\
     emitted s = code (label_pos 0 cs) 0 cs /\ rel s = rev (relocs 0 cs)) /\
  (~ NoDup (defined cs) -> do_calls cs (start buffer) = Raise FailExn).
Proof.
  intros L V. pose proof (inv_start buffer L) as I. rewrite (calls_items cs [] _ I V). cbn [total].
  destruct (do_items_ok (items 0 cs) [] _ I (items_labels 0 cs V)) as [A B]. cbn [app] in A, B. rewrite items_defs in A, B. split.
  - intros ND. destruct (A ND) as (s & E & I'). exists s. split; [assumption|].
    assert (P : pos s = length_of cs) by (rewrite (inv_pos _ _ I'); apply items_total). split; [assumption|]. split.
    + unfold emitted. destruct (inv_buf _ _ I') as [r ->].
      rewrite (icode_ext _ (label_pos 0 cs) _ (items_where 0 cs)), items_code.
      assert (LC : zlen (code (label_pos 0 cs) 0 cs) = pos s) by (rewrite <- items_code, icode_len, items_total; now symmetry).
      assert (length (code (label_pos 0 cs) 0 cs) = Z.to_nat (pos s)) as LN by (rewrite <- LC; unfold zlen; lia).
      rewrite <- LN, firstn_app, Nat.sub_diag, firstn_all. cbn. apply app_nil_r.
    + rewrite (inv_rel _ _ I'), items_slots. reflexivity.
  - intros ND. apply B; [constructor|assumption].
Qed.

(** The code is the concatenation of what the calls emit, every reference to a label holding the
    distance to the label's definition, wherever that is; whatever the buffer held and however often
    it grew.  The relocation table has the position of every slot. *)
Theorem C44_code : forall buffer cs s, 0 < zlen buffer -> do_calls cs (start buffer) = Ret s ->
  emitted s = code (label_pos 0 cs) 0 cs /\ pos s = length_of cs /\ rel s = rev (relocs 0 cs).
Proof.
  intros buffer cs s L E. pose proof (run_valid _ _ _ E) as V. destruct (run_facts buffer cs L V) as [A B].
  assert (ND : NoDup (defined cs)). { destruct (ListDec.NoDup_dec Z.eq_dec (defined cs)); [assumption|]. rewrite B in E by assumption. discriminate. }
  destruct (A ND) as (s' & E' & P & C & R). rewrite E in E'. injection E' as <-. auto.
Qed.

(** Emission fails exactly on an error call, a negative label, or a label defined twice *)
Theorem C44_succeeds : forall buffer cs, 0 < zlen buffer ->
  ((exists s, do_calls cs (start buffer) = Ret s) <-> valid cs /\ NoDup (defined cs)).
Proof.
  intros buffer cs L. split.
  - intros [s E]. pose proof (run_valid _ _ _ E) as V. split; [assumption|].
    destruct (run_facts buffer cs L V) as [_ B]. destruct (ListDec.NoDup_dec Z.eq_dec (defined cs)); [assumption|]. rewrite B in E by assumption. discriminate.
  - intros [V ND]. destruct (run_facts buffer cs L V) as [A _]. destruct (A ND) as (s & E & _). now exists s.
Qed.

(** *** Branch operands of instructions *)
Lemma length_of_app a b : length_of (a ++ b) = length_of a + length_of b.
Proof. induction a; cbn; lia. Qed.
Lemma code_app e p a b : code e p (a ++ b) = code e p a ++ code e (p + length_of a) b.
Proof. revert p. induction a as [|c a IH]; intros p; cbn; [now rewrite Z.add_0_r|]. now rewrite IH, <- app_assoc, Z.add_assoc. Qed.
Lemma code_len e p cs : zlen (code e p cs) = length_of cs.
Proof. rewrite <- items_code, icode_len. apply items_total. Qed.
Lemma label_pos_app p a b l : label_pos p (a ++ b) l = match label_pos p a l with Some d => Some d | None => label_pos (p + length_of a) b l end.
Proof.
  revert p. induction a as [|c a IH]; intros p; cbn [app label_pos length_of]; [now rewrite Z.add_0_r|].
  destruct c; try (rewrite IH; now rewrite Z.add_assoc). destruct (lbl =? l); [reflexivity|]. rewrite IH. cbn [size]. now rewrite Z.add_0_l.
Qed.
Lemma label_pos_none a l : forall p, ~ In l (defined a) -> label_pos p a l = None.
Proof. induction a as [|c a IH]; intros p H; [reflexivity|]. destruct c; cbn in *; auto. destruct (Z.eqb_spec lbl l); [tauto|]. apply IH. tauto. Qed.
Lemma defined_app a b : defined (a ++ b) = defined a ++ defined b.
Proof. induction a as [|c a IH]; cbn; [reflexivity|]. destruct c; cbn; now rewrite IH. Qed.

Lemma znth_skip (a b : list Z) i k : k = zlen a + i -> 0 <= i -> znth 0 (a ++ b) k = znth 0 b i.
Proof. intros -> H. unfold znth. rewrite zget_app. rewrite (proj2 (Z.ltb_ge _ _)) by lia. now replace (zlen a + i - zlen a) with i by lia. Qed.
Lemma read32_at a x r p : p = zlen a -> -2147483648 <= x < 2147483648 -> read32 (a ++ bytes 4 x ++ r) p = x.
Proof.
  intros P H. unfold read32. rewrite (znth_skip a _ 0), (znth_skip a _ 1), (znth_skip a _ 2), (znth_skip a _ 3) by lia.
  change (znth 0 (bytes 4 x ++ r) 0) with (x mod 256). change (znth 0 (bytes 4 x ++ r) 1) with ((x / 256) mod 256).
  change (znth 0 (bytes 4 x ++ r) 2) with ((x / 256 / 256) mod 256). change (znth 0 (bytes 4 x ++ r) 3) with ((x / 256 / 256 / 256) mod 256).
  destruct (Z.ltb_spec (x mod 256 + 256 * ((x / 256) mod 256) + 65536 * ((x / 256 / 256) mod 256) + 16777216 * ((x / 256 / 256 / 256) mod 256)) 2147483648); lia.
Qed.

(** the position of a label, when every label is defined once *)
Lemma label_pos_def pre l post : NoDup (defined (pre ++ Def l :: post)) -> label_pos 0 (pre ++ Def l :: post) l = Some (length_of pre).
Proof.
  intros ND. rewrite label_pos_app. rewrite defined_app in ND. cbn [defined] in ND. apply NoDup_remove_2 in ND.
  rewrite label_pos_none by (intros H; apply ND, in_or_app; now left). cbn [label_pos]. now rewrite Z.eqb_refl.
Qed.

(** In the emitted code, the operand for a label plus its own position is the position of the label *)
Theorem C44_operand : forall buffer cs s pre l post pre' post', 0 < zlen buffer ->
  do_calls cs (start buffer) = Ret s -> cs = pre ++ Label l :: post -> cs = pre' ++ Def l :: post' ->
  length_of cs < 2 ^ 31 ->
  read32 (emitted s) (length_of pre) + length_of pre = length_of pre'.
Proof.
  intros buffer cs s pre l post pre' post' L E E1 E2 S.
  destruct (C44_code buffer cs s L E) as (C & _ & _).
  assert (ND : NoDup (defined cs)) by (apply (C44_succeeds buffer cs L); eauto).
  assert (W : label_pos 0 cs l = Some (length_of pre')) by (rewrite E2 in ND |- *; now apply label_pos_def).
  rewrite C. assert (N : forall c, 0 <= length_of c) by (intros c; rewrite <- (items_total 0); apply total_nonneg).
  pose proof (N pre). pose proof (N pre'). pose proof (N post). pose proof (N post').
  assert (S1 := S). rewrite E1, length_of_app in S1. cbn [length_of size] in S1.
  assert (S2 := S). rewrite E2, length_of_app in S2. cbn [length_of size] in S2. change (2 ^ 31) with 2147483648 in *.
  set (w := label_pos 0 cs) in *. clearbody w. rewrite E1, code_app. cbn [code call_bytes]. unfold offset at 1. rewrite W, Z.add_0_l.
  rewrite read32_at; [lia|now rewrite code_len|lia].
Qed.
(** the same for the entries of a switch, relative to the start of the table *)
Theorem C44_table : forall buffer cs s pre ls1 l ls2 post pre' post', 0 < zlen buffer ->
  do_calls cs (start buffer) = Ret s -> cs = pre ++ Table (ls1 ++ l :: ls2) :: post -> cs = pre' ++ Def l :: post' ->
  length_of cs < 2 ^ 31 ->
  read32 (emitted s) (length_of pre + 4 * Z.of_nat (length ls1)) + length_of pre = length_of pre'.
Proof.
  intros buffer cs s pre ls1 l ls2 post pre' post' L E E1 E2 S.
  destruct (C44_code buffer cs s L E) as (C & _ & _).
  assert (ND : NoDup (defined cs)) by (apply (C44_succeeds buffer cs L); eauto).
  assert (W : label_pos 0 cs l = Some (length_of pre')) by (rewrite E2 in ND |- *; now apply label_pos_def).
  rewrite C. assert (N : forall c, 0 <= length_of c) by (intros c; rewrite <- (items_total 0); apply total_nonneg).
  pose proof (N pre). pose proof (N pre'). pose proof (N post). pose proof (N post').
  assert (S1 := S). rewrite E1, length_of_app in S1. cbn [length_of size] in S1.
  assert (S2 := S). rewrite E2, length_of_app in S2. cbn [length_of size] in S2. change (2 ^ 31) with 2147483648 in *.
  set (w := label_pos 0 cs) in *. clearbody w. rewrite E1, code_app. cbn [code call_bytes]. rewrite flat_map_app. cbn [flat_map].
  unfold offset at 2. rewrite W, Z.add_0_l.
  assert (LT : forall p x, zlen (flat_map (offset w p) x) = 4 * Z.of_nat (length x)).
  { intros p x. rewrite <- icode_table, icode_len, total_map_IR. reflexivity. }
  rewrite <- !app_assoc, app_assoc. rewrite read32_at; [lia| |lia]. rewrite zlen_app, code_len, LT. lia.
Qed.

(** *** Instruction lists: emission of an instruction is not affected by what stands around it, except
    for the fused pairs *)
Definition second (z : instr) : bool :=
  match z with Kquote _ | Kaccess _ | Kenvacc _ | Kget_global _ | Kapply _ | Kappterm _ _ | Kgetfield _ => true | _ => false end.

Ltac grp g A' := exists g, A'; repeat split; [discriminate|cbn [emit app]; rewrite ?app_nil_r, <- ?app_assoc; reflexivity..].
Ltac grp1 := match goal with |- context [?x :: ?A = _] => grp [x] A end.
Ltac grp2 := match goal with |- context [?x :: ?y :: ?A = _] => grp [x; y] A end.
Ltac grp3 := match goal with |- context [?x :: ?y :: ?w :: ?A = _] => grp [x; y; w] A end.
Lemma emit_group x A z B : second z = false -> exists g A',
  x :: A = g ++ A' /\ g <> [] /\ emit (x :: A) = emit g ++ emit A' /\ emit (x :: A ++ z :: B) = emit g ++ emit (A' ++ z :: B).
Proof.
  intros Hz. destruct x; try grp1.
  - (* Kgetfield *) destruct n as [|[?|?|]|?]; try grp1.
    + destruct A as [|y A]; [destruct z; try discriminate; grp1|]. destruct y; try grp1. destruct n as [|[?|?|]|?]; first [grp2|grp1].
    + destruct A as [|y A]; [destruct z; try discriminate; grp1|]. destruct y; try grp1. destruct n as [|[?|?|]|?]; first [grp2|grp1].
  - (* Kpush *)
    destruct A as [|y A]; [destruct z; try discriminate; grp1|]. destruct y; try grp1.
    + destruct c; grp2.
    + destruct A as [|w A]; [destruct z; try discriminate; grp2|]. destruct w; first [grp3|grp2].
    + grp2.
    + destruct n as [|n|n].
      * destruct A as [|w A]; [destruct z; try discriminate; grp2|]. destruct w; first [grp3|grp2].
      * grp2.
      * grp2.
Qed.
Lemma emit_app A z B : second z = false -> emit (A ++ z :: B) = emit A ++ emit (z :: B).
Proof.
  intros Hz. remember (length A) as n eqn:L. assert (LA : (length A <= n)%nat) by lia. clear L. revert A LA.
  induction n as [|n IH]; intros [|x A] LA; try reflexivity; [cbn in LA; lia|].
  destruct (emit_group x A z B Hz) as (g & A' & E & Ng & E1 & E2). cbn [app]. rewrite E1, E2, IH; [now rewrite app_assoc|].
  apply (f_equal (@length instr)) in E. rewrite app_length in E. destruct g; [contradiction|]. cbn in *. lia.
Qed.
(** nothing is fused with what follows an instruction other than these two *)
Definition first_ (z : instr) : bool := match z with Kpush | Kgetfield _ => true | _ => false end.
Lemma emit_cons z B : first_ z = false -> emit (z :: B) = emit_zam z ++ emit B.
Proof. destruct z; try discriminate; reflexivity. Qed.


(** The whole of a phrase: initialisation code, a branch over the functions, the functions *)
Definition phrase_calls (funcs inits : list instr) : list call :=
  match funcs with [] => emit inits | _ => emit inits ++ [Out BRANCH; Label 0] ++ emit funcs ++ [Def 0] end.
Lemma do_calls_app a : forall b s, do_calls (a ++ b) s = (do s <- do_calls a s; do_calls b s).
Proof. induction a as [|c a IH]; intros b s; cbn [app do_calls bind]; [reflexivity|]. destruct (do_call c s); cbn [bind]; auto. Qed.
Lemma emit_phrase_calls buffer funcs inits : emit_phrase buffer funcs inits = do_calls (phrase_calls funcs inits) (start buffer).
Proof.
  unfold emit_phrase, phrase_calls. change {| buf := buffer; pos := 0; tbl := repeat (Label_undefined []) 16; rel := [] |} with (start buffer).
  destruct funcs as [|f fs]; [reflexivity|]. remember (f :: fs) as F. clear.
  rewrite do_calls_app. destruct (do_calls (emit inits) (start buffer)) as [s| | |]; cbn [bind]; [|reflexivity..].
  change (emit [Kbranch 0]) with [Out BRANCH; Label 0]. change (emit [Klabel 0]) with [Def 0]. rewrite do_calls_app.
  destruct (do_calls [Out BRANCH; Label 0] s) as [s1| | |]; cbn [bind]; [|reflexivity..]. now rewrite do_calls_app.
Qed.
(** the instructions of a phrase in the order they are emitted *)
Definition phrase_instrs (funcs inits : list instr) : list instr :=
  match funcs with [] => inits | _ => inits ++ Kbranch 0 :: funcs ++ [Klabel 0] end.
Lemma phrase_emit funcs inits : phrase_calls funcs inits = emit (phrase_instrs funcs inits).
Proof.
  unfold phrase_calls, phrase_instrs. destruct funcs as [|f fs]; [reflexivity|]. rewrite emit_app by reflexivity. f_equal.
  remember (f :: fs) as F. rewrite emit_cons by reflexivity. rewrite emit_app by reflexivity. reflexivity.
Qed.

(** the position an instruction starts at *)
Definition address (before : list instr) : Z := length_of (emit before).

(** Branch operands: if instruction z of the phrase has, after the calls pre, a reference to label l,
    and l is defined by a Klabel elsewhere in the phrase, before or after, then the operand plus the
    position of the operand is the position of what follows the Klabel. *)
Theorem C44_branch : forall buffer funcs inits s A z B A' l B' pre post, 0 < zlen buffer ->
  emit_phrase buffer funcs inits = Ret s ->
  phrase_instrs funcs inits = A ++ z :: B -> phrase_instrs funcs inits = A' ++ Klabel l :: B' ->
  emit_zam z = pre ++ Label l :: post ->
  pos s < 2 ^ 31 ->
  read32 (emitted s) (address A + length_of pre) + (address A + length_of pre) = address A'.
Proof.
  intros buffer funcs inits s A z B A' l B' pre post L E E1 E2 Ez S.
  rewrite emit_phrase_calls, phrase_emit in E.
  assert (NF : first_ z = false /\ second z = false).
  { assert (J : In (Label l) (emit_zam z)) by (rewrite Ez; apply in_or_app; right; now left).
    destruct z; try (split; reflexivity); exfalso; revert J; clear.
    all: cbn; unfold checkShort, checkByte, out_int_const;
      repeat (match goal with |- context [if ?b then _ else _] => destruct b | |- context [match ?c with _ => _ end] => destruct c end); cbn;
      intuition discriminate. }
  destruct NF as [N1 N2].
  assert (C1 : emit (phrase_instrs funcs inits) = (emit A ++ pre) ++ Label l :: (post ++ emit B)).
  { rewrite E1, emit_app, emit_cons, Ez by assumption. now rewrite <- !app_assoc. }
  assert (Hl : l <> Nolabel).
  { intros ->. assert (V := proj1 (proj1 (C44_succeeds buffer _ L) (ex_intro _ s E))). rewrite C1 in V.
    specialize (V (Label Nolabel) (in_elt _ _ _)). cbn in V. unfold Nolabel in V. lia. }
  assert (C2 : emit (phrase_instrs funcs inits) = emit A' ++ Def l :: emit B').
  { rewrite E2, emit_app, emit_cons by reflexivity. f_equal. cbn. now rewrite (proj2 (Z.eqb_neq _ _) Hl). }
  destruct (C44_code buffer _ s L E) as (_ & P & _). rewrite P in S.
  pose proof (C44_operand buffer _ s _ l _ _ _ L E C1 C2 S) as X. rewrite length_of_app in X. exact X.
Qed.

(** Switches: entry k of the table, relative to the start of the table *)
Theorem C44_switch : forall buffer funcs inits s A ls1 l ls2 B A' B', 0 < zlen buffer ->
  emit_phrase buffer funcs inits = Ret s ->
  phrase_instrs funcs inits = A ++ Kswitch (ls1 ++ l :: ls2) :: B -> phrase_instrs funcs inits = A' ++ Klabel l :: B' ->
  pos s < 2 ^ 31 ->
  let table := address A + 2 in
  znth 0 (emitted s) (table - 1) = zlen (ls1 ++ l :: ls2) /\
  read32 (emitted s) (table + 4 * zlen ls1) + table = address A'.
Proof.
  intros buffer funcs inits s A ls1 l ls2 B A' B' L E E1 E2 S table.
  rewrite emit_phrase_calls, phrase_emit in E.
  set (n := zlen (ls1 ++ l :: ls2)) in *.
  assert (V := proj1 (proj1 (C44_succeeds buffer _ L) (ex_intro _ s E))).
  assert (C0 : emit (phrase_instrs funcs inits) = emit A ++ [Out SWITCH; Out n] ++ checkByte n ++ [Table (ls1 ++ l :: ls2)] ++ emit B).
  { rewrite E1, emit_app, emit_cons by reflexivity. cbn [emit_zam]. fold n. now rewrite <- !app_assoc. }
  assert (NB : n <= 255 /\ checkByte n = []).
  { unfold checkByte in *. destruct (Z.ltb_spec 255 n) as [H|H]; [|auto]. exfalso. rewrite C0 in V. apply (V Fail).
    apply in_or_app; right. right. right. now left. }
  destruct NB as [NB NB']. rewrite NB' in C0.
  assert (C1 : emit (phrase_instrs funcs inits) = (emit A ++ [Out SWITCH; Out n]) ++ Table (ls1 ++ l :: ls2) :: emit B).
  { rewrite C0. now rewrite <- app_assoc. }
  assert (Hl : l <> Nolabel).
  { intros ->. rewrite C1 in V. pose proof (V (Table (ls1 ++ Nolabel :: ls2)) (in_elt _ _ _) Nolabel (in_elt _ _ _)) as H. unfold Nolabel in H. lia. }
  assert (C2 : emit (phrase_instrs funcs inits) = emit A' ++ Def l :: emit B').
  { rewrite E2, emit_app, emit_cons by reflexivity. f_equal. cbn. now rewrite (proj2 (Z.eqb_neq _ _) Hl). }
  destruct (C44_code buffer _ s L E) as (C & P & _). rewrite P in S. split.
  - rewrite C. set (w := label_pos 0 _). clearbody w. rewrite C0, code_app. rewrite (znth_skip _ _ 1); [|rewrite code_len; unfold table, address; lia|lia].
    change (n mod 256 = n). apply Z.mod_small. pose proof (zlen_nonneg (ls1 ++ l :: ls2)). unfold n in *. lia.
  - pose proof (C44_table buffer _ s _ ls1 l ls2 _ _ _ L E C1 C2 S) as X. rewrite length_of_app in X. cbn [length_of size] in X.
    unfold table, address, zlen in *. rewrite !Z.add_0_r in X. exact X.
Qed.

(** The operand of a closure is the number of free variables modulo 256: with 256 or more, it is not
    the number *)
Theorem C44_closure_size_refuted : exists buffer inits s A l n B, 0 < zlen buffer /\
  emit_phrase buffer [] inits = Ret s /\ inits = A ++ Kclosure l n :: B /\
  znth 0 (emitted s) (address A) = CLOSURE /\ znth 0 (emitted s) (address A + 1) <> n.
Proof.
  destruct (emit_phrase [0] [] [Kclosure 1 256; Klabel 1]) as [s| | |] eqn:E; try (vm_compute in E; discriminate).
  exists [0], [Kclosure 1 256; Klabel 1], s, [], 1, 256, [Klabel 1]. repeat split; [exact E|..]; vm_compute in E; injection E as <-; vm_compute; congruence.
Qed.
(** up to 255 it is *)
Theorem C44_closure_size : forall buffer funcs inits s A l n B, 0 < zlen buffer ->
  emit_phrase buffer funcs inits = Ret s -> phrase_instrs funcs inits = A ++ Kclosure l n :: B -> 0 <= n <= 255 ->
  znth 0 (emitted s) (address A) = CLOSURE /\ znth 0 (emitted s) (address A + 1) = n.
Proof.
  intros buffer funcs inits s A l n B L E E1 H. rewrite emit_phrase_calls, phrase_emit in E. destruct (C44_code buffer _ s L E) as (C & _).
  rewrite C. set (w := label_pos 0 _). clearbody w. rewrite E1, emit_app, emit_cons, code_app by reflexivity. split.
  - rewrite (znth_skip _ _ 0); [reflexivity|rewrite code_len; unfold address; lia|lia].
  - rewrite (znth_skip _ _ 1); [|rewrite code_len; unfold address; lia|lia]. change (n mod 256 = n). apply Z.mod_small. lia.
Qed.

(** A phrase with a forward and a backward branch, a switch and a buffer that has to grow *)
Example C44_example : exists s,
  emit_phrase [7] [Klabel 1; Kswitch [2; 1]; Klabel 2; Kbranch 1] [Kquote (INTscon 70000); Kpush; Kclosure 1 3; Kbranchif 3; Kget_global 5; Klabel 3] = Ret s /\
  emitted s = [CONSTINT; 112; 17; 1; 0; PUSH; CLOSURE; 3; 19; 0; 0; 0; BRANCHIF; 9; 0; 0; 0; GETGLOBAL; 0; 0; 0; 0; BRANCH; 19; 0; 0; 0;
               SWITCH; 2; 8; 0; 0; 0; 254; 255; 255; 255; BRANCH; 245; 255; 255; 255] /\
  rel s = [(Reloc_getglobal 5, 18)].
Proof. eexists. split; [vm_compute; reflexivity|split; vm_compute; reflexivity]. Qed.

Print Assumptions C44_code.
Print Assumptions C44_succeeds.
Print Assumptions C44_operand.
Print Assumptions C44_table.
Print Assumptions C44_branch.
Print Assumptions C44_switch.
Print Assumptions C44_closure_size_refuted.
Print Assumptions C44_closure_size.
