(** Proofs about the emission of bytecode. *)
From Verif Require Import Base ArrayLib Opcodes Emit_Model.

(** the k lowest bytes of x, lowest first *)
Fixpoint le (k : nat) (x : Z) : list Z := match k with O => [] | S k => x mod 256 :: le k (x / 256) end.

Lemma and255 b : andb_ b 255 = b mod 256.
Proof. unfold andb_. change 255 with (Z.ones 8). now rewrite Z.land_ones by lia. Qed.
Lemma uns8 l : rshiftuns_ l 8 mod 256 = (l / 256) mod 256.
Proof. unfold rshiftuns_. rewrite Z.shiftr_div_pow2 by lia. change (2 ^ 8) with 256. lia. Qed.
Lemma uns16 l : rshiftuns_ l 16 mod 256 = (l / 256 / 256) mod 256.
Proof. unfold rshiftuns_. rewrite Z.shiftr_div_pow2 by lia. change (2 ^ 16) with 65536. lia. Qed.
Lemma sig24 l : rshiftsig_ l 24 mod 256 = (l / 256 / 256 / 256) mod 256.
Proof. unfold rshiftsig_. rewrite Z.shiftr_div_pow2 by lia. change (2 ^ 24) with 16777216. lia. Qed.

Lemma zset_app {A} (a : list A) x y r : zset (a ++ x :: r) (zlen a) y = Some (a ++ y :: r).
Proof.
  destruct (zset_some (a ++ x :: r) (zlen a) y) as (b & E & L & G).
  { rewrite zlen_app, zlen_cons. pose proof (zlen_nonneg a). pose proof (zlen_nonneg r). lia. }
  rewrite E. f_equal. apply list_ext. intros i. rewrite G. rewrite !zget_app, !zget_cons.
  destruct (Z.eqb_spec i (zlen a)) as [->|N].
  - rewrite Z.ltb_irrefl, Z.sub_diag. reflexivity.
  - destruct (i <? zlen a); [reflexivity|]. destruct (Z.eqb_spec (i - zlen a) 0); [lia|reflexivity].
Qed.

Record same (s s' : st) : Prop := { same_tbl : tbl s' = tbl s; same_rel : rel s' = rel s }.
Lemma same_refl s : same s s. Proof. now split. Qed.
Lemma same_trans a b c : same a b -> same b c -> same a c.
Proof. intros [A B] [C D]. split; congruence. Qed.

(** writing inside the buffer *)
Lemma out_in b s a x r : buf s = a ++ x :: r -> pos s = zlen a ->
  exists s', out b s = Ret s' /\ buf s' = a ++ (b mod 256) :: r /\ pos s' = pos s + 1 /\ same s s'.
Proof.
  intros E P. unfold out. rewrite E. rewrite (proj2 (Z.ltb_lt _ _)).
  2:{ rewrite P, zlen_app, zlen_cons. pose proof (zlen_nonneg r). lia. }
  unfold update_chk. rewrite E, P, zset_app, and255. cbn [bind]. eexists. split; [reflexivity|]. cbn. repeat split; lia.
Qed.
(** writing at the end *)
Lemma out_end b s a r : buf s = a ++ r -> pos s = zlen a -> 0 < zlen (buf s) ->
  exists s' r', out b s = Ret s' /\ buf s' = a ++ (b mod 256) :: r' /\ pos s' = pos s + 1 /\ same s s'.
Proof.
  intros E P L. destruct r as [|x r].
  - rewrite app_nil_r in E. unfold out. rewrite E, P, Z.ltb_irrefl. unfold realloc_out_buffer. cbn [buf set_buf pos]. rewrite E in L |- *.
    destruct (Z.to_nat (2 * zlen a - zlen a)) as [|n] eqn:EN; [lia|]. cbn [repeat].
    unfold update_chk. rewrite P, zset_app, and255. cbn [bind]. eexists _, _. split; [reflexivity|]. cbn. repeat split; lia.
  - destruct (out_in b s a x r E P) as (s' & O & B & P' & S). exists s', r. auto.
Qed.

Lemma app_snoc {A} (a : list A) x r : a ++ x :: r = (a ++ [x]) ++ r.
Proof. now rewrite <- app_assoc. Qed.
Lemma zlen_snoc {A} (a : list A) x : zlen (a ++ [x]) = zlen a + 1.
Proof. rewrite zlen_app, zlen_cons. change (@zlen A []) with 0. lia. Qed.

(** a sequence of bytes *)
Fixpoint outs (bs : list Z) (s : st) : outcome st :=
  match bs with [] => Ret s | b :: bs => do s <- out b s; outs bs s end.
Lemma outs_end bs : forall s a r, buf s = a ++ r -> pos s = zlen a -> 0 < zlen (buf s) ->
  exists s' r', outs bs s = Ret s' /\ buf s' = (a ++ map (fun b => b mod 256) bs) ++ r' /\ pos s' = pos s + zlen bs /\ same s s' /\ 0 < zlen (buf s').
Proof.
  induction bs as [|b bs IH]; intros s a r E P L.
  - exists s, r. cbn. rewrite app_nil_r. change (@zlen Z []) with 0. repeat split; auto; lia.
  - destruct (out_end b s a r E P L) as (s1 & r1 & O & B & P1 & S1).
    rewrite app_snoc in B.
    assert (0 < zlen (buf s1)) as L1 by (rewrite B, zlen_app, zlen_snoc; pose proof (zlen_nonneg a); pose proof (zlen_nonneg r1); lia).
    destruct (IH s1 (a ++ [b mod 256]) r1 B) as (s2 & r2 & O2 & B2 & P2 & S2 & L2); [rewrite zlen_snoc; lia|assumption|].
    exists s2, r2. cbn [outs]. rewrite O. cbn [bind]. split; [exact O2|]. cbn [map]. rewrite <- app_snoc in B2 || idtac.
    split; [rewrite B2, <- !app_assoc; reflexivity|]. rewrite zlen_cons. split; [lia|]. split; [eapply same_trans; eassumption|assumption].
Qed.
Lemma outs_in bs : forall s a o r, buf s = a ++ o ++ r -> length o = length bs -> pos s = zlen a ->
  exists s', outs bs s = Ret s' /\ buf s' = a ++ map (fun b => b mod 256) bs ++ r /\ pos s' = pos s + zlen bs /\ same s s'.
Proof.
  induction bs as [|b bs IH]; intros s a o r E LO P.
  - destruct o; [|discriminate]. exists s. cbn. change (@zlen Z []) with 0. repeat split; auto; lia.
  - destruct o as [|x o]; [discriminate|]. cbn [app] in E.
    destruct (out_in b s a x (o ++ r) E P) as (s1 & O & B & P1 & S1). rewrite app_snoc in B.
    destruct (IH s1 (a ++ [b mod 256]) o r B) as (s2 & O2 & B2 & P2 & S2); [now injection LO|rewrite zlen_snoc; lia|].
    exists s2. cbn [outs]. rewrite O. cbn [bind]. split; [exact O2|]. cbn [map app].
    split; [rewrite B2, <- !app_assoc; reflexivity|]. rewrite zlen_cons. split; [lia|eapply same_trans; eassumption].
Qed.

Definition raw4 (l : Z) : list Z := [l; rshiftuns_ l 8; rshiftuns_ l 16; rshiftsig_ l 24].
Lemma out_long_outs l s : out_long l s = outs (raw4 l) s.
Proof.
  unfold out_long, raw4. cbn [outs]. destruct (out l s); cbn [bind]; try reflexivity. destruct (out _ _); cbn [bind]; try reflexivity.
  destruct (out _ _); cbn [bind]; try reflexivity. now destruct (out _ _).
Qed.
Lemma raw4_le l : map (fun b => b mod 256) (raw4 l) = le 4 l.
Proof. cbn [map raw4 le]. now rewrite uns8, uns16, sig24. Qed.
Lemma out_short_outs l s : out_short l s = outs [l; rshiftuns_ l 8] s.
Proof. unfold out_short. cbn [outs]. destruct (out l s); cbn [bind]; try reflexivity. now destruct (out _ _). Qed.
Lemma raw2_le l : map (fun b => b mod 256) [l; rshiftuns_ l 8] = le 2 l.
Proof. cbn [map le]. now rewrite uns8. Qed.

(** *** Items: what a call leaves in the code *)
Inductive item := IB (bs : list Z) | IR (orig lbl : Z) | ID (lbl : Z) | IZ (r : reloc) (n : nat).
Definition isize (i : item) : Z := match i with IB bs => zlen bs | IR _ _ => 4 | ID _ => 0 | IZ _ n => Z.of_nat n end.
Fixpoint total (is : list item) : Z := match is with [] => 0 | i :: is => isize i + total is end.
Fixpoint where_ (p : Z) (is : list item) (l : Z) : option Z :=
  match is with
  | [] => None
  | i :: is => match i with ID l' => if l' =? l then Some p else where_ p is l | _ => where_ (p + isize i) is l end
  end.
Definition ref_value (env : Z -> option Z) (o l : Z) : Z := match env l with Some d => d - o | None => 0 end.
Definition ibytes (env : Z -> option Z) (i : item) : list Z :=
  match i with IB bs => map (fun b => b mod 256) bs | IR o l => le 4 (ref_value env o l) | ID _ => [] | IZ _ n => repeat 0 n end.
Fixpoint icode (env : Z -> option Z) (is : list item) : list Z :=
  match is with [] => [] | i :: is => ibytes env i ++ icode env is end.
Fixpoint refs_to (p : Z) (l : Z) (is : list item) : list (Z * Z) :=
  match is with
  | [] => []
  | i :: is => (match i with IR o l' => if l' =? l then [(p, o)] else [] | _ => [] end) ++ refs_to (p + isize i) l is
  end.
Fixpoint slots (p : Z) (is : list item) : list (reloc * Z) :=
  match is with
  | [] => []
  | i :: is => (match i with IZ r _ => [(r, p)] | _ => [] end) ++ slots (p + isize i) is
  end.

Lemma isize_nonneg i : 0 <= isize i. Proof. destruct i; cbn; try lia. apply zlen_nonneg. Qed.
Lemma total_app a b : total (a ++ b) = total a + total b.
Proof. induction a; cbn; lia. Qed.
Lemma total_nonneg a : 0 <= total a. Proof. induction a as [|i a]; cbn; [lia|]. pose proof (isize_nonneg i). lia. Qed.
Lemma zlen_map {A B} (f : A -> B) l : zlen (map f l) = zlen l.
Proof. unfold zlen. now rewrite map_length. Qed.
Lemma ibytes_len env i : zlen (ibytes env i) = isize i.
Proof. destruct i; cbn [ibytes isize]; [apply zlen_map|reflexivity|reflexivity|]. unfold zlen. now rewrite repeat_length. Qed.
Lemma icode_len env is : zlen (icode env is) = total is.
Proof. induction is; cbn; [reflexivity|]. now rewrite zlen_app, ibytes_len, IHis. Qed.
Lemma icode_app env a b : icode env (a ++ b) = icode env a ++ icode env b.
Proof. induction a; cbn; [reflexivity|]. now rewrite IHa, app_assoc. Qed.
Lemma where_app p a b l : where_ p (a ++ b) l = match where_ p a l with Some d => Some d | None => where_ (p + total a) b l end.
Proof.
  revert p. induction a as [|i a IH]; intros p; cbn [app where_ total]; [now rewrite Z.add_0_r|].
  destruct i as [bs|o l'|l'|r n]; rewrite IH; try (now rewrite Z.add_assoc).
  destruct (l' =? l); [reflexivity|]. cbn [isize]. now rewrite Z.add_0_l.
Qed.
Lemma refs_app p a b l : refs_to p l (a ++ b) = refs_to p l a ++ refs_to (p + total a) l b.
Proof. revert p. induction a as [|i a IH]; intros p; cbn; [now rewrite Z.add_0_r|]. now rewrite IH, <- app_assoc, Z.add_assoc. Qed.
Lemma slots_app p a b : slots p (a ++ b) = slots p a ++ slots (p + total a) b.
Proof. revert p. induction a as [|i a IH]; intros p; cbn; [now rewrite Z.add_0_r|]. now rewrite IH, <- app_assoc, Z.add_assoc. Qed.
Lemma icode_ext e e' is : (forall l, e l = e' l) -> icode e is = icode e' is.
Proof.
  intros H. induction is as [|i is IH]; cbn; [reflexivity|]. f_equal; [|assumption].
  destruct i; cbn; try reflexivity. unfold ref_value. now rewrite H.
Qed.

(** *** back-patching *)
Definition upd_env (e : Z -> option Z) (l d : Z) : Z -> option Z := fun k => if k =? l then Some d else e k.

Lemma backpatch_app d A B s : backpatch d (A ++ B) s = (do s <- backpatch d A s; backpatch d B s).
Proof.
  revert s. induction A as [|[p o] A IH]; intros s; cbn [app backpatch bind]; [reflexivity|].
  destruct (out_long (d - o) (set_pos s p)); cbn [bind]; try reflexivity. apply IH.
Qed.

Lemma backpatch_ok e l d is : e l = None -> forall s p a r, p = zlen a -> buf s = a ++ icode e is ++ r ->
  exists s', backpatch d (rev (refs_to p l is)) s = Ret s' /\ buf s' = a ++ icode (upd_env e l d) is ++ r /\ same s s'.
Proof.
  intros HN. induction is as [|i is IH]; intros s p a r P E.
  - exists s. cbn. split; [reflexivity|]. split; [assumption|apply same_refl].
  - cbn [refs_to icode] in *. rewrite rev_app_distr, backpatch_app.
    destruct (IH s (p + isize i) (a ++ ibytes e i) r) as (s1 & E1 & B1 & S1).
    { rewrite zlen_app, ibytes_len. lia. } { rewrite E, <- !app_assoc. reflexivity. }
    rewrite E1. cbn [bind].
    assert (KEEP : ibytes e i = ibytes (upd_env e l d) i -> (match i with IR o l' => if l' =? l then [(p, o)] else [] | _ => [] end) = [] ->
      exists s', backpatch d (rev (match i with IR o l' => if l' =? l then [(p, o)] else [] | _ => [] end)) s1 = Ret s' /\
        buf s' = a ++ (ibytes (upd_env e l d) i ++ icode (upd_env e l d) is) ++ r /\ same s s').
    { intros K ->. exists s1. cbn [rev backpatch]. split; [reflexivity|]. split; [|assumption]. rewrite B1, <- K, <- !app_assoc. reflexivity. }
    destruct i as [bs|o l'|l'|rr n]; try (apply KEEP; reflexivity).
    destruct (Z.eqb_spec l' l) as [->|N].
    2:{ apply KEEP; [|reflexivity]. cbn. unfold ref_value, upd_env. now rewrite (proj2 (Z.eqb_neq l' l)) by assumption. }
    cbn [rev app backpatch]. rewrite out_long_outs.
    destruct (outs_in (raw4 (d - o)) (set_pos s1 p) a (ibytes e (IR o l)) (icode (upd_env e l d) is ++ r)) as (s2 & E2 & B2 & _ & S2).
    { cbn [buf set_pos]. rewrite B1, <- !app_assoc. reflexivity. } { reflexivity. } { exact P. }
    rewrite E2. cbn [bind]. exists s2. split; [reflexivity|]. split.
    + rewrite B2, raw4_le, <- !app_assoc. do 2 f_equal. cbn. unfold ref_value, upd_env. now rewrite Z.eqb_refl.
    + apply same_trans with (1 := S1). destruct S2 as [T R]. now split.
Qed.

(** *** the table of labels *)
Definition look (t : list label_definition) (l : Z) : label_definition := match zget t l with Some d => d | None => Label_undefined [] end.
Lemma extend_ok l s : 0 < zlen (tbl s) -> zlen (tbl s) <= l -> exists t, extend_label_table l s = Ret (set_tbl s t) /\ l < zlen t /\
  (forall k, look t k = look (tbl s) k).
Proof.
  intros P L. unfold extend_label_table. rewrite (proj2 (Z.eqb_neq _ _)) by lia.
  assert (zlen (tbl s) <= (l / zlen (tbl s) + 1) * zlen (tbl s)) as G by (pose proof (Z.div_le_lower_bound l (zlen (tbl s)) 1); nia).
  rewrite (proj2 (Z.ltb_ge _ _)) by assumption. eexists. split; [reflexivity|]. split.
  - rewrite zlen_app. unfold zlen at 2. rewrite repeat_length, Z2Nat.id by lia. pose proof (Z.mod_pos_bound l (zlen (tbl s)) P). pose proof (Z.div_mod l (zlen (tbl s))). nia.
  - intros k. unfold look. rewrite zget_app. destruct (Z.ltb_spec k (zlen (tbl s))); [reflexivity|].
    rewrite (zget_none (tbl s) k) by lia. destruct (zget (repeat _ _) _) as [d|] eqn:E; [|reflexivity].
    apply zget_In in E. apply repeat_spec in E. now subst.
Qed.
Lemma look_get t l : 0 <= l < zlen t -> sub_chk t l = Ret (look t l).
Proof. intros H. unfold sub_chk, look. destruct (zget_some t l H) as [x ->]. reflexivity. Qed.
Lemma look_set t l d : 0 <= l < zlen t -> exists t', update_chk t l d = Ret t' /\ zlen t' = zlen t /\ forall k, look t' k = if k =? l then d else look t k.
Proof.
  intros H. destruct (zset_some t l d H) as (t' & E & L & G). exists t'. unfold update_chk. rewrite E. split; [reflexivity|]. split; [assumption|].
  intros k. unfold look. rewrite G. now destruct (k =? l).
Qed.

(** *** executing items *)
Definition do_item (i : item) (s : st) : outcome st :=
  match i with
  | IB bs => outs bs s
  | IR o l => out_label_with_orig o l s
  | ID l => define_label l s
  | IZ r n => outs (repeat 0 n) (enter r s)
  end.
Fixpoint do_items (is : list item) (s : st) : outcome st :=
  match is with [] => Ret s | i :: is => do s <- do_item i s; do_items is s end.

Record inv (done : list item) (s : st) : Prop := {
  inv_pos : pos s = total done;
  inv_buf : exists r, buf s = icode (where_ 0 done) done ++ r;
  inv_len : 0 < zlen (buf s);
  inv_tbl : 0 < zlen (tbl s);
  inv_look : forall l, 0 <= l -> look (tbl s) l = match where_ 0 done l with Some d => Label_defined d | None => Label_undefined (rev (refs_to 0 l done)) end;
  inv_rel : rel s = rev (slots 0 done)
}.

(** appending an item that defines no label leaves the rest alone *)
Lemma where_snoc done i l : (match i with ID _ => False | _ => True end) -> where_ 0 (done ++ [i]) l = where_ 0 done l.
Proof. intros H. rewrite where_app. destruct (where_ 0 done l); [reflexivity|]. destruct i; try contradiction; reflexivity. Qed.

Lemma inv_append done s i s' bs r : inv done s -> (match i with IB _ => True | IZ _ _ => True | _ => False end) ->
  ibytes (where_ 0 done) i = bs -> buf s' = (icode (where_ 0 done) done ++ bs) ++ r -> pos s' = pos s + isize i -> 0 < zlen (buf s') ->
  tbl s' = tbl s -> rel s' = rev (slots (total done) [i]) ++ rel s -> inv (done ++ [i]) s'.
Proof.
  intros I K EB B P L T R. destruct I as [IP [r0 IB0] IL IT ILk IR0].
  assert (W : forall l, where_ 0 (done ++ [i]) l = where_ 0 done l) by (intros l; apply where_snoc; now destruct i).
  split.
  - rewrite P, IP, total_app. cbn. lia.
  - exists r. rewrite (icode_ext _ (where_ 0 done) _ W), icode_app. cbn [icode]. rewrite app_nil_r, EB. exact B.
  - exact L.
  - now rewrite T.
  - intros l Hl. rewrite T, W, ILk by assumption. destruct (where_ 0 done l); [reflexivity|]. f_equal. rewrite refs_app. cbn [refs_to].
    destruct i; try contradiction; cbn; now rewrite app_nil_r.
  - rewrite R, IR0, slots_app, rev_app_distr, Z.add_0_l. reflexivity.
Qed.

Lemma step_IB done s bs : inv done s -> exists s', outs bs s = Ret s' /\ inv (done ++ [IB bs]) s'.
Proof.
  intros I. destruct (inv_buf _ _ I) as [r B].
  destruct (outs_end bs s _ r B) as (s' & r' & E & B' & P & [T R] & L); [now rewrite icode_len, (inv_pos _ _ I)|apply (inv_len _ _ I)|].
  exists s'. split; [assumption|]. apply inv_append with s (ibytes (where_ 0 done) (IB bs)) r'; auto.
Qed.
Lemma step_IZ done s rr n : inv done s -> exists s', outs (repeat 0 n) (enter rr s) = Ret s' /\ inv (done ++ [IZ rr n]) s'.
Proof.
  intros I. destruct (inv_buf _ _ I) as [r B].
  destruct (outs_end (repeat 0 n) (enter rr s) _ r B) as (s' & r' & E & B' & P & [T R] & L); [cbn; now rewrite icode_len, (inv_pos _ _ I)|apply (inv_len _ _ I)|].
  exists s'. split; [assumption|]. apply inv_append with s (ibytes (where_ 0 done) (IZ rr n)) r'; auto.
  - rewrite B'. do 2 f_equal. cbn. clear. induction n; cbn; [reflexivity|now rewrite IHn].
  - rewrite P. cbn. unfold zlen. now rewrite repeat_length.
  - rewrite R. cbn. now rewrite (inv_pos _ _ I).
Qed.

Lemma step_IR done s o l : inv done s -> 0 <= l -> exists s', out_label_with_orig o l s = Ret s' /\ inv (done ++ [IR o l]) s'.
Proof.
  intros I Hl. unfold out_label_with_orig, Nolabel. rewrite (proj2 (Z.eqb_neq _ _)) by lia.
  assert (X : exists s1, (if zlen (tbl s) <=? l then extend_label_table l s else Ret s) = Ret s1 /\ inv done s1 /\ l < zlen (tbl s1)).
  { destruct (Z.leb_spec (zlen (tbl s)) l) as [H|H]; [|exists s; auto].
    destruct (extend_ok l s (inv_tbl _ _ I) H) as (t & E & L & K). exists (set_tbl s t). split; [assumption|]. split; [|exact L].
    destruct I as [IP IB0 IL IT ILk IR0]. split; cbn [pos buf tbl rel set_tbl]; auto; [lia|]. intros k Hk. now rewrite K, ILk. }
  destruct X as (s1 & -> & I1 & L1). clear I. rename I1 into I. cbn [bind]. rewrite look_get by lia. cbn [bind]. rewrite (inv_look _ _ I) by assumption.
  destruct (inv_buf _ _ I) as [r B].
  assert (W : forall k, where_ 0 (done ++ [IR o l]) k = where_ 0 done k) by (intros k; now apply where_snoc).
  destruct (where_ 0 done l) as [d|] eqn:EW.
  - rewrite out_long_outs.
    destruct (outs_end (raw4 (d - o)) s1 _ r B) as (s' & r' & E & B' & P & [T R] & L); [now rewrite icode_len, (inv_pos _ _ I)|apply (inv_len _ _ I)|].
    exists s'. split; [assumption|]. destruct I as [IP _ IL IT ILk IR0]. split.
    + rewrite P, IP, total_app. cbn. lia.
    + exists r'. rewrite (icode_ext _ (where_ 0 done) _ W), icode_app. cbn [icode ibytes]. rewrite app_nil_r. rewrite raw4_le in B'.
      unfold ref_value. rewrite EW. exact B'.
    + exact L.
    + now rewrite T.
    + intros k Hk. rewrite T, W, ILk by assumption. destruct (where_ 0 done k) eqn:EK; [reflexivity|]. f_equal. rewrite refs_app. cbn [refs_to].
      destruct (Z.eqb_spec l k) as [->|]; [congruence|]. now rewrite !app_nil_r.
    + rewrite R, IR0, slots_app. cbn. now rewrite app_nil_r.
  - destruct (look_set (tbl s1) l (Label_undefined ((pos s1, o) :: rev (refs_to 0 l done)))) as (t' & ET & LT & KT); [lia|]. rewrite ET. cbn [bind].
    rewrite out_long_outs.
    destruct (outs_end (raw4 0) (set_tbl s1 t') _ r B) as (s' & r' & E & B' & P & [T R] & L); [cbn [pos set_tbl]; now rewrite icode_len, (inv_pos _ _ I)|apply (inv_len _ _ I)|].
    exists s'. split; [assumption|]. destruct I as [IP _ IL IT ILk IR0]. cbn [pos tbl rel set_tbl] in *. split.
    + rewrite P, IP, total_app. cbn. lia.
    + exists r'. rewrite (icode_ext _ (where_ 0 done) _ W), icode_app. cbn [icode ibytes]. rewrite app_nil_r. rewrite raw4_le in B'.
      unfold ref_value. rewrite EW. exact B'.
    + exact L.
    + rewrite T. lia.
    + intros k Hk. rewrite T, W, KT. rewrite refs_app. cbn [refs_to]. rewrite (Z.eqb_sym l k), app_nil_r.
      destruct (Z.eqb_spec k l) as [->|N]; [rewrite EW, rev_app_distr, IP, Z.add_0_l; reflexivity|].
      rewrite ILk by assumption. now rewrite app_nil_r.
    + rewrite R, IR0, slots_app. cbn. now rewrite app_nil_r.
Qed.

Lemma step_ID done s l : inv done s -> 0 <= l ->
  match where_ 0 done l with
  | Some _ => define_label l s = Raise FailExn
  | None => exists s', define_label l s = Ret s' /\ inv (done ++ [ID l]) s'
  end.
Proof.
  intros I Hl. unfold define_label.
  assert (X : exists s1, (if l <? zlen (tbl s) then Ret s else extend_label_table l s) = Ret s1 /\ inv done s1 /\ l < zlen (tbl s1)).
  { destruct (Z.ltb_spec l (zlen (tbl s))) as [H|H]; [exists s; auto|].
    destruct (extend_ok l s (inv_tbl _ _ I) H) as (t & E & L & K). exists (set_tbl s t). split; [assumption|]. split; [|exact L].
    destruct I as [IP IB0 IL IT ILk IR0]. split; cbn [pos buf tbl rel set_tbl]; auto; [lia|]. intros k Hk. now rewrite K, ILk. }
  destruct X as (s1 & -> & I1 & L1). clear I. rename I1 into I. cbn [bind]. rewrite look_get by lia. cbn [bind]. rewrite (inv_look _ _ I) by assumption.
  destruct (where_ 0 done l) as [d|] eqn:EW; [reflexivity|].
  destruct (look_set (tbl s1) l (Label_defined (pos s1))) as (t' & ET & LT & KT); [lia|]. rewrite ET. cbn [bind].
  destruct (inv_buf _ _ I) as [r B].
  assert (W : forall k, where_ 0 (done ++ [ID l]) k = upd_env (where_ 0 done) l (total done) k).
  { intros k. rewrite where_app, Z.add_0_l. unfold upd_env. cbn [where_]. rewrite (Z.eqb_sym l k). destruct (Z.eqb_spec k l) as [->|]; [now rewrite EW|]. now destruct (where_ 0 done k). }
  assert (FIN : forall s', buf s' = icode (upd_env (where_ 0 done) l (total done)) done ++ r -> pos s' = pos s1 -> tbl s' = t' -> rel s' = rel s1 -> inv (done ++ [ID l]) s').
  { intros s' B' P T R. destruct I as [IP _ IL IT ILk IR0]. split.
    - rewrite P, IP, total_app. cbn. lia.
    - exists r. rewrite (icode_ext _ _ _ W), icode_app. cbn [icode ibytes]. now rewrite app_nil_r.
    - rewrite B', zlen_app, icode_len. rewrite B, zlen_app, icode_len in IL. exact IL.
    - rewrite T. lia.
    - intros k Hk. rewrite T, KT, W. unfold upd_env. destruct (Z.eqb_spec k l) as [->|N]; [now rewrite IP|].
      rewrite ILk by assumption. rewrite refs_app. cbn. now rewrite app_nil_r.
    - rewrite R, IR0, slots_app. cbn. now rewrite app_nil_r. }
  destruct (backpatch_ok (where_ 0 done) l (total done) done EW (set_tbl s1 t') 0 [] r eq_refl B) as (s2 & E2 & B2 & [T2 R2]).
  destruct (rev (refs_to 0 l done)) as [|x L] eqn:ER.
  - cbn [backpatch] in E2. injection E2 as <-. eexists. split; [reflexivity|]. now apply FIN.
  - rewrite (inv_pos _ _ I). rewrite E2. cbn [bind]. eexists. split; [reflexivity|]. apply FIN; cbn [buf pos tbl rel set_pos]; auto. now rewrite (inv_pos _ _ I).
Qed.

Definition labels_ok (is : list item) : Prop := forall i, In i is -> match i with IR _ l => 0 <= l | ID l => 0 <= l | _ => True end.

(** every label at most once *)
Fixpoint defs (is : list item) : list Z := match is with [] => [] | ID l :: is => l :: defs is | _ :: is => defs is end.
Lemma defs_app a b : defs (a ++ b) = defs a ++ defs b.
Proof. induction a as [|i a IH]; cbn; [reflexivity|]. destruct i; cbn; now rewrite IH. Qed.
Lemma where_none is l : forall p, where_ p is l = None <-> ~ In l (defs is).
Proof.
  induction is as [|i is IH]; intros p; cbn; [tauto|]. destruct i as [bs|o l'|l'|r n]; try apply IH.
  cbn. destruct (Z.eqb_spec l' l) as [->|N]; [split; [discriminate|intros H; elim H; now left]|]. rewrite IH. tauto.
Qed.

Lemma do_items_ok is : forall done s, inv done s -> labels_ok is ->
  (NoDup (defs (done ++ is)) -> exists s', do_items is s = Ret s' /\ inv (done ++ is) s') /\
  (NoDup (defs done) -> ~ NoDup (defs (done ++ is)) -> do_items is s = Raise FailExn).
Proof.
  induction is as [|i is IH]; intros done s I LO.
  - rewrite app_nil_r. split; [exists s; auto|contradiction].
  - cbn [do_items].
    assert (LO' : labels_ok is) by (intros j Hj; apply (LO j); now right). assert (Li := LO i (or_introl eq_refl)).
    assert (EQ : done ++ i :: is = (done ++ [i]) ++ is) by now rewrite <- app_assoc.
    assert (GO : forall s1, do_item i s = Ret s1 -> inv (done ++ [i]) s1 -> (NoDup (defs done) -> NoDup (defs (done ++ [i]))) ->
       (NoDup (defs (done ++ i :: is)) -> exists s', (do s <- do_item i s; do_items is s) = Ret s' /\ inv (done ++ i :: is) s') /\
       (NoDup (defs done) -> ~ NoDup (defs (done ++ i :: is)) -> (do s <- do_item i s; do_items is s) = Raise FailExn)).
    { intros s1 -> I1 ND. cbn [bind]. rewrite EQ. destruct (IH _ _ I1 LO') as [A B]. split; [exact A|]. intros N1 N2. apply B; auto. }
    destruct i as [bs|o l|l|r n].
    + destruct (step_IB done s bs I) as (s1 & E & I1). apply (GO s1); auto. rewrite defs_app. cbn. now rewrite app_nil_r.
    + destruct (step_IR done s o l I Li) as (s1 & E & I1). apply (GO s1); auto. rewrite defs_app. cbn. now rewrite app_nil_r.
    + pose proof (step_ID done s l I Li) as X. destruct (where_ 0 done l) as [d|] eqn:EW.
      * cbn [do_item]. rewrite X. cbn [bind]. split; [|reflexivity]. intros ND. exfalso.
        assert (In l (defs done)) as HI. { destruct (in_dec Z.eq_dec l (defs done)); [assumption|]. apply (where_none done l 0) in n. congruence. }
        rewrite defs_app in ND. cbn [defs] in ND. apply NoDup_remove_2 in ND. apply ND, in_or_app. now left.
      * destruct X as (s1 & E & I1). apply (GO s1); auto. intros ND. rewrite defs_app. cbn. apply where_none in EW.
        apply NoDup_Add with (a := l) (l := defs done); [|now split]. clear. induction (defs done) as [|x xs IHx]; cbn; [constructor|constructor; exact IHx].
    + destruct (step_IZ done s r n I) as (s1 & E & I1). apply (GO s1); auto. rewrite defs_app. cbn. now rewrite app_nil_r.
Qed.

Lemma do_items_inv is : forall done s s', inv done s -> labels_ok is -> do_items is s = Ret s' -> inv (done ++ is) s'.
Proof.
  induction is as [|i is IH]; intros done s s' I LO E.
  - injection E as <-. now rewrite app_nil_r.
  - cbn [do_items] in E.
    assert (LO' : labels_ok is) by (intros j Hj; apply (LO j); now right). assert (Li := LO i (or_introl eq_refl)).
    assert (EQ : done ++ i :: is = (done ++ [i]) ++ is) by now rewrite <- app_assoc. rewrite EQ.
    assert (X : forall s1, do_item i s = Ret s1 -> inv (done ++ [i]) s1).
    { intros s1 E1. destruct i as [bs|o l|l|r n]; cbn [do_item] in E1.
      - destruct (step_IB done s bs I) as (s2 & E2 & I2). congruence.
      - destruct (step_IR done s o l I Li) as (s2 & E2 & I2). congruence.
      - pose proof (step_ID done s l I Li) as Y. destruct (where_ 0 done l); [congruence|]. destruct Y as (s2 & E2 & I2). congruence.
      - destruct (step_IZ done s r n I) as (s2 & E2 & I2). congruence. }
    destruct (do_item i s) as [s1| | |]; cbn [bind] in E; try discriminate. eapply IH; eauto.
Qed.

(** *** from calls to items *)
Definition items_of (p : Z) (c : call) : list item :=
  match c with
  | Out b => [IB [b]] | Short x => [IB [x; rshiftuns_ x 8]] | Long l => [IB (raw4 l)]
  | Label l => [IR p l] | Table ls => map (IR p) ls | Def l => [ID l]
  | Lit sc => [IZ (Reloc_literal sc) 4] | Get u => [IZ (Reloc_getglobal u) 4] | Set_ u => [IZ (Reloc_setglobal u) 4]
  | CPrim n => [IZ (Reloc_primitive n) 2]
  | Fail => []
  end.
Fixpoint items (p : Z) (cs : list call) : list item :=
  match cs with [] => [] | c :: cs => items_of p c ++ items (p + total (items_of p c)) cs end.
Lemma do_items_app a b s : do_items (a ++ b) s = (do s <- do_items a s; do_items b s).
Proof. revert s. induction a as [|i a IH]; intros s; cbn [app do_items bind]; [reflexivity|]. destruct (do_item i s); cbn [bind]; try reflexivity. apply IH. Qed.
Lemma bind_ret {A} (m : outcome A) : bind m Ret = m. Proof. now destruct m. Qed.
Lemma do_call_items c s : c <> Fail -> do_call c s = do_items (items_of (pos s) c) s.
Proof.
  intros N. destruct c; cbn [do_call items_of do_items do_item]; try (now elim N).
  - cbn [outs]. now destruct (out b s).
  - rewrite out_short_outs. symmetry. apply bind_ret.
  - rewrite out_long_outs. symmetry. apply bind_ret.
  - symmetry. apply bind_ret.
  - clear N. generalize (pos s) as o. intros o. revert s. induction lbls as [|l ls IH]; intros s; cbn [out_table map do_items]; [reflexivity|].
    cbn [do_item]. destruct (out_label_with_orig o l s); cbn [bind]; try reflexivity. apply IH.
  - symmetry. apply bind_ret.
  - unfold slot_for_literal. rewrite out_long_outs. symmetry. apply bind_ret.
  - unfold slot_for_get_global. rewrite out_long_outs. symmetry. apply bind_ret.
  - unfold slot_for_set_global. rewrite out_long_outs. symmetry. apply bind_ret.
  - unfold slot_for_c_prim. rewrite out_short_outs. symmetry. apply bind_ret.
Qed.
