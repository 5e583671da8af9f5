(** C56: the operations of Vector are those of List on the elements, in the same order of calls, and
    never read or write outside a vector. *)
From Verif Require Import Base ArrayLib List_Model List_Props ListPair_Props Vector_Model.

(** ** Specification *)
(** the elements with their indexes *)
Definition enum {A} (k : Z) (l : list A) : list (Z * A) := combine (List.map (fun i => k + Z.of_nat i) (List.seq 0 (Datatypes.length l))) l.
(** the result of a computation that makes a vector: every cell has been filled *)
Definition filled {S B} (r : res S (list B)) : outcome (res S (list (option B))) :=
  Ret (match r with Val l s => Val (List.map Some l) s | Exn e s => Exn e s end).

(** ** Proofs *)
Lemma enum_cons {A} k (x : A) l : enum k (x :: l) = (k, x) :: enum (k + 1) l.
Proof.
  unfold enum. cbn [Datatypes.length List.seq List.map combine]. f_equal; [f_equal; lia|]. f_equal. rewrite <- seq_shift, map_map.
  apply map_ext. intros i. lia.
Qed.
Lemma raw_at {A} (pre : list A) x l : sub_raw (pre ++ x :: l) (zlen pre) = Ret x.
Proof. unfold sub_raw. rewrite zget_app, Z.ltb_irrefl, Z.sub_diag. reflexivity. Qed.
Lemma upd_app {A} (pre : list A) y l x : upd (pre ++ y :: l) (Datatypes.length pre) x = pre ++ x :: l.
Proof. induction pre as [|z pre IH]; [reflexivity|]. cbn [List.app Datatypes.length upd]. now rewrite IH. Qed.
Lemma zlen_cons {A} (x : A) l : zlen (x :: l) = 1 + zlen l.
Proof. unfold zlen. cbn [Datatypes.length]. lia. Qed.
Lemma zlen_snoc {A} (l : list A) x : zlen (l ++ [x]) = zlen l + 1.
Proof. rewrite zlen_app. reflexivity. Qed.
Lemma set_at {A} (pre : list A) y l x : update_raw (pre ++ y :: l) (zlen pre) x = Ret (pre ++ x :: l).
Proof.
  unfold update_raw, zset. rewrite zlen_app, zlen_cons. pose proof (zlen_nonneg pre). pose proof (zlen_nonneg l).
  destruct (Z.ltb_spec (zlen pre) 0); [lia|]. destruct (Z.leb_spec (zlen pre + (1 + zlen l)) (zlen pre)); [lia|]. cbn [orb].
  unfold zlen. now rewrite Nat2Z.id, upd_app.
Qed.
Lemma snoc {A} (pre : list A) x l : pre ++ x :: l = (pre ++ [x]) ++ l.
Proof. now rewrite <- app_assoc. Qed.
Lemma lt_stop {A} (pre : list A) x l : (zlen pre <? zlen (pre ++ x :: l)) = true.
Proof. apply Z.ltb_lt. rewrite zlen_app, zlen_cons. pose proof (zlen_nonneg l). lia. Qed.
Lemma at_stop {A} (pre : list A) : (zlen pre <? zlen (pre ++ [])) = false.
Proof. rewrite app_nil_r. apply Z.ltb_irrefl. Qed.

Lemma combine_snoc {A B} (l1 : list A) (l2 : list B) x y : Datatypes.length l1 = Datatypes.length l2 -> combine (l1 ++ [x]) (l2 ++ [y]) = combine l1 l2 ++ [(x, y)].
Proof. revert l2. induction l1 as [|a l1 IH]; intros [|b l2] E; try discriminate; [reflexivity|]. cbn [List.app combine]. rewrite IH; [reflexivity|]. now injection E. Qed.

Section P.
Context {S A B : Type}.
Lemma find_lr_ok (p : Z -> A -> M S bool) l : forall fuel pre s, (Datatypes.length l < fuel)%nat ->
  find_lr fuel p (pre ++ l) (zlen (pre ++ l)) (zlen pre) s = Ret (find (fun '(j, x) => p j x) (enum (zlen pre) l) s).
Proof.
  induction l as [|x l IH]; intros [|fuel] pre s F; cbn [Datatypes.length] in F; try lia; cbn [find_lr].
  - rewrite at_stop. reflexivity.
  - rewrite lt_stop, enum_cons. cbn [find]. unfold vseq, prim, call, seq. rewrite raw_at. cbn [bind]. destruct (p (zlen pre) x s) as [[|] s1|e s1]; cbn [bind]; try reflexivity.
    rewrite snoc, <- zlen_snoc with (x := x). apply IH. lia.
Qed.
Lemma exists_lr_ok (p : A -> M S bool) l : forall fuel pre s, (Datatypes.length l < fuel)%nat ->
  exists_lr fuel p (pre ++ l) (zlen (pre ++ l)) (zlen pre) s = Ret (exists_ p l s).
Proof.
  induction l as [|x l IH]; intros [|fuel] pre s F; cbn [Datatypes.length] in F; try lia; cbn [exists_lr].
  - rewrite at_stop. reflexivity.
  - rewrite lt_stop. cbn [exists_]. unfold vseq, prim, call, seq. rewrite raw_at. cbn [bind]. destruct (p x s) as [[|] s1|e s1]; cbn [bind]; try reflexivity.
    rewrite snoc, <- zlen_snoc with (x := x). apply IH. lia.
Qed.
Lemma all_lr_ok (p : A -> M S bool) l : forall fuel pre s, (Datatypes.length l < fuel)%nat ->
  all_lr fuel p (pre ++ l) (zlen (pre ++ l)) (zlen pre) s = Ret (all p l s).
Proof.
  induction l as [|x l IH]; intros [|fuel] pre s F; cbn [Datatypes.length] in F; try lia; cbn [all_lr]; rewrite Z.geb_leb, Z.leb_antisym.
  - rewrite at_stop. reflexivity.
  - rewrite lt_stop. cbn [all negb]. unfold vseq, prim, call, seq. rewrite raw_at. cbn [bind]. destruct (p x s) as [[|] s1|e s1]; cbn [bind]; try reflexivity.
    rewrite snoc, <- zlen_snoc with (x := x). apply IH. lia.
Qed.
Lemma foldl_lr_ok (f : Z -> A -> B -> M S B) l : forall fuel pre r s, (Datatypes.length l < fuel)%nat ->
  foldl_lr fuel f (pre ++ l) (zlen (pre ++ l)) (zlen pre) r s = Ret (foldl (fun '((j, x), r) => f j x r) r (enum (zlen pre) l) s).
Proof.
  induction l as [|x l IH]; intros [|fuel] pre r s F; cbn [Datatypes.length] in F; try lia; cbn [foldl_lr].
  - rewrite at_stop. reflexivity.
  - rewrite lt_stop, enum_cons. cbn [foldl]. unfold vseq, prim, call, seq. rewrite raw_at. cbn [bind]. destruct (f (zlen pre) x r s) as [r1 s1|e s1]; cbn [bind]; try reflexivity.
    rewrite snoc, <- zlen_snoc with (x := x). apply IH. lia.
Qed.
Lemma app_lr_ok (f : Z -> A -> M S unit) l : forall fuel pre s, (Datatypes.length l < fuel)%nat ->
  app_lr fuel f (pre ++ l) (zlen (pre ++ l)) (zlen pre) s = Ret (app (fun '(j, x) => f j x) (enum (zlen pre) l) s).
Proof.
  induction l as [|x l IH]; intros [|fuel] pre s F; cbn [Datatypes.length] in F; try lia; cbn [app_lr].
  - rewrite at_stop. reflexivity.
  - rewrite lt_stop, enum_cons. cbn [app]. unfold vseq, prim, call, seq. rewrite raw_at. cbn [bind]. destruct (f (zlen pre) x s) as [r1 s1|e s1]; cbn [bind]; try reflexivity.
    rewrite snoc, <- zlen_snoc with (x := x). apply IH. lia.
Qed.
Lemma map_lr_ok (f : Z -> A -> M S B) l : forall fuel pre done s, (Datatypes.length l < fuel)%nat -> zlen done = zlen pre ->
  map_lr fuel f (pre ++ l) (done ++ repeat None (Datatypes.length l)) (zlen (pre ++ l)) (zlen pre) s =
  Ret (match map (fun '(j, x) => f j x) (enum (zlen pre) l) s with Val bs s' => Val (done ++ List.map Some bs) s' | Exn e s' => Exn e s' end).
Proof.
  induction l as [|x l IH]; intros [|fuel] pre done s F E; cbn [Datatypes.length] in F; try lia; cbn [map_lr].
  - rewrite at_stop. reflexivity.
  - rewrite lt_stop, enum_cons. cbn [map Datatypes.length repeat]. unfold vseq, prim, call, seq. rewrite raw_at. cbn [bind]. destruct (f (zlen pre) x s) as [b s1|e s1]; cbn [bind]; try reflexivity.
    rewrite <- E, set_at. cbn [bind]. rewrite E. rewrite (snoc pre x l), (snoc done (Some b)), <- (zlen_snoc pre x).
    rewrite IH; [|lia|rewrite !zlen_snoc; lia]. destruct (map _ _ s1); [|reflexivity]. cbn [List.map]. unfold val. now rewrite <- app_assoc.
Qed.
Lemma foldr_rl_ok (f : Z -> A -> B -> M S B) l : forall fuel post r s, (Datatypes.length l < fuel)%nat ->
  foldr_rl fuel f (l ++ post) (zlen l - 1) r s = Ret (foldr (fun '((j, x), r) => f j x r) r (enum 0 l) s).
Proof.
  induction l as [|x l IH] using rev_ind; intros [|fuel] post r s F; try (cbn [Datatypes.length] in F; lia); cbn [foldr_rl].
  - reflexivity.
  - rewrite zlen_snoc. pose proof (zlen_nonneg l). destruct (Z.geb_spec (zlen l + 1 - 1) 0); [|lia]. replace (zlen l + 1 - 1) with (zlen l) by lia.
    rewrite <- app_assoc. cbn [List.app]. unfold vseq, prim, call. rewrite raw_at. cbn [bind].
    destruct (C55_folds S (Z * A) B (fun '((j, x), r) => f j x r) r (enum 0 (l ++ [x])) s) as (_ & ->).
    assert (E : enum 0 (l ++ [x]) = enum 0 l ++ [(zlen l, x)]).
    { unfold enum. rewrite app_length. cbn [Datatypes.length]. rewrite Nat.add_1_r, seq_S, map_app. cbn [List.map Nat.add].
      rewrite combine_snoc by now rewrite map_length, seq_length. unfold zlen. now rewrite Z.add_0_l. }
    rewrite E, rev_app_distr. cbn [List.rev List.app fold_left fold_step]. rewrite app_length in F. cbn [Datatypes.length] in F.
    destruct (f (zlen l) x r s) as [r1 s1|e s1]; cbn [bind].
    + rewrite IH by lia. destruct (C55_folds S (Z * A) B (fun '((j, x), r) => f j x r) r1 (enum 0 l) s1) as (_ & ->). reflexivity.
    + now rewrite fold_exn.
Qed.
End P.

(** forgetting the indexes *)
Section Forget.
Context {S A B : Type}.
Lemma find_forget (p : A -> M S bool) l : forall k s,
  match find (fun '(_, x) => p x) (enum k l) s with Val r s' => Val (match r with Some (_, x) => Some x | None => None end) s' | Exn e s' => Exn e s' end = find p l s.
Proof.
  induction l as [|x l IH]; intros k s; [reflexivity|]. rewrite enum_cons. cbn [find]. unfold seq. destruct (p x s) as [[|] s1|e s1]; try reflexivity. apply IH.
Qed.
Lemma foldl_forget (f : A * B -> M S B) l : forall k r s, foldl (fun '((_, x), r) => f (x, r)) r (enum k l) s = foldl f r l s.
Proof. induction l as [|x l IH]; intros k r s; [reflexivity|]. rewrite enum_cons. cbn [foldl]. unfold seq. destruct (f (x, r) s); [apply IH|reflexivity]. Qed.
Lemma foldr_forget (f : A * B -> M S B) l : forall k r s, foldr (fun '((_, x), r) => f (x, r)) r (enum k l) s = foldr f r l s.
Proof. induction l as [|x l IH]; intros k r s; [reflexivity|]. rewrite enum_cons. cbn [foldr]. unfold seq. now rewrite IH. Qed.
Lemma app_forget (f : A -> M S unit) l : forall k s, app (fun '(_, x) => f x) (enum k l) s = app f l s.
Proof. induction l as [|x l IH]; intros k s; [reflexivity|]. rewrite enum_cons. cbn [app]. unfold seq. destruct (f x s); [apply IH|reflexivity]. Qed.
Lemma map_forget (f : A -> M S B) l : forall k s, map (fun '(_, x) => f x) (enum k l) s = map f l s.
Proof. induction l as [|x l IH]; intros k s; [reflexivity|]. rewrite enum_cons. cbn [map]. unfold seq. destruct (f x s); [|reflexivity]. now rewrite IH. Qed.
Lemma find_pair (p : Z * A -> M S bool) l s : find (fun '(j, x) => p (j, x)) l s = find p l s.
Proof. revert s. induction l as [|[j x] l IH]; intros s; [reflexivity|]. cbn [find]. unfold seq. destruct (p (j, x) s) as [[|] s1|e s1]; try reflexivity. apply IH. Qed.
Lemma app_pair (f : Z * A -> M S unit) l s : app (fun '(j, x) => f (j, x)) l s = app f l s.
Proof. revert s. induction l as [|[j x] l IH]; intros s; [reflexivity|]. cbn [app]. unfold seq. destruct (f (j, x) s); [apply IH|reflexivity]. Qed.
Lemma map_pair (f : Z * A -> M S B) l s : map (fun '(j, x) => f (j, x)) l s = map f l s.
Proof. revert s. induction l as [|[j x] l IH]; intros s; [reflexivity|]. cbn [map]. unfold seq. destruct (f (j, x) s); [|reflexivity]. now rewrite IH. Qed.
Lemma foldl_pair (f : Z * A * B -> M S B) l r s : foldl (fun '((j, x), r) => f (j, x, r)) r l s = foldl f r l s.
Proof. revert r s. induction l as [|[j x] l IH]; intros r s; [reflexivity|]. cbn [foldl]. unfold seq. destruct (f (j, x, r) s); [apply IH|reflexivity]. Qed.
Lemma foldr_pair (f : Z * A * B -> M S B) l r s : foldr (fun '((j, x), r) => f (j, x, r)) r l s = foldr f r l s.
Proof. revert s. induction l as [|[j x] l IH]; intros s; [reflexivity|]. cbn [foldr]. unfold seq. now rewrite IH. Qed.
End Forget.

(** ** Theorems *)
(** every operation makes the calls of the operation of List (C55) and gives its result *)
Theorem C56_loops : forall S A B (v : list A) (s : S),
  (forall p, v_find p v s = Ret (find p v s)) /\ (forall p, v_exists p v s = Ret (exists_ p v s)) /\ (forall p, v_all p v s = Ret (all p v s)) /\
  (forall f (b : B), v_foldl f b v s = Ret (foldl f b v s)) /\ (forall f (b : B), v_foldr f b v s = Ret (foldr f b v s)) /\
  (forall f, v_app f v s = Ret (app f v s)) /\ (forall f : A -> M S B, v_map f v s = filled (map f v s)).
Proof.
  intros S A B v s. assert (F : (Datatypes.length v < turns v)%nat) by (unfold turns; lia). repeat split.
  - intros p. unfold v_find, vseq. pose proof (find_lr_ok (fun _ x => p x) v (turns v) [] s F) as E. cbn [List.app] in E. change (zlen (@nil A)) with 0 in E. rewrite E. cbn [bind].
    rewrite <- (find_forget p v 0 s). destruct (find _ (enum 0 v) s); reflexivity.
  - intros p. exact (exists_lr_ok p v (turns v) [] s F).
  - intros p. exact (all_lr_ok p v (turns v) [] s F).
  - intros f b. unfold v_foldl. rewrite <- (foldl_forget f v 0). exact (foldl_lr_ok (fun _ x r => f (x, r)) v (turns v) [] b s F).
  - intros f b. unfold v_foldr. rewrite <- (foldr_forget f v 0). pose proof (foldr_rl_ok (fun _ x r => f (x, r)) v (turns v) [] b s F) as E. rewrite app_nil_r in E. exact E.
  - intros f. unfold v_app. rewrite <- (app_forget f v 0). exact (app_lr_ok (fun _ x => f x) v (turns v) [] s F).
  - intros f. unfold v_map, filled, vector_. rewrite <- (map_forget f v 0). unfold zlen at 1. rewrite Nat2Z.id.
    exact (map_lr_ok (fun _ x => f x) v (turns v) [] [] s F eq_refl).
Qed.
(** those that pass the index, on the elements paired with 0, 1, ... *)
Theorem C56_indexed : forall S A B (v : list A) (s : S),
  (forall p, v_findi p v s = Ret (find p (enum 0 v) s)) /\
  (forall f (b : B), v_foldli f b v s = Ret (foldl f b (enum 0 v) s)) /\ (forall f (b : B), v_foldri f b v s = Ret (foldr f b (enum 0 v) s)) /\
  (forall f, v_appi f v s = Ret (app f (enum 0 v) s)) /\ (forall f : Z * A -> M S B, v_mapi f v s = filled (map f (enum 0 v) s)).
Proof.
  intros S A B v s. assert (F : (Datatypes.length v < turns v)%nat) by (unfold turns; lia). repeat split.
  - intros p. rewrite <- find_pair. exact (find_lr_ok (fun j x => p (j, x)) v (turns v) [] s F).
  - intros f b. rewrite <- foldl_pair. exact (foldl_lr_ok (fun j x r => f (j, x, r)) v (turns v) [] b s F).
  - intros f b. rewrite <- foldr_pair. pose proof (foldr_rl_ok (fun j x r => f (j, x, r)) v (turns v) [] b s F) as E. rewrite app_nil_r in E. exact E.
  - intros f. rewrite <- app_pair. exact (app_lr_ok (fun j x => f (j, x)) v (turns v) [] s F).
  - intros f. unfold v_mapi, filled, vector_. rewrite <- map_pair. unfold zlen at 1. rewrite Nat2Z.id.
    exact (map_lr_ok (fun j x => f (j, x)) v (turns v) [] [] s F eq_refl).
Qed.

Lemma init_list_ok {A} (vs : list A) : forall done, init_list (done ++ repeat None (Datatypes.length vs)) vs (zlen done) = Ret (done ++ List.map Some vs).
Proof.
  induction vs as [|x vs IH]; intros done; [reflexivity|]. cbn [init_list Datatypes.length repeat List.map]. rewrite set_at. cbn [bind].
  rewrite snoc, <- (zlen_snoc done (Some x)), IH, <- app_assoc. reflexivity.
Qed.
Lemma copy_lr_ok {A} (l : list A) : forall fuel pre done, (Datatypes.length l < fuel)%nat -> zlen done = zlen pre ->
  copy_lr fuel (pre ++ l) (done ++ repeat None (Datatypes.length l)) (zlen (pre ++ l)) (zlen pre) = Ret (done ++ List.map Some l).
Proof.
  induction l as [|x l IH]; intros [|fuel] pre done F E; cbn [Datatypes.length] in F; try lia; cbn [copy_lr].
  - rewrite at_stop. reflexivity.
  - rewrite lt_stop, raw_at. cbn [bind Datatypes.length repeat List.map]. rewrite <- E, set_at. cbn [bind]. rewrite E, (snoc pre x l), (snoc done (Some x)), <- (zlen_snoc pre x).
    rewrite IH; [|lia|rewrite !zlen_snoc; lia]. now rewrite <- app_assoc.
Qed.
Theorem C56_make : forall A (l : list A),
  fromList l = (if Z.of_nat (Datatypes.length l) <=? maxLen then Ret (List.map Some l) else Raise Size) /\
  (forall pre x post, l = pre ++ x :: post -> v_sub l (Z.of_nat (Datatypes.length pre)) = Ret x) /\
  (forall i, i < 0 \/ Z.of_nat (Datatypes.length l) <= i -> v_sub l i = Raise Subscript) /\
  (forall pre x y post, l = pre ++ x :: post -> v_update l (Z.of_nat (Datatypes.length pre)) y = Ret (List.map Some (pre ++ y :: post))) /\
  (forall i y, i < 0 \/ Z.of_nat (Datatypes.length l) <= i -> v_update l i y = Raise Subscript).
Proof.
  intros A l. destruct (C55_lists A l [] []) as (L & _). repeat split.
  - unfold fromList. rewrite L. rewrite Z.gtb_ltb, Z.ltb_antisym. destruct (_ <=? maxLen); [|reflexivity]. cbn [negb]. unfold vector_. rewrite Nat2Z.id. exact (init_list_ok l []).
  - intros pre x post ->. unfold v_sub. change (Z.of_nat (Datatypes.length pre)) with (zlen pre). rewrite Z.geb_leb, Z.leb_antisym, lt_stop.
    pose proof (zlen_nonneg pre). destruct (Z.ltb_spec (zlen pre) 0); [lia|]. cbn [orb negb]. apply raw_at.
  - intros i H. unfold v_sub, zlen. rewrite Z.geb_leb. destruct (Z.ltb_spec i 0); [reflexivity|]. destruct (Z.leb_spec (Z.of_nat (Datatypes.length l)) i); [reflexivity|lia].
  - intros pre x y post ->. unfold v_update. change (Z.of_nat (Datatypes.length pre)) with (zlen pre). rewrite Z.geb_leb, Z.leb_antisym, lt_stop.
    pose proof (zlen_nonneg pre). destruct (Z.ltb_spec (zlen pre) 0); [lia|]. cbn [orb negb]. unfold vector_. unfold zlen at 1. rewrite Nat2Z.id.
    pose proof (copy_lr_ok (pre ++ x :: post) (turns (pre ++ x :: post)) [] [] ltac:(unfold turns; lia) eq_refl) as E. cbn [List.app] in E. change (zlen (@nil A)) with 0 in E. rewrite E. cbn [bind].
    rewrite !map_app. cbn [List.map]. replace (zlen pre) with (zlen (List.map Some pre)) by (unfold zlen; now rewrite map_length). now rewrite set_at.
  - intros i y H. unfold v_update, zlen. rewrite Z.geb_leb. destruct (Z.ltb_spec i 0); [reflexivity|]. destruct (Z.leb_spec (Z.of_nat (Datatypes.length l)) i); [reflexivity|lia].
Qed.

Lemma acc_ok {A} (vs : list (list A)) : forall len, acc vs len =
  if len + zlen (List.concat vs) <=? 4611686018427387903 then Ret (len + zlen (List.concat vs)) else match vs with [] => Ret len | _ => Raise Overflow end.
Proof.
  induction vs as [|v vs IH]; intros len; cbn [acc List.concat].
  - change (zlen (@nil A)) with 0. rewrite Z.add_0_r. destruct (_ <=? _); reflexivity.
  - rewrite zlen_app, Z.gtb_ltb, IH. pose proof (zlen_nonneg (List.concat vs)).
    replace (zlen v + len + zlen (List.concat vs)) with (len + (zlen v + zlen (List.concat vs))) by lia.
    destruct (Z.ltb_spec 4611686018427387903 (zlen v + len)), (Z.leb_spec (len + (zlen v + zlen (List.concat vs))) 4611686018427387903); try lia; try reflexivity.
    destruct vs; [|reflexivity]. cbn [List.concat] in *. change (zlen (@nil A)) with 0 in *. lia.
Qed.
Lemma copy_to_ok {A} (l : list A) : forall fuel pre done rest to, (Datatypes.length l < fuel)%nat -> zlen done = to + zlen pre ->
  copy_to fuel (pre ++ l) (done ++ repeat None (Datatypes.length l) ++ rest) to (zlen (pre ++ l)) (zlen pre) = Ret (done ++ List.map Some l ++ rest).
Proof.
  induction l as [|x l IH]; intros [|fuel] pre done rest to F E; cbn [Datatypes.length] in F; try lia; cbn [copy_to].
  - rewrite at_stop. reflexivity.
  - rewrite lt_stop, raw_at. cbn [bind Datatypes.length repeat List.map List.app]. rewrite <- E, set_at. cbn [bind]. rewrite (snoc pre x l), (snoc done (Some x)), <- (zlen_snoc pre x).
    rewrite IH; [|lia|rewrite !zlen_snoc; lia]. now rewrite <- app_assoc.
Qed.
Lemma copyall_ok {A} (vs : list (list A)) : forall done, copyall (done ++ repeat None (Datatypes.length (List.concat vs))) (zlen done) vs = Ret (done ++ List.map Some (List.concat vs)).
Proof.
  induction vs as [|v vs IH]; intros done; [reflexivity|]. cbn [copyall List.concat]. rewrite app_length, repeat_app, map_app.
  pose proof (copy_to_ok v (turns v) [] done (repeat None (Datatypes.length (List.concat vs))) (zlen done) ltac:(unfold turns; lia) ltac:(cbn; lia)) as E.
  cbn [List.app] in E. change (zlen (@nil A)) with 0 in E. rewrite E. cbn [bind]. rewrite app_assoc.
  replace (zlen done + zlen v) with (zlen (done ++ List.map Some v)) by (rewrite zlen_app; unfold zlen; now rewrite map_length).
  now rewrite IH, <- app_assoc.
Qed.
(** 2^62-1 is the largest int *)
Theorem C56_concat : forall A (vs : list (list A)), let n := Z.of_nat (Datatypes.length (List.concat vs)) in
  v_concat vs = if n <=? maxLen then Ret (List.map Some (List.concat vs)) else if n <? 2 ^ 62 then Raise Size else Raise Overflow.
Proof.
  intros A vs n. unfold v_concat. rewrite acc_ok. cbn [Z.add]. change (zlen (List.concat vs)) with n. change (0 + n) with n.
  destruct (Z.leb_spec n 4611686018427387903), (Z.ltb_spec n (2 ^ 62)); try lia; cbn [bind].
  - rewrite Z.gtb_ltb, Z.ltb_antisym. destruct (n <=? maxLen); [|reflexivity]. cbn [negb]. unfold vector_, n. rewrite Nat2Z.id. exact (copyall_ok vs []).
  - destruct (Z.leb_spec n maxLen); [unfold maxLen in *; lia|]. destruct vs; [cbn in n; lia|reflexivity].
Qed.

Lemma v_init_ok {S B} (f : Z -> M S B) n : forall k fuel done s, (k < fuel)%nat -> zlen done + Z.of_nat k = n ->
  v_init fuel n f (done ++ repeat None k) (zlen done) s =
  Ret (match tab_h n f k (zlen done) s with Val bs s' => Val (done ++ List.map Some bs) s' | Exn e s' => Exn e s' end).
Proof.
  induction k as [|k IH]; intros [|fuel] done s F E; try lia; cbn [v_init tab_h]; rewrite Z.geb_leb.
  - destruct (Z.leb_spec n (zlen done)); [|lia]. destruct (Z.ltb_spec (zlen done) n); [lia|]. reflexivity.
  - destruct (Z.leb_spec n (zlen done)); [lia|]. destruct (Z.ltb_spec (zlen done) n); [|lia]. unfold vseq, call, prim, seq. cbn [bind].
    destruct (f (zlen done) s) as [b s1|e s1]; [|reflexivity]. cbn [repeat]. rewrite set_at. cbn [bind]. rewrite snoc, <- (zlen_snoc done (Some b)).
    rewrite IH; [|lia|rewrite zlen_snoc; lia]. rewrite zlen_snoc. destruct (tab_h n f k (zlen done + 1) s1); [|reflexivity]. unfold val. cbn [List.map]. now rewrite <- app_assoc.
Qed.
Theorem C56_tabulate : forall S B (f : Z -> M S B) n s,
  v_tabulate n f s = if n <=? maxLen then filled (tabulate n f s) else Ret (Exn Size s).
Proof.
  intros S B f n s. unfold v_tabulate, tabulate, filled. rewrite Z.gtb_ltb, (Z.ltb_antisym n maxLen).
  destruct (Z.ltb_spec n 0) as [N|N]; cbn [orb].
  - destruct (Z.leb_spec n maxLen); [reflexivity|unfold maxLen in *; lia].
  - destruct (Z.leb_spec n maxLen); [|reflexivity]. cbn [negb]. exact (v_init_ok f n (Z.to_nat n) (Datatypes.S (Z.to_nat n)) [] s ltac:(lia) ltac:(cbn; lia)).
Qed.

Lemma collate_h_ok {S A} (cmp : A * A -> M S comparison) l1 : forall fuel p1 p2 l2 s, (Datatypes.length l1 < fuel)%nat -> zlen p1 = zlen p2 ->
  collate_h fuel cmp (p1 ++ l1) (p2 ++ l2) (if zlen (p1 ++ l1) <? zlen (p2 ++ l2) then zlen (p1 ++ l1) else zlen (p2 ++ l2)) (zlen p1) s = Ret (collate cmp l1 l2 s).
Proof.
  induction l1 as [|x l1 IH]; intros [|fuel] p1 p2 l2 s F E; cbn [Datatypes.length] in F; try lia; cbn [collate_h].
  - rewrite app_nil_r, zlen_app, <- E. pose proof (zlen_nonneg l2). destruct l2 as [|y l2].
    + change (zlen (@nil A)) with 0. rewrite Z.add_0_r, Z.ltb_irrefl, Z.eqb_refl. rewrite Z.gtb_ltb, Z.ltb_irrefl. reflexivity.
    + rewrite zlen_cons in *. pose proof (zlen_nonneg l2). destruct (Z.ltb_spec (zlen p1) (zlen p1 + (1 + zlen l2))); [|lia]. rewrite Z.eqb_refl. reflexivity.
  - destruct l2 as [|y l2].
    + rewrite app_nil_r, zlen_app, zlen_cons, <- E. pose proof (zlen_nonneg l1). destruct (Z.ltb_spec (zlen p1 + (1 + zlen l1)) (zlen p1)); [lia|]. rewrite Z.eqb_refl.
      rewrite Z.gtb_ltb. destruct (Z.ltb_spec (zlen p1) (zlen p1 + (1 + zlen l1))); [reflexivity|lia].
    + assert (N : (zlen p1 =? (if zlen (p1 ++ x :: l1) <? zlen (p2 ++ y :: l2) then zlen (p1 ++ x :: l1) else zlen (p2 ++ y :: l2))) = false).
      { apply Z.eqb_neq. rewrite !zlen_app, !zlen_cons. pose proof (zlen_nonneg l1). pose proof (zlen_nonneg l2). destruct (_ <? _); lia. }
      rewrite N. unfold vseq, prim, call. rewrite raw_at. cbn [bind]. rewrite E at 1. rewrite raw_at. cbn [bind collate]. unfold seq.
      destruct (cmp (x, y) s) as [[| |] s1|e s1]; try reflexivity.
      rewrite (snoc p1 x l1), (snoc p2 y l2), <- (zlen_snoc p1 x). apply IH; [lia|]. rewrite !zlen_snoc. lia.
Qed.
Theorem C56_collate : forall S A (cmp : A * A -> M S comparison) v1 v2 s, v_collate cmp v1 v2 s = Ret (collate cmp v1 v2 s).
Proof. intros S A cmp v1 v2 s. exact (collate_h_ok cmp v1 (turns v1) [] [] v2 s ltac:(unfold turns; lia) eq_refl). Qed.

(** ** Examples *)
Example C56_map_ex : v_map inv [5; 20] [] = Ret (Val [Some 20; Some 5] [5; 20]) /\ v_map inv [5; 0; 20] [] = Ret (Exn Div [5; 0]).
Proof. split; reflexivity. Qed.
Example C56_indexed_ex : v_foldri (fun '(j, x, r) => fun s => Val (j + x + r) (s ++ [j])) 0 [7; 8] [] = Ret (Val 16 [1; 0]).
Proof. reflexivity. Qed.
Example C56_make_ex : v_update [1; 2; 3] 1 9 = Ret [Some 1; Some 9; Some 3] /\ v_sub [1; 2] 2 = Raise Subscript.
Proof. split; reflexivity. Qed.
Example C56_concat_ex : v_concat [[1; 2]; []; [3]] = Ret [Some 1; Some 2; Some 3].
Proof. reflexivity. Qed.
Example C56_tabulate_ex : v_tabulate 2 (fun i => inv (i + 1)) [] = Ret (Val [Some 100; Some 50] [1; 2]) /\ v_tabulate (maxLen + 1) inv [] = Ret (Exn Size []).
Proof. split; reflexivity. Qed.
Example C56_collate_ex : v_collate cmp [1; 5; 1] [1; 4] [] = Ret (Val Gt [1; 5]).
Proof. reflexivity. Qed.

Print Assumptions C56_loops.
Print Assumptions C56_indexed.
Print Assumptions C56_make.
Print Assumptions C56_concat.
Print Assumptions C56_tabulate.
Print Assumptions C56_collate.
