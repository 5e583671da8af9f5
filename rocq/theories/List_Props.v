(** C55: List and ListPair call the functions they are given in order, once for each element. *)
From Verif Require Import Base List_Model.

(** ** Specification *)
Section Spec.
Context {S X Y : Type}.
(** calling [f] on the elements of [xs] one after the other, all calls returning, gives [ys] and takes the state from [s] to [s'] *)
Inductive calls (f : X -> M S Y) : list X -> list Y -> S -> S -> Prop :=
| calls_nil s : calls f [] [] s s
| calls_cons x xs y ys s s1 s' : f x s = Val y s1 -> calls f xs ys s1 s' -> calls f (x :: xs) (y :: ys) s s'.
(** ... until a call raises [e]; no later element is visited *)
Definition fails (f : X -> M S Y) (xs : list X) (e : exn) (s s' : S) : Prop :=
  exists pre x post ys s1, xs = pre ++ x :: post /\ calls f pre ys s s1 /\ f x s1 = Exn e s'.
(** all calls give [y] *)
Definition never (f : X -> M S Y) (y : Y) (xs : list X) (s s' : S) : Prop := calls f xs (repeat y (Datatypes.length xs)) s s'.
(** the calls give [y] until one, on [x], gives something else, [v]; no later element is visited *)
Definition first (f : X -> M S Y) (y : Y) (xs : list X) (x : X) (v : Y) (s s' : S) : Prop :=
  exists pre post s1, xs = pre ++ x :: post /\ never f y pre s s1 /\ f x s1 = Val v s' /\ v <> y.
(** the calls give [y] until one raises [e] *)
Definition first_fails (f : X -> M S Y) (y : Y) (xs : list X) (e : exn) (s s' : S) : Prop :=
  exists pre x post s1, xs = pre ++ x :: post /\ never f y pre s s1 /\ f x s1 = Exn e s'.
End Spec.
(** one step of a fold that stops at the first exception *)
Definition fold_step {S A B} (f : A * B -> M S B) (r : res S B) (x : A) : res S B :=
  match r with Val b s => f (x, b) s | Exn e s => Exn e s end.
Definition selected {X} (v : bool) (xs : list X) (bs : list bool) : list X :=
  List.map fst (List.filter (fun p => Bool.eqb (snd p) v) (combine xs bs)).

(** ** Proofs *)
Lemma fails_nil {S X Y} (f : X -> M S Y) e s s' : ~ fails f [] e s s'.
Proof. intros ([|z0 l0] & x & post & ys & s1 & E & _); discriminate. Qed.
Lemma fails_cons {S X Y} (f : X -> M S Y) x xs e s s' : fails f (x :: xs) e s s' <->
  f x s = Exn e s' \/ exists y s1, f x s = Val y s1 /\ fails f xs e s1 s'.
Proof.
  split.
  - intros ([|z pre] & w & post & ys & s1 & E & C & F); cbn [List.app] in E; injection E as -> ->.
    + inversion C; subst. now left.
    + inversion C as [|? ? y ys' ? s2 ? F1 C1]; subst. right. exists y, s2. split; [exact F1|]. now exists pre, w, post, ys', s1.
  - intros [F|(y & s1 & F & (pre & w & post & ys & s2 & -> & C & F2))].
    + exists [], x, xs, [], s. repeat split; [constructor|exact F].
    + exists (x :: pre), w, post, (y :: ys), s2. repeat split; [econstructor; eassumption|exact F2].
Qed.
Lemma ff_nil {S X Y} (f : X -> M S Y) v e s s' : ~ first_fails f v [] e s s'.
Proof. intros ([|z0 l0] & x & post & s1 & E & _); discriminate. Qed.
Lemma ff_cons {S X Y} (f : X -> M S Y) v x xs e s s' : first_fails f v (x :: xs) e s s' <->
  f x s = Exn e s' \/ exists s1, f x s = Val v s1 /\ first_fails f v xs e s1 s'.
Proof.
  split.
  - intros ([|z pre] & w & post & s1 & E & C & F); cbn [List.app] in E; injection E as -> ->.
    + inversion C; subst. now left.
    + inversion C as [|? ? y ys' ? s2 ? F1 C1]; subst. right. exists s2. split; [exact F1|]. now exists pre, w, post, s1.
  - intros [F|(s1 & F & (pre & w & post & s2 & -> & C & F2))].
    + exists [], x, xs, s. repeat split; [constructor|exact F].
    + exists (x :: pre), w, post, s2. repeat split; [econstructor; eassumption|exact F2].
Qed.
Lemma first_nil {S X Y} (f : X -> M S Y) y x v s s' : ~ first f y [] x v s s'.
Proof. intros ([|z0 l0] & post & s1 & E & _); discriminate. Qed.
Lemma first_cons {S X Y} (f : X -> M S Y) y z xs x v s s' : first f y (z :: xs) x v s s' <->
  (z = x /\ f z s = Val v s' /\ v <> y) \/ exists s1, f z s = Val y s1 /\ first f y xs x v s1 s'.
Proof.
  split.
  - intros ([|w pre] & post & s1 & E & C & F & N); cbn [List.app] in E; injection E as -> ->.
    + inversion C; subst. left. auto.
    + inversion C as [|? ? y' ys' ? s2 ? F1 C1]; subst. right. exists s2. split; [exact F1|]. now exists pre, post, s1.
  - intros [(<- & F & N)|(s1 & F & (pre & post & s2 & -> & C & F2 & N))].
    + exists [], xs, s. repeat split; [constructor|exact F|exact N].
    + exists (z :: pre), post, s2. repeat split; [econstructor; eassumption|exact F2|exact N].
Qed.

(** Calling a function along a list ends in exactly one of the ways of the specification. *)
Theorem C55_total : forall S X Y (f : X -> M S Y) xs s,
  (exists ys s', calls f xs ys s s') \/ (exists e s', fails f xs e s s').
Proof.
  intros S X Y f xs. induction xs as [|x xs IH]; intros s; [left; exists [], s; constructor|].
  destruct (f x s) as [y s1|e s1] eqn:F.
  - destruct (IH s1) as [(ys & s' & C)|(e & s' & C)].
    + left. exists (y :: ys), s'. econstructor; eassumption.
    + right. exists e, s'. apply fails_cons. right. eauto.
  - right. exists e, s1. apply fails_cons. now left.
Qed.
Theorem C55_search_total : forall S X Y (f : X -> M S Y) y, (forall a : Y, {a = y} + {a <> y}) -> forall xs s,
  (exists s', never f y xs s s') \/ (exists x v s', first f y xs x v s s') \/ (exists e s', first_fails f y xs e s s').
Proof.
  intros S X Y f y D xs. induction xs as [|x xs IH]; intros s; [left; exists s; constructor|].
  destruct (f x s) as [v s1|e s1] eqn:F.
  - destruct (D v) as [->|N].
    + destruct (IH s1) as [(s' & C)|[(z & v & s' & C)|(e & s' & C)]].
      * left. exists s'. econstructor; eassumption.
      * right. left. exists z, v, s'. apply first_cons. right. eauto.
      * right. right. exists e, s'. apply ff_cons. right. eauto.
    + right. left. exists x, v, s1. apply first_cons. left. auto.
  - right. right. exists e, s1. apply ff_cons. now left.
Qed.

Lemma rev_ok {A} (xs ys : list A) : revAcc xs ys = List.rev xs ++ ys.
Proof. revert ys. induction xs as [|x xs IH]; intros ys; [reflexivity|]. cbn [revAcc List.rev]. rewrite IH, <- app_assoc. reflexivity. Qed.
Lemma rev_rev {A} (xs : list A) : rev xs = List.rev xs.
Proof. unfold rev. now rewrite rev_ok, app_nil_r. Qed.

Theorem C55_lists : forall A (xs ys : list A) (xss : list (list A)),
  length xs = Z.of_nat (Datatypes.length xs) /\ rev xs = List.rev xs /\ revAppend xs ys = List.rev xs ++ ys /\
  append xs ys = xs ++ ys /\ concat xss = List.concat xss.
Proof.
  intros A xs ys xss. repeat split.
  - unfold length. enough (H : forall k, len_acc xs k = k + Z.of_nat (Datatypes.length xs)) by (rewrite H; lia).
    induction xs as [|x xs IH]; intros k; cbn [len_acc Datatypes.length]; [lia|]. rewrite IH. lia.
  - apply rev_rev.
  - apply rev_ok.
  - unfold append. destruct ys as [|y ys]; [now rewrite app_nil_r|]. generalize (y :: ys). intros l. induction xs as [|x xs IH]; [reflexivity|]. cbn [append_h List.app]. now rewrite IH.
  - induction xss as [|l xss IH]; [reflexivity|]. cbn [concat List.concat]. rewrite IH. unfold append. destruct (List.concat xss) as [|y ys']; [now rewrite app_nil_r|].
    generalize (y :: ys'). intros m. induction l as [|x l IHl]; [reflexivity|]. cbn [append_h List.app]. now rewrite IHl.
Qed.

Theorem C55_access : forall A (xs : list A) n,
  nth xs n = (if (0 <=? n) && (n <? Z.of_nat (Datatypes.length xs)) then match nth_error xs (Z.to_nat n) with Some x => Ret x | None => UB end else Raise Subscript) /\
  take xs n = (if (0 <=? n) && (n <=? Z.of_nat (Datatypes.length xs)) then Ret (firstn (Z.to_nat n) xs) else Raise Subscript) /\
  drop xs n = (if (0 <=? n) && (n <=? Z.of_nat (Datatypes.length xs)) then Ret (skipn (Z.to_nat n) xs) else Raise Subscript).
Proof.
  intros A xs n. unfold nth, take, drop. destruct (Z.ltb_spec n 0) as [N|N].
  - assert (E : (0 <=? n) = false) by (apply Z.leb_gt; lia). rewrite E. repeat split; reflexivity.
  - assert (E : (0 <=? n) = true) by (apply Z.leb_le; lia). rewrite E. cbn [andb]. clear E. revert n N.
    induction xs as [|x xs IH]; intros n N; cbn [nth_h take_h drop_h Datatypes.length].
    + destruct (Z.ltb_spec n (Z.of_nat 0)); [lia|]. destruct (Z.eqb_spec n 0) as [->|H0]; [repeat split; reflexivity|].
      destruct (Z.leb_spec n (Z.of_nat 0)); [lia|]. repeat split; reflexivity.
    + destruct (Z.eqb_spec n 0) as [->|H0]; [repeat split; reflexivity|].
      destruct (IH (n - 1) ltac:(lia)) as (-> & -> & ->).
      replace (Z.to_nat n) with (Datatypes.S (Z.to_nat (n - 1))) by lia. cbn [nth_error firstn skipn].
      destruct (Z.ltb_spec (n - 1) (Z.of_nat (Datatypes.length xs))), (Z.ltb_spec n (Z.of_nat (Datatypes.S (Datatypes.length xs)))); try lia;
      destruct (Z.leb_spec (n - 1) (Z.of_nat (Datatypes.length xs))), (Z.leb_spec n (Z.of_nat (Datatypes.S (Datatypes.length xs)))); try lia; repeat split; reflexivity.
Qed.
Theorem C55_ends : forall A (x : A) xs, hd (x :: xs) = Ret x /\ tl (x :: xs) = Ret xs /\ last (xs ++ [x]) = Ret x /\
  @hd A [] = Raise EmptyExn /\ @tl A [] = Raise EmptyExn /\ @last A [] = Raise EmptyExn.
Proof.
  intros A x xs. repeat split. induction xs as [|y xs IH]; [reflexivity|]. cbn [List.app last]. destruct (xs ++ [x]) eqn:E; [destruct xs; discriminate|exact IH].
Qed.

(** ** map, app, mapPartial, filter, partition, tabulate: one call for each element, in order *)
Theorem C55_map : forall S A B (f : A -> M S B) xs s,
  (forall ys s', calls f xs ys s s' -> map f xs s = Val ys s') /\ (forall e s', fails f xs e s s' -> map f xs s = Exn e s').
Proof.
  intros S A B f xs. induction xs as [|x xs IH]; intros s; (split; [intros ys s' C|intros e s' C]).
  - inversion C; subst. reflexivity.
  - now apply fails_nil in C.
  - inversion C as [|? ? y ys' ? s1 ? F C1]; subst. cbn [map]. unfold seq. rewrite F. destruct (IH s1) as (I & _). rewrite (I _ _ C1). reflexivity.
  - cbn [map]. unfold seq. apply fails_cons in C as [F|(y & s1 & F & C)]; rewrite F; [reflexivity|]. destruct (IH s1) as (_ & I). now rewrite (I _ _ C).
Qed.
Theorem C55_app : forall S A (f : A -> M S unit) xs s,
  (forall ys s', calls f xs ys s s' -> app f xs s = Val tt s') /\ (forall e s', fails f xs e s s' -> app f xs s = Exn e s').
Proof.
  intros S A f xs. induction xs as [|x xs IH]; intros s; (split; [intros ys s' C|intros e s' C]).
  - inversion C; subst. reflexivity.
  - now apply fails_nil in C.
  - inversion C as [|? ? y ys' ? s1 ? F C1]; subst. cbn [app]. unfold seq. rewrite F. destruct (IH s1) as (I & _). exact (I _ _ C1).
  - cbn [app]. unfold seq. apply fails_cons in C as [F|(y & s1 & F & C)]; rewrite F; [reflexivity|]. destruct (IH s1) as (_ & I). exact (I _ _ C).
Qed.
Theorem C55_mapPartial : forall S A B (f : A -> M S (option B)) xs s,
  (forall ys s', calls f xs ys s s' -> mapPartial f xs s = Val (flat_map (fun o => match o with Some y => [y] | None => [] end) ys) s') /\
  (forall e s', fails f xs e s s' -> mapPartial f xs s = Exn e s').
Proof.
  intros S A B f xs. induction xs as [|x xs IH]; intros s; (split; [intros ys s' C|intros e s' C]).
  - inversion C; subst. reflexivity.
  - now apply fails_nil in C.
  - inversion C as [|? ? y ys' ? s1 ? F C1]; subst. cbn [mapPartial]. unfold seq. rewrite F. destruct (IH s1) as (I & _). cbn [flat_map]. destruct y; rewrite (I _ _ C1); reflexivity.
  - cbn [mapPartial]. unfold seq. apply fails_cons in C as [F|(y & s1 & F & C)]; rewrite F; [reflexivity|]. destruct (IH s1) as (_ & I). destruct y; now rewrite (I _ _ C).
Qed.
Theorem C55_filter : forall S A (p : A -> M S bool) xs s,
  (forall bs s', calls p xs bs s s' -> filter p xs s = Val (selected true xs bs) s' /\ partition p xs s = Val (selected true xs bs, selected false xs bs) s') /\
  (forall e s', fails p xs e s s' -> filter p xs s = Exn e s' /\ partition p xs s = Exn e s').
Proof.
  intros S A p xs s.
  enough (H : forall are arent, (forall bs s', calls p xs bs s s' -> filter p xs s = Val (selected true xs bs) s' /\ part_h p xs are arent s = Val (List.rev are ++ selected true xs bs, List.rev arent ++ selected false xs bs) s') /\
    (forall e s', fails p xs e s s' -> filter p xs s = Exn e s' /\ part_h p xs are arent s = Exn e s')) by exact (H [] []).
  revert s. induction xs as [|x xs IH]; intros s are arent; (split; [intros ys s' C|intros e s' C]).
  - inversion C; subst. cbn. rewrite !rev_rev, !app_nil_r. split; reflexivity.
  - now apply fails_nil in C.
  - inversion C as [|? ? b bs ? s1 ? F C1]; subst. cbn [filter part_h]. unfold seq. rewrite F. unfold selected. cbn [combine List.filter snd].
    destruct b; cbn [Bool.eqb List.map fst].
    + destruct (IH s1 (x :: are) arent) as (I & _). destruct (I _ _ C1) as (-> & ->). cbn [List.rev]. rewrite <- app_assoc. split; reflexivity.
    + destruct (IH s1 are (x :: arent)) as (I & _). destruct (I _ _ C1) as (-> & ->). cbn [List.rev]. rewrite <- app_assoc. split; reflexivity.
  - cbn [filter part_h]. unfold seq. apply fails_cons in C as [F|(b & s1 & F & C)]; rewrite F; [split; reflexivity|].
    destruct b; [destruct (IH s1 (x :: are) arent) as (_ & I)|destruct (IH s1 are (x :: arent)) as (_ & I)]; destruct (I _ _ C) as (-> & ->); split; reflexivity.
Qed.
Theorem C55_tabulate : forall S B (f : Z -> M S B) n s, let is := List.map Z.of_nat (List.seq 0 (Z.to_nat n)) in
  if n <? 0 then tabulate n f s = Exn Size s else
  (forall ys s', calls f is ys s s' -> tabulate n f s = Val ys s') /\ (forall e s', fails f is e s s' -> tabulate n f s = Exn e s').
Proof.
  intros S B f n s. cbn zeta. unfold tabulate. destruct (Z.ltb_spec n 0) as [H|H]; [reflexivity|].
  enough (H' : forall k i s, n = Z.of_nat i + Z.of_nat k -> let is := List.map Z.of_nat (List.seq i k) in
    (forall ys s', calls f is ys s s' -> tab_h n f k (Z.of_nat i) s = Val ys s') /\ (forall e s', fails f is e s s' -> tab_h n f k (Z.of_nat i) s = Exn e s'))
    by (exact (H' (Z.to_nat n) O s ltac:(lia))).
  clear s H. induction k as [|k IH]; intros i s E; cbn zeta; (split; [intros ys s' C|intros e s' C]); cbn [List.seq List.map] in C.
  - inversion C; subst. cbn [tab_h]. destruct (_ <? _); reflexivity.
  - now apply fails_nil in C.
  - inversion C as [|? ? y ys' ? s1 ? F C1]; subst. cbn [tab_h]. destruct (Z.ltb_spec (Z.of_nat i) (Z.of_nat i + Z.of_nat (Datatypes.S k))); [|lia].
    unfold seq. rewrite F. destruct (IH (Datatypes.S i) s1 ltac:(lia)) as (I & _). replace (Z.of_nat i + 1) with (Z.of_nat (Datatypes.S i)) by lia. now rewrite (I _ _ C1).
  - cbn [tab_h]. destruct (Z.ltb_spec (Z.of_nat i) n); [|lia]. unfold seq.
    apply fails_cons in C as [F|(y & s1 & F & C)]; rewrite F; [reflexivity|]. destruct (IH (Datatypes.S i) s1 ltac:(lia)) as (_ & I). replace (Z.of_nat i + 1) with (Z.of_nat (Datatypes.S i)) by lia. now rewrite (I _ _ C).
Qed.
