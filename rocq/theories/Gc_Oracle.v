(** Two concrete environments for the collector model, used in the examples and refutations: every
    allocation extends the heap by a chunk holding just the new block, above all chunks ([alloc_up]) or
    below them ([alloc_down]).  Both are shown to behave as Gc_Spec asks. *)
From Coq Require Import Sorting.Sorted.
From Verif Require Import Base ArrayLib Gc_Model Gc_Spec Gc_Heap.

Definition ys : Z := 1000.
Definition ye : Z := 2000.
Definition null_only (w : Z) : Prop := w = 0.

Definition top (s : st) : Z := fold_right (fun c m => Z.max m (fst c + snd c)) 5000 (chunks s).
Definition alloc_up (s : st) (w : Z) : option (Z * list (Z * Z) * list Z) :=
  let c := top s + top s mod 2 in Some (c + 8, chunks s ++ [(c, 8 * (w + 1))], repeat 0 (Z.to_nat w)).
Definition alloc_down (s : st) (w : Z) : option (Z * list (Z * Z) * list Z) :=
  match chunks s with
  | (c0, _) :: _ =>
      let c := c0 - 8 * (w + 1) in
      if (2000 <=? c) && Z.even c0 then Some (c + 8, (c, 8 * (w + 1)) :: chunks s, repeat 0 (Z.to_nat w)) else None
  | [] => None
  end.
Definition unit_size (_ : st) (_ : Z) : Z := 1.
Definition always (_ : st) : bool := true.
Definition never (_ : st) : bool := false.

Lemma ex_zone : zone ys ye null_only.
Proof. unfold zone, null_only, ys, ye, is_young. repeat split; lia. Qed.

Lemma ex_free : free_blocks ys ye unit_size null_only.
Proof.
  intros s p c n L I P N. unfold unit_size. split; [lia|]. split; [lia|]. intros a b A Y Q. assert (a = p + 8) by lia. congruence.
Qed.

Lemma some3 {A B C} (a a' : A) (b b' : B) (c c' : C) : Some (a, b, c) = Some (a', b', c') -> a' = a /\ b' = b /\ c' = c.
Proof. intros E. repeat split; congruence. Qed.

(** a chunk of its own for the new block *)
Lemma new_chunk s w c cs : layout ys ye null_only s -> 1 <= w -> 2000 <= c -> Z.even c = true ->
  StronglySorted (fun c c' => fst c + snd c <= fst c') cs -> (forall x, In x cs <-> x = (c, 8 * (w + 1)) \/ In x (chunks s)) ->
  (forall d n, In (d, n) (chunks s) -> d + n <= c \/ c + 8 * (w + 1) <= d) ->
  let junk := repeat 0 (Z.to_nat w) in
  zlen junk = w /\ hget (hp s) (c + 8) = None /\ is_young ys ye (c + 8) = false /\ incl (chunks s) cs /\
  forall k t, layout ys ye null_only (set_hp (set_chunks s cs) (hput (hp s) (c + 8) (Blk k t junk))).
Proof.
  intros L W C E SO IN AP junk. assert (zlen junk = w) as ZL by (unfold junk; rewrite zlen_repeat; lia).
  assert (is_young ys ye (c + 8) = false) as Y by (unfold is_young, ys, ye; lia).
  assert (hget (hp s) (c + 8) = None) as N.
  { destruct (hget (hp s) (c + 8)) as [b|] eqn:B; [|reflexivity]. exfalso. destruct (l_in _ _ _ _ L _ _ B Y) as (_ & Q & d & n & I & D1 & D2). specialize (AP d n I). lia. }
  split; [exact ZL|]. split; [exact N|]. split; [exact Y|]. split; [intros x X; apply IN; now right|]. intros k t.
  assert (forall a b, hget (hput (hp s) (c + 8) (Blk k t junk)) a = Some b -> a = c + 8 /\ b = Blk k t junk \/ hget (hp s) a = Some b) as HH.
  { intros a b A. rewrite hget_hput in A. destruct (Z.eqb_spec a (c + 8)); [left; split; congruence|now right]. }
  assert (forall a b, hget (hp s) a = Some b -> is_young ys ye a = false -> a + 8 * zlen (fs b) <= c \/ c + 8 * (w + 1) <= a - 8) as FAR.
  { intros a b A Ya. destruct (l_in _ _ _ _ L _ _ A Ya) as (_ & Q & d & n & I & D1 & D2). specialize (AP d n I). lia. }
  destruct L. constructor; cbn [chunks hp set_hp set_chunks].
  - exact SO.
  - intros d n I. apply IN in I as [Q|I]; [assert (d = c /\ n = 8 * (w + 1)) as [-> ->] by (split; congruence); unfold ys, ye; lia|auto].
  - intros x d n O I. apply IN in I as [Q|I]; [assert (d = c /\ n = 8 * (w + 1)) as [-> ->] by (split; congruence); unfold null_only in O; lia|eauto].
  - intros a b A Ya. destruct (HH a b A) as [[-> ->]|A0].
    + split; [rewrite Z.even_add, E; reflexivity|]. cbn [fs]. split; [lia|]. exists c, (8 * (w + 1)). split; [apply IN; now left|lia].
    + destruct (l_in a b A0 Ya) as (E1 & Q & d & n & I & D1 & D2). split; [exact E1|]. split; [exact Q|]. exists d, n. split; [apply IN; now right|lia].
  - intros a b a' b' A A' Ya Ya' NE. destruct (HH a b A) as [[-> ->]|A0], (HH a' b' A') as [[-> ->]|A0']; cbn [fs]; rewrite ?ZL.
    + congruence.
    + specialize (FAR a' b' A0' Ya'). lia.
    + specialize (FAR a b A0 Ya). lia.
    + eauto.
Qed.

Lemma top_ge s : 5000 <= top s /\ forall c n, In (c, n) (chunks s) -> c + n <= top s.
Proof.
  unfold top. induction (chunks s) as [|[c n] l [IH1 IH2]]; cbn [fold_right fst snd].
  - split; [lia|]. intros c n [].
  - split; [lia|]. intros d m [Q|I]; [injection Q as -> ->; lia|]. specialize (IH2 d m I). lia.
Qed.
Lemma sorted_snoc (l : list (Z * Z)) x : StronglySorted (fun c c' => fst c + snd c <= fst c') l -> (forall y, In y l -> fst y + snd y <= fst x) ->
  StronglySorted (fun c c' => fst c + snd c <= fst c') (l ++ [x]).
Proof.
  induction 1 as [|y l H IH F]; intros K; cbn.
  - repeat constructor.
  - constructor; [apply IH; intros z Q; apply K; now right|]. rewrite Forall_forall in *. intros z Q. apply in_app_iff in Q as [Q|[<-|[]]]; [auto|]. apply K. now left.
Qed.
Lemma up_ok : allocator ys ye alloc_up null_only.
Proof.
  intros s w r cs junk L W E. unfold alloc_up in E. apply some3 in E as (-> & -> & ->). destruct (top_ge s) as [T1 T2].
  assert (Z.even (top s + top s mod 2) = true) as EV.
  { rewrite Z.even_spec. exists ((top s + top s mod 2) / 2). pose proof (Z.div_mod (top s) 2). pose proof (Z.mod_pos_bound (top s) 2). lia. }
  apply new_chunk; auto.
  - pose proof (Z.mod_pos_bound (top s) 2). lia.
  - apply sorted_snoc; [apply L|]. intros [c n] I. cbn [fst snd]. specialize (T2 c n I). pose proof (Z.mod_pos_bound (top s) 2). lia.
  - intros x. rewrite in_app_iff. cbn. intuition.
  - intros d n I. specialize (T2 d n I). pose proof (Z.mod_pos_bound (top s) 2). lia.
Qed.
Lemma down_ok : allocator ys ye alloc_down null_only.
Proof.
  intros s w r cs junk L W E. unfold alloc_down in E. destruct (chunks s) as [|[c0 n0] l] eqn:C; [discriminate|].
  destruct (_ && _) eqn:G; [|discriminate]. apply andb_prop in G as [G1 G2]. apply some3 in E as (-> & -> & ->). pose proof (l_sorted _ _ _ _ L) as SO. rewrite C in SO.
  apply StronglySorted_inv in SO as [SO1 SO2]. rewrite Forall_forall in SO2. cbn [fst snd] in SO2.
  assert (forall d n, In (d, n) (chunks s) -> c0 <= d) as LE.
  { intros d n I. rewrite C in I. destruct I as [Q|I]; [injection Q as -> ->; lia|]. specialize (SO2 _ I). cbn in SO2.
    destruct (l_chunk _ _ _ _ L c0 n0) as (_ & P & _); [rewrite C; now left|]. lia. }
  rewrite <- C. apply new_chunk; auto.
  - lia.
  - rewrite Z.even_sub, G2. rewrite Z.even_mul. reflexivity.
  - constructor; [apply L|]. rewrite Forall_forall. intros [d n] I. cbn [fst snd]. specialize (LE d n I). lia.
  - intros x. cbn. intuition.
  - intros d n I. specialize (LE d n I). lia.
Qed.
(** the heap never grows below its first chunk *)
Lemma up_stable s w r cs junk : alloc_up s w = Some (r, cs, junk) -> chunks s <> [] -> hd_error cs = hd_error (chunks s).
Proof. unfold alloc_up. intros E. injection E as <- <- <-. destruct (chunks s); [congruence|reflexivity]. Qed.
