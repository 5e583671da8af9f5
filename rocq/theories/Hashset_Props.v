(** C30 for Hashset: a hash set is the set given by its history of additions and deletions, modulo
    the user's equality, and Hashset.hash does not depend on the history. *)
From Coq Require Import Sorting.Permutation.
From Verif Require Import Base ArrayLib Hash_Model Hash_Proofs Polyhash_Proofs Hashset_Model Hashset_Proofs.

(** ** Specification: lists without duplicates *)
Section Spec.
Context {K : Type} (same : K -> K -> bool).
Inductive op := Add (k : K) | Delete (k : K) | AddList (ks : list K) | Copy.
Definition mem (k : K) (m : list K) : bool := existsb (same k) m.
Definition others (k : K) (m : list K) : list K := List.filter (fun x => negb (same k x)) m.
Definition spec_add (m : list K) (k : K) : list K := k :: others k m.
(** None: the call raises NotFound and leaves the set alone *)
Definition spec_step (o : op) (m : list K) : option (list K) :=
  match o with
  | Add k => Some (spec_add m k)
  | Delete k => if mem k m then Some (others k m) else None
  | AddList ks => Some (fold_left spec_add ks m)
  | Copy => Some m
  end.
Fixpoint spec_run (os : list op) (m : list K) : list bool * list K :=
  match os with
  | [] => ([], m)
  | o :: os => match spec_step o m with
               | Some m => let (r, m) := spec_run os m in (true :: r, m)
               | None => let (r, m) := spec_run os m in (false :: r, m)
               end
  end.
Definition op_size (o : op) : Z := match o with AddList ks => Z.of_nat (length ks) | _ => 1 end.
Definition total_size (os : list op) : Z := fold_right Z.add 0 (List.map op_size os).
End Spec.
Arguments op : clear implicits.

Section Run.
Context {K : Type} (hashVal : K -> Z) (same : K -> K -> bool).
(** ** the model run on a history; the booleans say which calls returned (true) and which raised
    NotFound (false: delete raises before its first update, Hashset.sml 191-199) *)
Definition model_step (o : op K) (t : table K) : outcome (bool * table K) :=
  match o with
  | Add k => do t <- add hashVal same t k; Ret (true, t)
  | Delete k => match delete hashVal same t k with
                | Ret t => Ret (true, t) | Raise NotFound => Ret (false, t) | Raise x => Raise x | UB => UB | Diverge => Diverge end
  | AddList ks => do t <- addList hashVal same t ks; Ret (true, t)
  | Copy => do t <- copy t; Ret (true, t)
  end.
Fixpoint model_run (os : list (op K)) (t : table K) : outcome (list bool * table K) :=
  match os with
  | [] => Ret ([], t)
  | o :: os => do (a, t) <- model_step o t; do (rest, t) <- model_run os t; Ret (a :: rest, t)
  end.

Definition shows (t : table K) (m : list K) : Prop :=
  (forall k, member same t k = mem same k m) /\
  (forall k, peek hashVal same t k = Ret (List.find (same k) m)) /\
  (forall k, retrieve hashVal same t k = match List.find (same k) m with Some x => Ret x | None => Raise NotFound end) /\
  numItems t = Z.of_nat (length m) /\ isEmpty t = (match m with [] => true | _ => false end) /\
  Permutation (listItems t) m /\
  (forall p, all p t = forallb p m) /\ (forall p, exists_ p t = existsb p m) /\
  (forall p, exists r, find p t = Ret r /\
     match r with Some k => In k m /\ p k = true | None => forall k, In k m -> p k = false end) /\
  (forall B (f : K -> B -> B) e, exists l, Permutation l m /\ fold f e t = fold_left (fun r k => f k r) l e) /\
  (forall S (f : K -> S -> S) s, exists l, Permutation l m /\ app f t s = fold_left (fun r k => f k r) l s) /\
  hash t = fold_right Z.add 0 (List.map hashVal m) mod 2 ^ 63.

Hypothesis same_refl : forall k, same k k = true.
Hypothesis same_sym : forall k k', same k k' = true -> same k' k = true.
Hypothesis same_trans : forall k1 k2 k3, same k1 k2 = true -> same k2 k3 = true -> same k1 k3 = true.
Hypothesis same_hash : forall k k', same k k' = true -> hashVal k = hashVal k'.
Notation inv := (inv (fun x => x) hashVal same).

Lemma others_len k m : (length (others same k m) <= length m)%nat.
Proof. unfold others. induction m as [|x m IH]; cbn; [lia|]. destruct (negb _); cbn; lia. Qed.
Lemma addList_spec ks : forall t m, inv t m -> n_items t + Z.of_nat (length ks) <= bound ->
  exists t', addList hashVal same t ks = Ret t' /\ inv t' (fold_left (spec_add same) ks m) /\
    n_items t' <= n_items t + Z.of_nat (length ks).
Proof.
  induction ks as [|k ks IH]; intros t m I B; cbn [addList fold_left length] in *.
  - exists t. split; [reflexivity|]. split; [assumption|lia].
  - destruct (add_spec hashVal same same_refl same_sym same_trans same_hash t m k I) as (t1 & -> & I1); [lia|].
    assert (n_items t1 <= n_items t + 1).
    { destruct I as (_ & _ & _ & N), I1 as (_ & _ & _ & N1). rewrite N, N1. unfold m_insert. cbn [length].
      pose proof (others_len k m). unfold others in *. unfold m_remove. lia. }
    cbn [bind]. destruct (IH t1 _ I1) as (t2 & E & I2 & B2); [lia|]. exists t2. split; [exact E|].
    split; [exact I2|lia].
Qed.
Lemma mem_find k m : mem same k m = match List.find (same k) m with Some _ => true | None => false end.
Proof. unfold mem. induction m as [|x m IH]; cbn; [reflexivity|]. now destruct (same k x). Qed.
Lemma step_ok o t m : inv t m -> n_items t + op_size o <= bound ->
  match spec_step same o m with
  | Some m' => exists t', model_step o t = Ret (true, t') /\ inv t' m' /\ n_items t' <= n_items t + op_size o
  | None => model_step o t = Ret (false, t)
  end.
Proof.
  intros I B. destruct o as [k|k|ks|]; cbn [model_step spec_step op_size] in *.
  - destruct (add_spec hashVal same same_refl same_sym same_trans same_hash t m k I) as (t1 & -> & I1); [lia|].
    cbn [bind]. exists t1. split; [reflexivity|]. split; [exact I1|].
    destruct I as (_ & _ & _ & N), I1 as (_ & _ & _ & N1). rewrite N, N1. unfold m_insert. cbn [length].
    pose proof (others_len k m). unfold others in *. unfold m_remove. lia.
  - pose proof (remove_spec (fun x => x) hashVal same same_refl same_sym same_trans same_hash NotFound t m k I) as R.
    rewrite mem_find. unfold m_find in R. unfold delete.
    change (List.find (same k) m) with (List.find (fun e => same k e) m).
    destruct (List.find (fun e => same k e) m) as [e|] in R |- *.
    + destruct R as (t' & -> & I'). cbn [bind]. exists t'. split; [reflexivity|]. split; [exact I'|].
      destruct I as (_ & _ & _ & N), I' as (_ & _ & _ & N1). rewrite N, N1.
      pose proof (others_len k m). unfold others in *. unfold m_remove. lia.
    + now rewrite R.
  - destruct (addList_spec ks t m I B) as (t' & -> & I' & N). cbn [bind]. eauto.
  - rewrite (copy_spec hashVal same t m I). cbn [bind]. exists t. split; [reflexivity|]. split; [assumption|lia].
Qed.
Lemma op_size_nonneg (o : op K) : 0 <= op_size o.
Proof. destruct o; cbn; lia. Qed.
Lemma total_nonneg (os : list (op K)) : 0 <= total_size os.
Proof. unfold total_size. induction os as [|o os IH]; cbn [List.map fold_right]; [lia|]. pose proof (op_size_nonneg o). lia. Qed.
Lemma run_ok os : forall t m, inv t m -> n_items t + total_size os <= bound ->
  exists t', model_run os t = Ret (fst (spec_run same os m), t') /\ inv t' (snd (spec_run same os m)).
Proof.
  induction os as [|o os IH]; intros t m I B; cbn [model_run spec_run].
  - exists t. auto.
  - unfold total_size in B. cbn [List.map fold_right] in B. fold (total_size os) in B.
    pose proof (total_nonneg os). pose proof (op_size_nonneg o).
    pose proof (step_ok o t m I) as S. destruct (spec_step same o m) as [m1|].
    + destruct S as (t1 & -> & I1 & N1); [lia|]. cbn [bind].
      destruct (IH t1 m1 I1) as (t2 & -> & I2); [lia|].
      cbn [bind]. destruct (spec_run same os m1) as [rest m2]. cbn [fst snd] in *. eauto.
    + rewrite S by lia. cbn [bind].
      destruct (IH t m I) as (t2 & -> & I2); [lia|].
      cbn [bind]. destruct (spec_run same os m) as [rest m2]. cbn [fst snd] in *. eauto.
Qed.
Lemma inv_shows t m : inv t m -> shows t m.
Proof.
  intros I. pose proof (fun k => lookup_spec (fun x => x) hashVal same same_refl same_sym same_trans same_hash t m k I) as L.
  pose proof I as (G & P & D & N).
  repeat match goal with |- shows _ _ => unfold shows | |- _ /\ _ => split end.
  - intros k. unfold member, mem. rewrite exists_spec. now apply existsb_perm.
  - exact L.
  - intros k. unfold retrieve. rewrite L. reflexivity.
  - exact N.
  - unfold isEmpty. rewrite N. destruct m; reflexivity.
  - etransitivity; [apply listItems_spec|assumption].
  - intros p. rewrite all_spec. now apply forallb_perm.
  - intros p. rewrite exists_spec. now apply existsb_perm.
  - intros p. now apply (find_spec hashVal same p t m).
  - intros B f e. destruct (fold_spec f e t) as (l & Pl & E). exists l. split; [etransitivity; eauto|assumption].
  - intros S f s. exists (entries (arr t)). split; [assumption|apply app_spec].
  - now apply (hash_spec hashVal same same_refl same_sym same_trans same_hash t m).
Qed.

(** After any history the answers and all observers are those of the specification. *)
Theorem C30_hashset fuel os : (57 <= fuel)%nat -> 2 * total_size os <= 2 ^ 54 - 2 ->
  exists t0 t, empty fuel = Ret t0 /\ model_run os t0 = Ret (fst (spec_run same os []), t) /\
    shows t (snd (spec_run same os [])).
Proof.
  intros Hf Hl. destruct (empty_spec hashVal same fuel Hf) as (t0 & E & I).
  destruct (run_ok os t0 [] I) as (t & Er & It).
  { destruct I as (_ & _ & _ & N). rewrite N. unfold bound. change (2 ^ 54 - 2) with 18014398509481982 in Hl. cbn [length]. lia. }
  exists t0, t. split; [assumption|]. split; [assumption|]. now apply inv_shows.
Qed.

(** isSubset and equal on two sets with any histories decide inclusion and equality modulo [same];
    equal sets have the same Hashset.hash, whatever their histories. *)
Theorem C30_hashset_binary fuel os1 os2 : (57 <= fuel)%nat -> 2 * total_size os1 <= 2 ^ 54 - 2 -> 2 * total_size os2 <= 2 ^ 54 - 2 ->
  forall t0 as1 t1 as2 t2, empty fuel = Ret t0 -> model_run os1 t0 = Ret (as1, t1) -> model_run os2 t0 = Ret (as2, t2) ->
  let m1 := snd (spec_run same os1 []) in let m2 := snd (spec_run same os2 []) in
  (isSubset same t1 t2 = true <-> forall k, mem same k m1 = true -> mem same k m2 = true) /\
  (equal same t1 t2 = true <-> forall k, mem same k m1 = mem same k m2) /\
  (equal same t1 t2 = true -> hash t1 = hash t2).
Proof.
  intros Hf H1 H2 t0 as1 t1 as2 t2 E0 E1 E2 m1 m2.
  destruct (empty_spec hashVal same fuel Hf) as (t0' & E & I). rewrite E in E0. injection E0 as <-.
  assert (N0 : n_items t0' = 0) by (destruct I as (_ & _ & _ & N); exact N).
  destruct (run_ok os1 t0' [] I) as (t1' & Er1 & I1). { rewrite N0. unfold bound. change (2 ^ 54 - 2) with 18014398509481982 in *. lia. }
  destruct (run_ok os2 t0' [] I) as (t2' & Er2 & I2). { rewrite N0. unfold bound. change (2 ^ 54 - 2) with 18014398509481982 in *. lia. }
  rewrite Er1 in E1. injection E1 as <- <-. rewrite Er2 in E2. injection E2 as <- <-. fold m1 in I1. fold m2 in I2.
  assert (Sub : forall m m' : list K, (forall x, In x m -> exists y, In y m' /\ same x y = true) <->
                                      (forall k, mem same k m = true -> mem same k m' = true)).
  { intros m m'. unfold mem. split.
    - intros H k Hk. apply existsb_exists in Hk as (x & Hx & S). destruct (H x Hx) as (y & Hy & S').
      apply existsb_exists. exists y. split; [assumption|]. eapply same_trans; eauto.
    - intros H x Hx. apply existsb_exists, H, existsb_exists. eauto. }
  assert (EqI : equal same t1' t2' = true <-> forall k, mem same k m1 = mem same k m2).
  { rewrite (equal_spec hashVal same same_refl same_sym same_trans same_hash _ _ _ _ I1 I2), !Sub. split.
    - intros [A B] k. specialize (A k). specialize (B k). destruct (mem same k m1), (mem same k m2); auto. symmetry. auto.
    - intros H. split; intros k Hk; [rewrite <- H|rewrite H]; assumption. }
  split; [|split; [exact EqI|]].
  - rewrite (isSubset_spec hashVal same same_refl same_sym same_trans same_hash _ _ _ _ I1 I2). apply Sub.
  - intros Heq. rewrite EqI in Heq. rewrite (hash_spec hashVal same same_refl same_sym same_trans same_hash _ _ I1), (hash_spec hashVal same same_refl same_sym same_trans same_hash _ _ I2). f_equal.
    destruct I1 as (_ & _ & D1 & _), I2 as (_ & _ & D2 & _). clearbody m1 m2. clear -Heq D1 D2 same_refl same_sym same_trans same_hash.
    revert m2 D2 Heq. induction m1 as [|x m1 IH]; intros m2 D2 Heq.
    + destruct m2 as [|y m2]; [reflexivity|]. specialize (Heq y). cbn in Heq. now rewrite same_refl in Heq.
    + assert (Hx : mem same x m2 = true) by (rewrite <- Heq; cbn; now rewrite same_refl).
      apply existsb_exists in Hx as (y & Hy & S). apply in_split in Hy as (l1 & l2 & ->).
      assert (PM : Permutation (l1 ++ y :: l2) (y :: l1 ++ l2)) by apply Permutation_sym, Permutation_middle.
      rewrite (sum_hash_perm hashVal same same_refl same_sym same_trans same_hash _ _ PM).
      assert (D2' : distinct (fun x => x) same (y :: l1 ++ l2)) by (eapply (distinct_perm (fun x => x) same same_sym); eauto).
      apply distinct_cons in D1 as [F1 D1]. apply distinct_cons in D2' as [F2 D2'].
      unfold sum_hash. cbn [List.map fold_right]. fold (sum_hash hashVal m1). fold (sum_hash hashVal (l1 ++ l2)).
      rewrite (same_hash _ _ S). f_equal. apply IH; [assumption|assumption|].
      intros k. assert (Hk : mem same k (x :: m1) = mem same k (y :: l1 ++ l2)).
      { rewrite Heq. unfold mem. now apply existsb_perm. }
      unfold mem in Hk |- *. cbn [existsb] in Hk. rewrite Forall_forall in F1, F2.
      destruct (same k x) eqn:Kx.
      * assert (same k y = true) by (eapply same_trans; eauto).
        assert (A : forall m, (forall z, In z m -> same x z = false \/ same y z = false) -> existsb (same k) m = false).
        { intros m Hm. destruct (existsb (same k) m) eqn:Ex; [|reflexivity]. apply existsb_exists in Ex as (z & Hz & Kz).
          destruct (Hm z Hz) as [Q|Q]; rewrite <- Q; symmetry; eapply same_trans; eauto. }
        rewrite !A; [reflexivity| |]; intros z Hz; [right; now apply F2|left; now apply F1].
      * assert (same k y = false).
        { destruct (same k y) eqn:Ky; [|reflexivity]. rewrite <- Kx. symmetry. eapply same_trans; [exact Ky|]. now apply same_sym. }
        rewrite H in Hk. exact Hk.
Qed.
End Run.
Print Assumptions C30_hashset.
Print Assumptions C30_hashset_binary.

Definition ex_hash (k : Z) : Z := k mod 7.
Definition ex_ops1 : list (op Z) := [AddList (List.map Z.of_nat (seq 0 40)); Delete 3; Delete 3; Add 50; Delete 50; Copy].
Definition ex_ops2 : list (op Z) := [AddList (List.map Z.of_nat (rev (seq 4 36))); Add 0; Add 2; Add 1; Add 2].
Example C30_hashset_ex : exists t0 t1 t2, empty 60 = Ret t0 /\
  model_run ex_hash Z.eqb ex_ops1 t0 = Ret ([true; true; false; true; true; true], t1) /\
  model_run ex_hash Z.eqb ex_ops2 t0 = Ret ([true; true; true; true; true], t2) /\
  zlen (arr t1) = 64 /\ numItems t1 = 39 /\ equal Z.eqb t1 t2 = true /\ arr t1 <> arr t2 /\ hash t1 = 112.
Proof.
  do 3 eexists. split; [vm_compute; reflexivity|]. split; [vm_compute; reflexivity|].
  split; [vm_compute; reflexivity|]. repeat (split; [vm_compute; reflexivity|]).
  split; [|vm_compute; reflexivity]. intros H. vm_compute in H. discriminate H.
Qed.
