(** Property C22: Listsort. *)
From Coq Require Import Sorting.Sorted Sorting.Permutation.
From Verif Require Import Base OrderSpec Listsort_Model Listsort_Proofs.

(** sort terminates, raises nothing, and returns a nondecreasing permutation. *)
Theorem C22_sort : forall A (ordr : A -> A -> comparison), total_preorder ordr ->
  forall xs, exists l, sort ordr xs = Ret l /\ Permutation xs l /\ nondecreasing ordr l.
Proof. exact @sort_spec. Qed.

(** sorted decides whether a list is nondecreasing. *)
Theorem C22_sorted : forall A (ordr : A -> A -> comparison), total_preorder ordr ->
  forall xs, sorted ordr xs = true <-> nondecreasing ordr xs.
Proof. exact @sorted_spec. Qed.

(** merging two nondecreasing lists gives a nondecreasing permutation of their elements. *)
Theorem C22_merge : forall A (ordr : A -> A -> comparison), total_preorder ordr ->
  forall xs ys, exists l, merge ordr xs ys = Ret l /\ Permutation (xs ++ ys) l /\
    (nondecreasing ordr xs -> nondecreasing ordr ys -> nondecreasing ordr l).
Proof. exact @merge_spec. Qed.

(** Documented claim for mergeUniq (Listsort.sig): for sorted xs and ys, "no elements in the
    result are EQUAL by ordr".  False: duplicates inside one argument survive. *)
Theorem C22_mergeUniq_refuted : exists xs ys l,
  nondecreasing Z.compare xs /\ nondecreasing Z.compare ys /\
  mergeUniq Z.compare xs ys = Ret l /\ ~ increasing Z.compare l.
Proof.
  exists [1; 1], [2], [1; 1; 2]. split; [|split; [|split]].
  - repeat constructor; discriminate.
  - repeat constructor.
  - reflexivity.
  - intros H. inversion H as [|? ? ? HF]. inversion HF as [|? ? HH]. discriminate HH.
Qed.

(** With duplicate-free (strictly increasing) arguments the claim holds, and the result has
    exactly the elements of both lists up to EQUAL. *)
Theorem C22_mergeUniq_partial : forall A (ordr : A -> A -> comparison), total_preorder ordr ->
  forall xs ys, increasing ordr xs -> increasing ordr ys ->
  exists l, mergeUniq ordr xs ys = Ret l /\ increasing ordr l /\
    (forall z, In z l -> In z xs \/ In z ys) /\
    (forall z, In z xs \/ In z ys -> exists z', In z' l /\ ordr z z' = Eq).
Proof. exact @mergeUniq_spec. Qed.

(** eqclasses partitions the list into non-empty classes of EQUAL elements in increasing order. *)
Theorem C22_eqclasses : forall A (ordr : A -> A -> comparison), total_preorder ordr ->
  forall xs, exists cs, eqclasses ordr xs = Ret cs /\ Permutation xs (concat cs) /\
    Forall (fun c => c <> [] /\ forall x y, In x c -> In y c -> ordr x y = Eq) cs /\
    StronglySorted (fun c1 c2 => forall x y, In x c1 -> In y c2 -> ordr x y = Lt) cs.
Proof. exact @eqclasses_spec. Qed.

Example C22_example : total_preorder (fun x y : Z * Z => Z.compare (fst x) (fst y)) /\
  sort Z.compare [5; 1; 4; 1; 3; 9; 2] = Ret [1; 1; 2; 3; 4; 5; 9] /\
  eqclasses Z.compare [3; 1; 3; 2; 1] = Ret [[1; 1]; [2]; [3; 3]].
Proof.
  split; [|split; reflexivity]. pose proof (to_tp _ Z_compare_total_order) as [H1 H2].
  split; intros; [apply H1|eapply H2; eassumption].
Qed.

Print Assumptions C22_sort.
Print Assumptions C22_sorted.
Print Assumptions C22_merge.
Print Assumptions C22_mergeUniq_partial.
Print Assumptions C22_mergeUniq_refuted.
Print Assumptions C22_eqclasses.
