(** Property C23: Arraysort. *)
From Coq Require Import Sorting.Sorted Sorting.Permutation.
From Verif Require Import Base OrderSpec ArrayLib Arraysort_Model Arraysort_Proofs.

(** With any (pure) comparison function, even one that is not an ordering, sort stays inside the
    array, terminates (nesting depth of its loops and calls at most the length plus one), raises
    nothing, and leaves a permutation of the elements.  With a total preorder the result is sorted. *)
Theorem C23_sort : forall A (cmp : A -> A -> comparison) (arr : list A) (fuel : nat),
  (length arr < fuel)%nat ->
  exists arr', sort cmp fuel arr = Ret arr' /\ Permutation arr arr' /\
    (total_preorder cmp -> nondecreasing cmp arr').
Proof.
  intros A cmp arr fuel Hf. destruct arr as [|d arr].
  - exists []. destruct fuel as [|fuel]; [cbn in Hf; lia|]. split; [reflexivity|]. split; [constructor|].
    intros _. constructor.
  - destruct (sort_spec cmp d fuel (d :: arr) 0 (zlen (d :: arr))) as (a & E & R & S);
      [lia|apply zlen_nonneg|lia|unfold zlen; lia|].
    exists a. split; [exact E|]. split; [apply R|]. intros TP. apply (rsorted_all cmp d).
    rewrite (rperm_len d _ _ _ _ R). apply S. assumption.
Qed.

(** sorted decides whether the array is nondecreasing. *)
Theorem C23_sorted : forall A (cmp : A -> A -> comparison), total_preorder cmp ->
  forall (arr : list A) (fuel : nat), (length arr < fuel)%nat ->
  exists b, sorted cmp fuel arr = Ret b /\ (b = true <-> nondecreasing cmp arr).
Proof.
  intros A cmp TP arr fuel Hf. unfold sorted.
  destruct arr as [|x [|y arr]].
  - exists true. split; [reflexivity|]. split; constructor.
  - exists true. split; [reflexivity|]. split; repeat constructor.
  - destruct (Z.eqb_spec (zlen (x :: y :: arr)) 0) as [H|_]; [unfold zlen in H; cbn [length] in H; lia|].
    destruct (Z.eqb_spec (zlen (x :: y :: arr)) 1) as [H|_]; [unfold zlen in H; cbn [length] in H; lia|].
    cbn [orb]. change (sub_raw (x :: y :: arr) 0) with (Ret x). change (sub_raw (x :: y :: arr) 1) with (Ret y). cbn [bind].
    destruct (s_spec cmp x TP (x :: y :: arr) fuel 2) as (b & E & H).
    + unfold zlen. cbn [length]. lia.
    + unfold zlen. cbn [length] in *. lia.
    + intros p q H1 H2 H3. lia.
    + exists b. split; [exact E|]. rewrite H. split; [apply rsorted_all|].
      intros S p q H1 H2 H3.
      assert (G : forall l : list A, nondecreasing cmp l -> forall p q x y, p < q -> zget l p = Some x -> zget l q = Some y -> ord_le cmp x y).
      { clear. induction 1 as [|z l Hl IH F]; intros p q x y Hpq Hx Hy.
        - apply zget_range in Hx. unfold zlen in Hx. cbn in Hx. lia.
        - pose proof (zget_range _ _ _ Hx) as Rx. rewrite zget_cons in Hx, Hy. destruct (Z.eqb_spec q 0); [lia|].
          destruct (Z.eqb_spec p 0).
          + injection Hx as <-. rewrite Forall_forall in F. apply F. eapply zget_In; eauto.
          + apply (IH (p - 1) (q - 1)); auto. lia. }
      apply (G _ S p q); [lia|apply znth_get; lia|apply znth_get; lia].
Qed.

Example C23_example : total_preorder (fun x y : Z => Z.compare (x mod 10) (y mod 10)) /\
  sort Z.compare 20%nat [5; 1; 4; 1; 3; 9; 2; 5; 5; 8; 0; 7] = Ret [0; 1; 1; 2; 3; 4; 5; 5; 5; 7; 8; 9] /\
  sorted Z.compare 20%nat [0; 1; 1; 2; 3; 4; 5; 5; 5; 7; 8; 9] = Ret true /\
  sorted Z.compare 20%nat [0; 1; 1; 2; 3; 4; 5; 6; 5; 7; 8; 9] = Ret false.
Proof.
  split; [|split; [|split]; vm_compute; reflexivity]. pose proof (to_tp _ Z_compare_total_order) as [H1 H2].
  split; intros; [apply H1|eapply H2; eassumption].
Qed.

Print Assumptions C23_sort.
Print Assumptions C23_sorted.
