(** * C47: unification finds the most general types, or there are none *)

From Coq Require Import ZArith List Bool Permutation Sorted Lia Arith.
From Verif Require Import Unify_Model Unify_Spec Unify_Base Unify_Sol Unify_Norm Unify_Meas Unify_Free Unify_Attr
  Unify_Link Unify_Rows Unify_Proof Unify_Term.
Import ListNotations.
Open Scope Z_scope.

Lemma consistent_inv G vp L h : consistent G vp L h <-> inv G L h.
Proof.
  split.
  - intros [W [p S]]. split; [exact W|]. exists p. exact (sat_eqs _ _ _ _ _ S).
  - intros I. split; [exact (proj1 I)|].
    destruct (inv_solve G L h (fun _ => unit_tree) (fun _ => []) I) as (p & P1 & P2 & P3).
    + intros. split; [apply sorted_nil|intros l []].
    + exists p. apply sat_split. split; [exact P1|]. split.
      * intros v c E K. rewrite (P2 _ _ E K). apply unit_ok.
      * intros w e i lv E l t J. rewrite (P3 _ _ _ _ E) in J. destruct J.
Qed.

(** When unify returns, the new heap is consistent (no circular type has
    arisen); whatever meets its constraints met the old ones and makes the two
    types equal; and any way to make them equal that met the old constraints,
    attributes included, still meets the new ones: nothing is lost. *)
Theorem C47_unifies G vp n L h t1 t2 u h' :
  consistent G vp L h -> wf_ty G h t1 -> wf_ty G h t2 ->
  unify n G vp t1 t2 h = Ok (u, h') ->
  exists L', consistent G vp L' h' /\
    (forall p, sat G vp L' h' p -> sat G vp L h p /\ den p t1 = den p t2) /\
    (forall p, sat G vp L h p -> den p t1 = den p t2 -> exists p', agree h p p' /\ sat G vp L' h' p').
Proof.
  intros C T1 T2 E. apply consistent_inv in C.
  destruct (unify_sp G vp n L h t1 t2 C T1 T2) as [O _]. destruct (O _ _ E) as (L' & P & _).
  exists L'. split; [apply consistent_inv, P|]. split; [|apply P].
  intros p S. split; [apply P, S|]. exact (proj2 (po_eqs _ _ _ _ _ _ _ P p (sat_eqs _ _ _ _ _ S))).
Qed.
Print Assumptions C47_unifies.

(** When unify raises exception Unify, the types cannot be made equal. *)
Theorem C47_fails_only_without_unifier G vp n L h t1 t2 r p :
  consistent G vp L h -> wf_ty G h t1 -> wf_ty G h t2 ->
  unify n G vp t1 t2 h = Fail r -> sat G vp L h p -> den p t1 <> den p t2.
Proof.
  intros C T1 T2 E S. apply consistent_inv in C.
  destruct (unify_sp G vp n L h t1 t2 C T1 T2) as [_ F]. exact (F _ E p S).
Qed.
Print Assumptions C47_fails_only_without_unifier.

(** unify always stops: there is an amount of fuel from which on its result is
    always the same and is not [Loop]. *)
Theorem C47_stops G vp L h t1 t2 :
  consistent G vp L h -> wf_ty G h t1 -> wf_ty G h t2 ->
  exists n0 o, o <> Loop /\ forall n, (n0 <= n)%nat -> unify n G vp t1 t2 h = o.
Proof.
  intros C T1 T2. apply consistent_inv in C. destruct (unify_ter G vp L h t1 t2 C T1 T2) as [n0 N].
  exists n0, (unify n0 G vp t1 t2 h). split; [exact N|]. intros n B. exact (unify_le G vp n0 n t1 t2 B h N).
Qed.
Print Assumptions C47_stops.

(** ** Examples *)

Definition G0 (tn : nat) : tninfo :=
  match tn with
  | 0%nat => mkTn 0 TRUEequ 0       (* int *)
  | 1%nat => mkTn 0 TRUEequ 0       (* bool *)
  | _ => mkTn 1 TRUEequ 0           (* list *)
  end.
Definition tint := CONt [] 0.
Definition tbool := CONt [] 1.
Definition tlist t := CONt [t] 2.
Definition la := STRINGlab [97].
Definition lb := STRINGlab [98].
Definition tvar e l := mkTv NoLink e false false l.

(* {a : ''a, ...} and {a : int, b : 'b list} *)
Definition h0 : heap := mkHeap
  [tvar true 1; tvar false 2]
  [mkRec [(la, VARt 0)] 0; mkRec [(la, tint); (lb, tlist (VARt 1))] 1]
  [VARrow false false 1; NILrow].
Definition L0 (w : nat) : list lab := match w with 0%nat => [la] | _ => [la; lb] end.
Definition p0 : val := mkVal
  (fun _ => TCon [] 0)
  (fun r => match r with 0%nat => [(la, TCon [] 0)] | _ => [(la, TCon [] 0); (lb, TCon [TCon [] 0] 2)] end)
  (fun _ => []).

Lemma ok0 : consistent G0 true L0 h0 /\ sat G0 true L0 h0 p0.
Proof.
  cut (wf G0 L0 h0 /\ sat G0 true L0 h0 p0). { intros [A B]. split; [split; [exact A|eauto]|exact B]. }
  split.
  - constructor; cbn.
    + intros [|[|[|v]]] c t E K; cbn in E; try discriminate; injection E as <-; discriminate.
    + intros [|[|[|r]]] c l t E J; cbn in E; try discriminate; injection E as <-; cbn in J;
        repeat (destruct J as [J|J]; [injection J as <- <-; cbn; repeat split; lia|]); destruct J.
    + intros [|[|[|r]]] c E; cbn in E; try discriminate; injection E as <-; cbn.
      * apply sorted_one.
      * apply sorted_cons; [apply sorted_one|]. intros y [<-|[]]. reflexivity.
    + intros [|[|[|r]]] c E; cbn in E; try discriminate; injection E as <-; cbn; lia.
    + intros [|[|[|r]]] c E; cbn in E; try discriminate; injection E as <-; intros x; reflexivity.
    + intros [|[|[|w]]] w' E; cbn in E; discriminate.
    + intros [|[|[|w]]] l t w' E; cbn in E; discriminate.
    + intros v. constructor. intros y [c [E K]]. destruct v as [|[|[|v]]]; cbn in E; try discriminate; injection E as <-; discriminate.
    + intros w. constructor. intros y E. destruct w as [|[|[|w]]]; cbn in E; discriminate.
  - split; [|split]; cbn.
    + intros [|[|[|v]]] c E; cbn in E; try discriminate; injection E as <-; repeat split; cbn; auto; try lia; try discriminate.
    + intros [|[|[|r]]] c E; cbn in E; try discriminate; injection E as <-; split; cbn; try reflexivity.
      * apply sorted_one.
      * apply sorted_cons; [apply sorted_one|]. intros y [<-|[]]. reflexivity.
    + intros [|[|[|w]]] k E; cbn in E; try discriminate; injection E as <-; cbn; [|reflexivity].
      split; [apply sorted_nil|split; [intros l []|intros l t []]].
Qed.

Example C47_unifies_example : consistent G0 true L0 h0 /\ wf_ty G0 h0 (RECt 0) /\ wf_ty G0 h0 (RECt 1) /\
  exists h', unify 20 G0 true (RECt 0) (RECt 1) h0 = Ok (tt, h') /\
    nth_error (vs h') 0 = Some (mkTv (LinkTo tint) true false false 1) /\
    nth_error (vs h') 1 = Some (tvar false 1) /\
    nth_error (ws h') 0 = Some (FIELDrow lb (VARt 2) 2) /\
    nth_error (vs h') 2 = Some (mkTv (LinkTo (tlist (VARt 1))) false true false 1) /\
    nth_error (ws h') 2 = Some (LINKrow 1).
Proof.
  split; [exact (proj1 ok0)|]. split; [cbn; lia|]. split; [cbn; lia|].
  eexists. split; [vm_compute; reflexivity|]. repeat split.
Qed.

Example C47_stops_example : consistent G0 true L0 h0 /\ wf_ty G0 h0 (RECt 0) /\ wf_ty G0 h0 (RECt 1) /\
  unify 2 G0 true (RECt 0) (RECt 1) h0 = Loop.
Proof. split; [exact (proj1 ok0)|]. split; [cbn; lia|]. split; [cbn; lia|]. vm_compute. reflexivity. Qed.

(* ''a and ''a list: circular; ''a and int -> int: no equality *)
Example C47_fails_example : consistent G0 true L0 h0 /\ sat G0 true L0 h0 p0 /\
  wf_ty G0 h0 (VARt 0) /\ wf_ty G0 h0 (tlist (VARt 0)) /\
  unify 20 G0 true (VARt 0) (tlist (VARt 0)) h0 = Fail UnifyCircular /\
  wf_ty G0 h0 (ARROWt tint tint) /\
  unify 20 G0 true (VARt 0) (ARROWt tint tint) h0 = Fail UnifyEquality.
Proof.
  split; [exact (proj1 ok0)|]. split; [exact (proj2 ok0)|]. repeat split; try (cbn; lia); vm_compute; reflexivity.
Qed.

(** ** Internal errors

    [unifyRecAcc] keeps the rows of both records while it unifies their fields.
    If a field's type has the same row in it, that row may be bound meanwhile,
    and the next label is sought in a row that no longer is a variable: the
    compiler stops with an internal error, although the types have a unifier. *)

(* {a : {a : 'c, ...r} list, ...r} and {a : {a : int, b : bool} list, b : bool} *)
Definition h1 : heap := mkHeap
  [tvar false 1]
  [mkRec [(la, tlist (RECt 1))] 0; mkRec [(la, VARt 0)] 0;
   mkRec [(la, tlist (RECt 3)); (lb, tbool)] 1; mkRec [(la, tint); (lb, tbool)] 1]
  [VARrow false false 1; NILrow].
Definition r1 : row := [(la, TCon [] 0); (lb, TCon [] 1)].
Definition r2 : row := [(la, TCon [TRec r1] 2); (lb, TCon [] 1)].
Definition p1 : val := mkVal
  (fun _ => TCon [] 0)
  (fun r => match r with 0%nat | 2%nat => r2 | _ => r1 end)
  (fun w => match w with 0%nat => [(lb, TCon [] 1)] | _ => [] end).

Lemma two_sorted (x y : tree) : sorted [(la, x); (lb, y)].
Proof. apply sorted_cons; [apply sorted_one|]. intros z [<-|[]]. reflexivity. Qed.
Lemma two_sorted' (x y : ty) : sorted [(la, x); (lb, y)].
Proof. apply sorted_cons; [apply sorted_one|]. intros z [<-|[]]. reflexivity. Qed.

Lemma wf1 : wf G0 L0 h1.
Proof.
  constructor; cbn.
  - intros [|[|v]] c t E K; cbn in E; try discriminate; injection E as <-; discriminate.
  - intros [|[|[|[|[|r]]]]] c l t E J; cbn in E; try discriminate; injection E as <-; cbn in J;
      repeat (destruct J as [J|J]; [injection J as <- <-; cbn; repeat split; lia|]); destruct J.
  - intros [|[|[|[|[|r]]]]] c E; cbn in E; try discriminate; injection E as <-; cbn;
      (apply sorted_one || apply two_sorted').
  - intros [|[|[|[|[|r]]]]] c E; cbn in E; try discriminate; injection E as <-; cbn; lia.
  - intros [|[|[|[|[|r]]]]] c E; cbn in E; try discriminate; injection E as <-; intros x; reflexivity.
  - intros [|[|[|w]]] w' E; cbn in E; discriminate.
  - intros [|[|[|w]]] l t w' E; cbn in E; discriminate.
  - intros v. constructor. intros y [c [E K]]. destruct v as [|[|[|v]]]; cbn in E; try discriminate; injection E as <-; discriminate.
  - intros w. constructor. intros y E. destruct w as [|[|[|w]]]; cbn in E; discriminate.
Qed.

Lemma sat1 : sat G0 true L0 h1 p1.
Proof.
  split; [|split]; cbn.
  - intros [|[|v]] c E; cbn in E; try discriminate; injection E as <-; repeat split; cbn; auto; try lia; try discriminate.
  - intros [|[|[|[|[|r]]]]] c E; cbn in E; try discriminate; injection E as <-; (split; [apply two_sorted|reflexivity]).
  - intros [|[|[|w]]] k E; cbn in E; try discriminate; injection E as <-; cbn; [|reflexivity].
    split; [apply sorted_one|split].
    + intros l [<-|[]] [X|[]]. discriminate.
    + intros l t [X|[]]. injection X as <- <-. repeat split; cbn; auto; try lia; discriminate.
Qed.

Theorem C47_fatal_refuted : exists G vp L h t1 t2 p,
  consistent G vp L h /\ wf_ty G h t1 /\ wf_ty G h t2 /\
  sat G vp L h p /\ den p t1 = den p t2 /\
  forall n, unify n G vp t1 t2 h = Fatal \/ unify n G vp t1 t2 h = Loop.
Proof.
  exists G0, true, L0, h1, (RECt 0), (RECt 2), p1.
  split; [split; [exact wf1|exists p1; exact sat1]|]. split; [cbn; lia|]. split; [cbn; lia|].
  split; [exact sat1|]. split; [reflexivity|].
  intros n. do 12 (destruct n as [|n]; [(left; vm_compute; reflexivity) || (right; vm_compute; reflexivity)|]).
  left. vm_compute. reflexivity.
Qed.
Print Assumptions C47_fatal_refuted.
