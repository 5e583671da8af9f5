(** Property C25, first half: Intmap implements finite maps on integers. *)
From Coq Require Import Sorting.Sorted Sorting.Permutation.
From Verif Require Import Base OrderSpec FinMap MapSpec Wbtree_Model.
From Verif Require Binarymap_Proofs Binarymap_Props.
From Verif Require Import Intmap_Model Intmap_Proofs.

(** One operation of a client on an intmap. *)
Definition im_step {V} (d : intmap V) (o : map_op Z V) : outcome (intmap V * option V) :=
  match o with
  | Insert k v => do d' <- insert d k v; Ret (d', None)
  | Remove k => or_notfound d (remove d k)
  | MapKV f => Ret (map f d, None)
  | MapV f => Ret (transform f d, None)
  end.

(** The observable behaviour of [d] is that of the abstract map [m]. *)
Definition im_agrees {V} (d : intmap V) (m : list (Z * V)) : Prop :=
  numItems d = Z.of_nat (length m) /\
  (forall k, retrieve d k = found (am_find fst Z.compare k m)) /\
  (forall k, peek d k = Ret (option_map snd (am_find fst Z.compare k m))) /\
  exists l, lists fst Z.compare l m /\ listItems d = l /\
    (forall B (f : Z -> V -> B -> B) e, foldl f e d = fold_left (fun acc p => f (fst p) (snd p) acc) l e) /\
    (forall B (f : Z -> V -> B -> B) e, foldr f e d = fold_right (fun p acc => f (fst p) (snd p) acc) e l) /\
    (forall S (f : Z -> V -> S -> S) s, app f d s = fold_left (fun s p => f (fst p) (snd p) s) l s) /\
    (forall S (f : Z -> V -> S -> S) s, revapp f d s = fold_left (fun s p => f (fst p) (snd p) s) (rev l) s).

Lemma im_step_bm {V} (d : intmap V) o : im_step d o = Binarymap_Props.bm_step Z.compare d o.
Proof.
  destruct o; cbn [im_step Binarymap_Props.bm_step];
    rewrite ?insert_bm, ?remove_bm, ?map_bm, ?transform_bm; reflexivity.
Qed.
Lemma im_agrees_bm {V} (d : intmap V) m : Binarymap_Props.bm_agrees Z.compare d m -> im_agrees d m.
Proof.
  intros (N & F & P & l & L & I & Fl & Fr & Ap & Rv).
  split; [exact N|]. split; [intros; rewrite retrieve_bm; apply F|].
  split; [intros; rewrite peek_bm; apply P|].
  exists l. split; [exact L|]. split; [rewrite listItems_bm; exact I|].
  split; [intros; rewrite foldl_bm; apply Fl|]. split; [intros; rewrite foldr_bm; apply Fr|].
  split; [intros; rewrite app_bm; apply Ap|]. intros; rewrite revapp_bm; apply Rv.
Qed.
Lemma im_run_bm {V} (os : list (map_op Z V)) : forall d,
  conc_run im_step d os = conc_run (Binarymap_Props.bm_step Z.compare) d os.
Proof.
  induction os as [|o os IH]; intros d; cbn [conc_run]; [reflexivity|].
  rewrite im_step_bm. destruct (Binarymap_Props.bm_step Z.compare d o) as [[d' x]| | |]; cbn; try reflexivity.
  now rewrite IH.
Qed.

(** Every history of operations runs without internal failure, returns what the abstract map
    returns, and ends in an intmap observably equal to the abstract map. *)
Theorem C25_intmap : forall V (os : list (map_op Z V)), exists d,
    conc_run im_step empty os = Ret (d, snd (abs_run Z.compare [] os)) /\
    im_agrees d (fst (abs_run Z.compare [] os)).
Proof.
  intros V os.
  destruct (Binarymap_Props.C24_history Z V Z.compare (to_tp _ Z_compare_total_order) os) as (d & E & H).
  exists d. rewrite im_run_bm. split; [exact E|]. now apply im_agrees_bm.
Qed.

(** map and transform may also change the type of the values. *)
Theorem C25_intmap_map : forall V W (os : list (map_op Z V)) d out (f : Z -> V -> W) (g : V -> W),
    conc_run im_step empty os = Ret (d, out) ->
    im_agrees (map f d) (List.map (fun p => (fst p, f (fst p) (snd p))) (fst (abs_run Z.compare [] os))) /\
    im_agrees (transform g d) (List.map (fun p => (fst p, g (snd p))) (fst (abs_run Z.compare [] os))).
Proof.
  intros V W os d out f g E. rewrite im_run_bm in E.
  destruct (Binarymap_Props.C24_map Z V W Z.compare (to_tp _ Z_compare_total_order) os d out f g E) as [A B].
  rewrite map_bm, transform_bm. split; now apply im_agrees_bm.
Qed.

(** Finding.  The bounded balance criterion claimed in Intmap.sml (36-40) is not maintained. *)
Theorem C25_intmap_balanced_refuted : exists (os : list (map_op Z unit)) d out,
  conc_run im_step empty os = Ret (d, out) /\ ~ Binarymap_Props.weight_balanced d.
Proof.
  exists (List.map (fun k => Insert k tt) [6; 7; 2; 4; 8; 1; 3; 5] ++ [Remove 6]).
  eexists. eexists. split; [vm_compute; reflexivity|]. cbn. lia.
Qed.

Example C25_intmap_example :
  conc_run im_step empty
    [Insert 5 50; Insert (-3) 30; Insert 8 80; Insert 1 10; Insert (-3) 33; Remove 5; Remove 7; MapV Z.opp]
  = Ret (T (1, -10) 3 (T (-3, -33) 1 E E) (T (8, -80) 1 E E),
         [None; None; None; None; None; Some 50; None; None]).
Proof. reflexivity. Qed.

Print Assumptions C25_intmap.
Print Assumptions C25_intmap_map.
Print Assumptions C25_intmap_balanced_refuted.
