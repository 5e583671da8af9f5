(** Common definitions: outcomes of SML operations, machine words, tactics. *)
From Coq Require Export ZArith List Bool Lia.
From Coq Require Export ZifyBool ZifyNat ZifyN.
Export ListNotations.
Open Scope Z_scope.

(** SML exceptions that the modelled code can raise. *)
Inductive exn :=
| Overflow | Div | Subscript | Size | Domain | MatchExn | NotFound
| FailExn | EmptyExn | Chr | OptionExn | InvalidArc | PathExn | NonMonotonic
| ImpossibleExn | UnequalLengths | SpanExn | BadEscape | DateExn | IoExn | TimeExn
| OutOfMemory.

(** Outcome of evaluating an SML expression or executing a C fragment.
    [UB] stands for C undefined behaviour reached by the code; [Diverge] for a
    model that ran out of fuel. *)
Inductive outcome (A : Type) :=
| Ret (a : A)
| Raise (e : exn)
| UB
| Diverge.
Arguments Ret {A} a.
Arguments Raise {A} e.
Arguments UB {A}.
Arguments Diverge {A}.

Definition bind {A B} (m : outcome A) (f : A -> outcome B) : outcome B :=
  match m with
  | Ret a => f a
  | Raise e => Raise e
  | UB => UB
  | Diverge => Diverge
  end.

Notation "'do' x <- m ; k" := (bind m (fun x => k))
  (at level 200, x pattern, m at level 100, k at level 200).

(** 64-bit machine words. *)
Definition two63 : Z := 9223372036854775808.
Definition two64 : Z := 18446744073709551616.
Definition two62 : Z := 4611686018427387904.

(** value of a 64-bit pattern read as unsigned / signed (two's complement) *)
Definition u64 (z : Z) : Z := z mod two64.
Definition s64 (z : Z) : Z := (z + two63) mod two64 - two63.

(** Range of a C [long] and of an ML [int] on a 64-bit platform. *)
Definition in_long (z : Z) : Prop := - two63 <= z < two63.
Definition in_int (z : Z) : Prop := - two62 <= z < two62.
Definition in_longb (z : Z) : bool := (- two63 <=? z) && (z <? two63).
Definition in_intb (z : Z) : bool := (- two62 <=? z) && (z <? two62).

Lemma in_intb_spec z : in_intb z = true <-> in_int z.
Proof. unfold in_intb, in_int. lia. Qed.
Lemma in_longb_spec z : in_longb z = true <-> in_long z.
Proof. unfold in_longb, in_long. lia. Qed.

Ltac Zify.zify_post_hook ::= Z.div_mod_to_equations.

Lemma s64_id z : in_long z -> s64 z = z.
Proof. unfold s64, in_long. intros H. rewrite Z.mod_small; unfold two63, two64 in *; lia. Qed.

Lemma s64_range z : in_long (s64 z).
Proof. unfold s64, in_long, two63, two64. lia. Qed.

Lemma u64_id z : 0 <= z < two64 -> u64 z = z.
Proof. intros; unfold u64; apply Z.mod_small; lia. Qed.

Lemma u64_range z : 0 <= u64 z < two64.
Proof. unfold u64, two64. lia. Qed.

Lemma s64_u64 z : s64 (u64 z) = s64 z.
Proof.
  unfold s64, u64. rewrite Zplus_mod_idemp_l. reflexivity.
Qed.

Lemma u64_s64 z : u64 (s64 z) = u64 z.
Proof.
  unfold s64, u64. rewrite Zminus_mod_idemp_l. f_equal. lia.
Qed.

Lemma s64_congr a b : u64 a = u64 b -> s64 a = s64 b.
Proof.
  intros H. rewrite <- (s64_u64 a), <- (s64_u64 b). now rewrite H.
Qed.
