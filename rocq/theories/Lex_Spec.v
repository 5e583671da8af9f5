(** What a lexer definition means: which words a regular expression matches,
    and which rule the longest-match discipline selects. *)
From Verif Require Import Base Lex_Model.

(** [matches ds r w]: under the let-definitions [ds], the most recent one first,
    the regular expression [r] matches the word [w].  A name stands for the
    regular expression of its most recent definition, in which only the
    definitions before that one are visible. *)
Inductive matches : list (name * re) -> re -> list Z -> Prop :=
| m_epsilon ds : matches ds Epsilon []
| m_chars ds cl c : In c cl -> matches ds (Characters cl) [c]
| m_seq ds r1 r2 w1 w2 :
    matches ds r1 w1 -> matches ds r2 w2 -> matches ds (Sequence r1 r2) (w1 ++ w2)
| m_alt1 ds r1 r2 w : matches ds r1 w -> matches ds (Alternative r1 r2) w
| m_alt2 ds r1 r2 w : matches ds r2 w -> matches ds (Alternative r1 r2) w
| m_rep0 ds r : matches ds (Repetition r) []
| m_rep1 ds r w1 w2 :
    matches ds r w1 -> matches ds (Repetition r) w2 -> matches ds (Repetition r) (w1 ++ w2)
| m_name ds1 ds2 s r w :
    (forall r', ~ In (s, r') ds1) -> matches ds2 r w -> matches (ds1 ++ (s, r) :: ds2) (Name s) w.

(** the [n] characters of the stream [s] from position [p] on *)
Fixpoint prefix (s : Z -> Z) (p : Z) (n : nat) : list Z :=
  match n with O => [] | S n' => s p :: prefix s (p + 1) n' end.

(** rule number [i] of the rules matches the word *)
Definition rule_matches (ds : list (name * re)) (rules : casedef) (i : nat) (w : list Z) : Prop :=
  exists r l, nth_error rules i = Some (r, l) /\ matches ds r w.

(** [selects ds rules s p i n]: of the rules, number [i] is the first that
    matches the [n] characters from [p] on, and no rule matches a longer prefix *)
Definition selects (ds : list (name * re)) (rules : casedef) (s : Z -> Z) (p : Z) (i n : nat) : Prop :=
  rule_matches ds rules i (prefix s p n) /\
  (forall j, (j < i)%nat -> ~ rule_matches ds rules j (prefix s p n)) /\
  (forall j n', (n < n')%nat -> ~ rule_matches ds rules j (prefix s p n')).

(** no rule matches any prefix *)
Definition no_rule (ds : list (name * re)) (rules : casedef) (s : Z -> Z) (p : Z) : Prop :=
  forall j n, ~ rule_matches ds rules j (prefix s p n).

(** the character classes of an expression, from left to right *)
Fixpoint classes (r : re) : list (list Z) :=
  match r with
  | Characters cl => [cl]
  | Sequence r1 r2 | Alternative r1 r2 => classes r1 ++ classes r2
  | Repetition r1 => classes r1
  | _ => []
  end.

(** the names used in an expression *)
Fixpoint names (r : re) : list name :=
  match r with
  | Name s => [s]
  | Sequence r1 r2 | Alternative r1 r2 => names r1 ++ names r2
  | Repetition r1 => names r1
  | _ => []
  end.

(** every name is defined before it is used *)
Fixpoint scoped_lets (visible : list name) (ls : lets) : Prop :=
  match ls with
  | [] => True
  | (s, r) :: rest => (forall n, In n (names r) -> In n visible) /\ scoped_lets (s :: visible) rest
  end.
Definition scoped (ls : lets) (ld : lexdef) : Prop :=
  scoped_lets [] ls /\
  forall d c n, In d ld -> In c (snd d) -> In n (names (fst c)) -> In n (map fst ls).

(** every character class of the definition satisfies P *)
Definition all_class (P : list Z -> Prop) (ls : lets) (ld : lexdef) : Prop :=
  (forall s r, In (s, r) ls -> Forall P (classes r)) /\
  (forall d c, In d ld -> In c (snd d) -> Forall P (classes (fst c))).

Definition valid_class (cl : list Z) : Prop := Forall (fun c => 0 <= c < 256) cl.

(** the number of rules of all entry points together *)
Fixpoint rule_count (ld : lexdef) : Z :=
  match ld with [] => 0 | d :: r => Z.of_nat (length (snd d)) + rule_count r end.

