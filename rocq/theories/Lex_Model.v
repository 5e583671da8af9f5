(** Model of the lexer generator mosmllex: src/lex/Mainlex.sml (expansion of
    let-names), src/lex/Lexgen.sml (construction of the automaton) and
    src/lex/Output.sml (the code that is generated for an automaton), plus the
    execution of the generated code on a stream of characters.

    Characters are their codes 0..255; [int]s are [Z] (the counters never come
    near the bounds of [int]); SML arrays are lists accessed by [asub]/[aupd],
    which raise [Subscript] as Array.sub and Array.update do; the references
    chars, chars_count, actions_count, memory, todo and next are threaded
    through as explicit state.  The hash table [memory] is an association list
    (Hasht is not modelled here): [Hasht.find] finds the value inserted for a
    key, [Hasht.insert] is only called for a key that is not in the table. *)
From Verif Require Import Base.

(** Array.sub *)
Definition asub {A} (a : list A) (i : Z) : outcome A :=
  if 0 <=? i then
    match nth_error a (Z.to_nat i) with Some x => Ret x | None => Raise Subscript end
  else Raise Subscript.

(** Array.update *)
Definition aupd {A} (a : list A) (i : Z) (x : A) : outcome (list A) :=
  if (0 <=? i) && (i <? Z.of_nat (length a)) then
    Ret (firstn (Z.to_nat i) a ++ x :: skipn (S (Z.to_nat i)) a)
  else Raise Subscript.

(** List.app of a function with a threaded state *)
Fixpoint appM {A S} (f : A -> S -> outcome S) (l : list A) (s : S) : outcome S :=
  match l with
  | [] => Ret s
  | x :: r => do s1 <- f x s; appM f r s1
  end.

(** src/compiler/Fnlib.sml 39-41 and 52-54 *)
Fixpoint foldL {A B} (f : A -> B -> B) (a : B) (l : list A) : B :=
  match l with [] => a | x :: r => foldL f (f x a) r end.
Fixpoint foldR {A B} (f : A -> B -> B) (a : B) (l : list A) : B :=
  match l with [] => a | x :: r => f x (foldR f a r) end.

(** ** Syntax (src/lex/Syntax.sml) *)

Definition name := list Z.
Definition name_eqb (a b : name) : bool := if list_eq_dec Z.eq_dec a b then true else false.

(** Syntax.sml 3-5 *)
Inductive location := Location (start stop : Z).

(** Syntax.sml 7-14, regular_expression *)
Inductive re :=
| Epsilon
| Characters (cl : list Z)
| Sequence (r1 r2 : re)
| Alternative (r1 r2 : re)
| Repetition (r : re)
| Name (s : name).

(** Syntax.sml 16-20 without the header: the let-definitions and the rules *)
Definition lets := list (name * re).
Definition casedef := list (re * location).
Definition lexdef := list (name * casedef).

(** Syntax.sml 24-33 *)
Inductive automata_move := Backtrack | Goto (n : Z).
Inductive automata_trans := No_remember | Remember (n : Z).
Inductive automata := Perform (n : Z) | Shift (t : automata_trans) (m : list automata_move).

(** ** Mainlex.sml *)

(** Fnlib.sml 102-105 *)
Fixpoint lookupN (k : name) (l : list (name * re)) : outcome re :=
  match l with
  | [] => Raise Subscript
  | (a, v) :: xs => if name_eqb k a then Ret v else lookupN k xs
  end.

(** Mainlex.sml 15-30, expandRe.  The message and BasicIO.exit 2 for an
    undefined name are modelled as the exception FailExn. *)
Fixpoint expandRe (ls : list (name * re)) (r : re) : outcome re :=
  match r with
  | Name s => match lookupN s ls with Raise Subscript => Raise FailExn | o => o end
  | Sequence r1 r2 => do a <- expandRe ls r1; do b <- expandRe ls r2; Ret (Sequence a b)
  | Alternative r1 r2 => do a <- expandRe ls r1; do b <- expandRe ls r2; Ret (Alternative a b)
  | Repetition r1 => do a <- expandRe ls r1; Ret (Repetition a)
  | x => Ret x
  end.

(** Mainlex.sml 32-33, and the foldL of line 70 *)
Definition expandLet (d : name * re) (ls : list (name * re)) : outcome (list (name * re)) :=
  do r <- expandRe ls (snd d); Ret ((fst d, r) :: ls).
Definition expandLets (l : lets) : outcome (list (name * re)) := appM expandLet l [].

(** Mainlex.sml 35-36 *)
Fixpoint mapM {A B} (f : A -> outcome B) (l : list A) : outcome (list B) :=
  match l with
  | [] => Ret []
  | x :: r => do y <- f x; do ys <- mapM f r; Ret (y :: ys)
  end.
Definition expandRule (ls : list (name * re)) (d : name * casedef) : outcome (name * casedef) :=
  do rl <- mapM (fun c : re * location => do r <- expandRe ls (fst c); Ret (r, snd c)) (snd d);
  Ret (fst d, rl).

(** ** Lexgen.sml *)

(** Lexgen.sml 9-16 *)
Inductive regexp :=
| Empty
| Chars (n : Z)
| Action (n : Z)
| Seq (r1 r2 : regexp)
| Alt (r1 r2 : regexp)
| Star (r : regexp).

(** Lexgen.sml 20-21: the references chars and chars_count *)
Definition cstate : Type := list (list Z) * Z.

(** Lexgen.sml 24-38; fatalError for a Name is ImpossibleExn *)
Fixpoint encode_regexp (r : re) (st : cstate) : outcome (regexp * cstate) :=
  match r with
  | Epsilon => Ret (Empty, st)
  | Characters cl => let '(chars, n) := st in Ret (Chars n, (cl :: chars, n + 1))
  | Sequence r1 r2 =>
      do (a, st1) <- encode_regexp r1 st;
      do (b, st2) <- encode_regexp r2 st1;
      Ret (Seq a b, st2)
  | Alternative r1 r2 =>
      do (a, st1) <- encode_regexp r1 st;
      do (b, st2) <- encode_regexp r2 st1;
      Ret (Alt a b, st2)
  | Repetition r1 => do (a, st1) <- encode_regexp r1 st; Ret (Star a, st1)
  | Name _ => Raise ImpossibleExn
  end.

(** Lexgen.sml 40-49: the state is (chars, chars_count), actions_count and the
    local reference actions *)
Definition addact (c : re * location) (s : regexp * (cstate * Z * list (Z * location)))
  : outcome (regexp * (cstate * Z * list (Z * location))) :=
  let '(reg, (st, act_num, actions)) := s in
  do (e, st1) <- encode_regexp (fst c) st;
  Ret (Alt reg (Seq e (Action act_num)), (st1, act_num + 1, (act_num, snd c) :: actions)).

Definition encode_casedef (cd : casedef) (s : cstate * Z)
  : outcome (regexp * list (Z * location) * (cstate * Z)) :=
  let '(st, cnt) := s in
  do (reg, (st1, cnt1, actions)) <- appM addact cd (Empty, (st, cnt, []));
  Ret (reg, actions, (st1, cnt1)).

(** Lexgen.sml 60-64, caml_map (right to left) of a function with state *)
Fixpoint caml_map {A B S} (f : A -> S -> outcome (B * S)) (l : list A) (s : S)
  : outcome (list B * S) :=
  match l with
  | [] => Ret ([], s)
  | x :: xs =>
      do (ys, s1) <- caml_map f xs s;
      do (y, s2) <- f x s1;
      Ret (y :: ys, s2)
  end.

(** Lexgen.sml 66-82: the character classes by position, the encoded rules and
    the actions of each entry point *)
Definition encode_lexdef (ld : lexdef)
  : outcome (list (list Z) * list (name * regexp) * list (list (Z * location))) :=
  do (l, (chars, _, _)) <-
     caml_map (fun (d : name * casedef) s =>
                 do (reg, acts, s1) <- encode_casedef (snd d) s;
                 Ret ((fst d, (reg, acts)), s1)) ld ([], 0, 0);
  Ret (rev chars,
       map (fun x : name * (regexp * list (Z * location)) => (fst x, fst (snd x))) l,
       map (fun x : name * (regexp * list (Z * location)) => snd (snd x)) l).

(** Lexgen.sml 87-90 *)
Inductive transition := OnChars (n : Z) | ToAction (n : Z).

(** Lexgen.sml 92-110.  The nested [fix] is the recursion on the second list
    while the first stays the same. *)
Fixpoint merge_trans (s1 : list transition) : list transition -> list transition :=
  fix merge2 (s2 : list transition) : list transition :=
    match s1, s2 with
    | [], _ => s2
    | _, [] => s1
    | (OnChars n1 as t1) :: r1, (OnChars n2 as t2) :: r2 =>
        if n1 =? n2 then t1 :: merge_trans r1 r2 else
        if n1 <? n2 then t1 :: merge_trans r1 s2 else t2 :: merge2 r2
    | (ToAction n1 as t1) :: r1, (ToAction n2 as t2) :: r2 =>
        if n1 =? n2 then t1 :: merge_trans r1 r2 else
        if n1 <? n2 then t1 :: merge_trans r1 s2 else t2 :: merge2 r2
    | (OnChars n1 as t1) :: r1, (ToAction n2 as t2) :: r2 => t1 :: merge_trans r1 s2
    | (ToAction n1 as t1) :: r1, (OnChars n2 as t2) :: r2 => t2 :: merge2 r2
    end.

(** Lexgen.sml 112-118 *)
Fixpoint nullable (r : regexp) : bool :=
  match r with
  | Empty => true
  | Chars _ => false
  | Action _ => false
  | Seq r1 r2 => nullable r1 && nullable r2
  | Alt r1 r2 => nullable r1 || nullable r2
  | Star _ => true
  end.

(** Lexgen.sml 120-129 *)
Fixpoint firstpos (r : regexp) : list transition :=
  match r with
  | Empty => []
  | Chars pos => [OnChars pos]
  | Action act => [ToAction act]
  | Seq r1 r2 => if nullable r1 then merge_trans (firstpos r1) (firstpos r2) else firstpos r1
  | Alt r1 r2 => merge_trans (firstpos r1) (firstpos r2)
  | Star r1 => firstpos r1
  end.

(** Lexgen.sml 131-140 *)
Fixpoint lastpos (r : regexp) : list transition :=
  match r with
  | Empty => []
  | Chars pos => [OnChars pos]
  | Action act => [ToAction act]
  | Seq r1 r2 => if nullable r2 then merge_trans (lastpos r1) (lastpos r2) else lastpos r2
  | Alt r1 r2 => merge_trans (lastpos r1) (lastpos r2)
  | Star r1 => lastpos r1
  end.

(** Lexgen.sml 142-161, followpos *)
Definition fill_pos (first : list transition) (t : transition) (v : list (list transition))
  : outcome (list (list transition)) :=
  match t with
  | OnChars pos => do old <- asub v pos; aupd v pos (merge_trans first old)
  | ToAction _ => Ret v
  end.

Fixpoint fill (r : regexp) (v : list (list transition)) : outcome (list (list transition)) :=
  match r with
  | Seq r1 r2 =>
      do v1 <- fill r1 v;
      do v2 <- fill r2 v1;
      appM (fill_pos (firstpos r2)) (lastpos r1) v2
  | Alt r1 r2 => do v1 <- fill r1 v; fill r2 v1
  | Star r1 => do v1 <- fill r1 v; appM (fill_pos (firstpos r1)) (lastpos r1) v1
  | _ => Ret v
  end.

Definition followpos (size : nat) (l : list (name * regexp)) : outcome (list (list transition)) :=
  appM (fun x : name * regexp => fill (snd x)) l (repeat [] size).

(** Lexgen.sml 163 *)
Definition no_action : Z := 32767.

(** Lexgen.sml 165-173 *)
Definition split_step (t : transition) (s : Z * list Z) : Z * list Z :=
  let '(act, pos_set) := s in
  match t with
  | OnChars pos => (act, pos :: pos_set)
  | ToAction act1 => if act1 <? act then (act1, pos_set) else s
  end.
Definition split_trans_set (l : list transition) : Z * list Z := foldL split_step (no_action, []) l.

(** Lexgen.sml 175-177: memory, todo and next *)
Record mem := mkMem {
  memory : list (list transition * Z);
  todo : list (list transition * Z);
  next : Z }.

Definition trans_eq_dec (a b : transition) : {a = b} + {a <> b}.
Proof. decide equality; apply Z.eq_dec. Defined.
Definition set_eqb (a b : list transition) : bool := if list_eq_dec trans_eq_dec a b then true else false.

Fixpoint mem_find (m : list (list transition * Z)) (st : list transition) : option Z :=
  match m with
  | [] => None
  | (k, v) :: r => if set_eqb st k then Some v else mem_find r st
  end.

(** Lexgen.sml 179-181 *)
Definition reset_state_mem : mem := mkMem [] [] 0.

(** Lexgen.sml 183-192 *)
Definition get_state (st : list transition) (m : mem) : Z * mem :=
  match mem_find (memory m) st with
  | Some n => (n, m)
  | None => (next m, mkMem ((st, next m) :: memory m) ((st, next m) :: todo m) (next m + 1))
  end.

(** Lexgen.sml 194-199; it terminates when there is nothing left to do, which
    the fuel makes explicit *)
Fixpoint map_on_states (fuel : nat) (f : list transition -> mem -> outcome (automata * mem)) (m : mem)
  : outcome (list (automata * Z) * mem) :=
  match fuel with
  | O => Diverge
  | S fuel' =>
      match todo m with
      | [] => Ret ([], m)
      | (st, i) :: r =>
          do (res, m1) <- f st (mkMem (memory m) r (next m));
          do (l, m2) <- map_on_states fuel' f m1;
          Ret ((res, i) :: l, m2)
      end
  end.

(** Lexgen.sml 205-207 *)
Definition goto_state (ps : list transition) (m : mem) : automata_move * mem :=
  match ps with
  | [] => (Backtrack, m)
  | _ => let '(n, m1) := get_state ps m in (Goto n, m1)
  end.

(** Fnlib.sml 143-145, [for f i j] with a state; [n] is j - i + 1 *)
Fixpoint forM {S} (f : Z -> S -> outcome S) (i : Z) (n : nat) (s : S) : outcome S :=
  match n with
  | O => Ret s
  | Datatypes.S n' => do s1 <- f i s; forM f (i + 1) n' s1
  end.

(** Lexgen.sml 209-224; Char.ord c is c *)
Definition add_pos (chars : list (list Z)) (follow : list (list transition)) (pos : Z)
    (tr : list (list transition)) : outcome (list (list transition)) :=
  do cl <- asub chars pos;
  appM (fun c tr =>
          do old <- asub tr c;
          do f <- asub follow pos;
          aupd tr c (merge_trans old f)) cl tr.

Definition transition_from (chars : list (list Z)) (follow : list (list transition))
    (pos_set : list Z) (m : mem) : outcome (list automata_move * mem) :=
  do tr <- appM (add_pos chars follow) pos_set (repeat [] 256);
  forM (fun i s =>
          let '(shift, m1) := s in
          do t <- asub tr i;
          let '(mv, m2) := goto_state t m1 in
          do shift1 <- aupd shift i mv;
          Ret (shift1, m2)) 0 256 (repeat Backtrack 256, m).

(** Lexgen.sml 226-231 *)
Definition translate_state (chars : list (list Z)) (follow : list (list transition))
    (state : list transition) (m : mem) : outcome (automata * mem) :=
  match split_trans_set state with
  | (n, []) => Ret (Perform n, m)
  | (n, ps) =>
      do (moves, m1) <- transition_from chars follow ps m;
      Ret (Shift (if n =? no_action then No_remember else Remember n) moves, m1)
  end.

(** Lexgen.sml 233-253 *)
Record dfa := mkDfa {
  d_initial : list (name * Z);
  d_states : list automata;
  d_actions : list (list (Z * location)) }.

Definition make_dfa (fuel : nat) (ld : lexdef) : outcome dfa :=
  do (chars, regs, actions) <- encode_lexdef ld;
  do follow <- followpos (length chars) regs;
  do (initial, m0) <-
     caml_map (fun (x : name * regexp) m =>
                 let '(n, m1) := get_state (firstpos (snd x)) m in Ret ((fst x, n), m1))
              regs reset_state_mem;
  do (states, m1) <- map_on_states fuel (translate_state chars follow) m0;
  do v <- appM (fun (x : automata * Z) v => aupd v (snd x) (fst x)) states
            (repeat (Perform 0) (Z.to_nat (next m1)));
  Ret (mkDfa initial v actions).

(** Mainlex.sml 70-72: from the parsed definition to the automaton *)
Definition generate (fuel : nat) (ls : lets) (ld : lexdef) : outcome dfa :=
  do nlets <- expandLets ls;
  do nrules <- mapM (expandRule nlets) ld;
  make_dfa fuel nrules.

(** ** Output.sml *)

Definition move_eqb (a b : automata_move) : bool :=
  match a, b with
  | Backtrack, Backtrack => true
  | Goto n, Goto m => n =? m
  | _, _ => false
  end.

(** Output.sml 50-58, enum: the references to lists of positions are the
    second components of the association list, updated in place *)
Fixpoint env_add (k : automata_move) (pos : Z) (env : list (automata_move * list Z))
  : option (list (automata_move * list Z)) :=
  match env with
  | [] => None
  | (a, pl) :: r =>
      if move_eqb k a then Some ((a, pos :: pl) :: r)
      else match env_add k pos r with Some r' => Some ((a, pl) :: r') | None => None end
  end.

Fixpoint enum (v : list automata_move) (pos : Z) (env : list (automata_move * list Z))
  : list (automata_move * list Z) :=
  match v with
  | [] => env
  | mv :: r =>
      match env_add mv pos env with
      | Some env' => enum r (pos + 1) env'
      | None => enum r (pos + 1) ((mv, [pos]) :: env)
      end
  end.

(** src/compiler/Sort.sml 3-11 *)
Fixpoint sort_merge {A} (order : A -> A -> bool) (xs : list A) : list A -> list A :=
  fix loop (ys : list A) : list A :=
    match xs, ys with
    | [], _ => ys
    | _, [] => xs
    | x :: xr, y :: yr =>
        if order x y then x :: sort_merge order xr ys else y :: loop yr
    end.

(** Sort.sml 14-17 *)
Fixpoint initList {A} (order : A -> A -> bool) (l : list A) : list (list A) :=
  match l with
  | [] => []
  | [e] => [[e]]
  | x1 :: x2 :: xs => (if order x1 x2 then [x1; x2] else [x2; x1]) :: initList order xs
  end.

(** Sort.sml 18-19 *)
Fixpoint merge2 {A} (order : A -> A -> bool) (l : list (list A)) : list (list A) :=
  match l with
  | xs1 :: xs2 :: xss => sort_merge order xs1 xs2 :: merge2 order xss
  | x => x
  end.

(** Sort.sml 20-22; the length of the list is enough fuel *)
Fixpoint mergeAll {A} (order : A -> A -> bool) (fuel : nat) (l : list (list A)) : outcome (list A) :=
  match fuel with
  | O => Diverge
  | S fuel' =>
      match l with
      | [] => Ret []
      | [xs] => Ret xs
      | xss => mergeAll order fuel' (merge2 order xss)
      end
  end.

(** Sort.sml 13-24 *)
Definition sort {A} (order : A -> A -> bool) (l : list A) : outcome (list A) :=
  let i := initList order l in mergeAll order (S (length i)) i.

(** Output.sml 50-65 *)
Definition enumerate_vect (v : list automata_move) : outcome (list (automata_move * list Z)) :=
  sort (fun e1 e2 => Z.of_nat (length (snd e2)) <=? Z.of_nat (length (snd e1))) (enum v 0 []).

(** Output.sml 86-94 *)
Definition addToInterv (c : Z) (acc : list (Z * Z)) : list (Z * Z) :=
  match acc with
  | [] => [(c, c)]
  | (c1, c2) :: rest => if c + 1 =? c1 then (c, c2) :: rest else (c, c) :: acc
  end.

(** Output.sml 96-98 *)
Definition mkIntervals (cs : list Z) : list (Z * Z) := foldL addToInterv [] cs.

(** Output.sml 100-107; the recursion is on c2 - c1, which is [n] - 1 *)
Definition trans_acc : Type := list (automata_move * (Z * Z)) * list (automata_move * Z).
Fixpoint addInterv_n (n : nat) (dest : automata_move) (c1 c2 : Z) (acc : trans_acc) : trans_acc :=
  let '(intervs, singls) := acc in
  if c1 >? c2 then (intervs, singls)
  else if c2 - c1 >=? 5 then ((dest, (c1, c2)) :: intervs, singls)
  else match n with
       | O => acc (* not reached: c1 > c2 when n is 0 *)
       | S n' => addInterv_n n' dest (c1 + 1) c2 (intervs, (dest, c1) :: singls)
       end.
Definition addInterv (dest : automata_move) (i : Z * Z) (acc : trans_acc) : trans_acc :=
  addInterv_n (Z.to_nat (snd i - fst i + 1)) dest (fst i) (snd i) acc.

(** Output.sml 109-115 *)
Definition unzipInterv (trans : list (automata_move * list Z)) : trans_acc :=
  foldR (fun (x : automata_move * list Z) acc =>
           foldR (addInterv (fst x)) acc (mkIntervals (snd x))) ([], []) trans.

(** The code that output_all_trans writes (Output.sml 117-167): a chain of
    [if currChar >= c1 andalso currChar <= c2 then dest else], then a [case]
    with one constant pattern per rule and a default, or just the default. *)
Inductive code :=
| CIf (c1 c2 : Z) (dest : automata_move) (k : code)
| CCase (rules : list (automata_move * Z)) (default : automata_move)
| CMove (default : automata_move).

Definition output_all_trans_i (l : list (automata_move * (Z * Z))) (k : code) : code :=
  foldR (fun (x : automata_move * (Z * Z)) k => CIf (fst (snd x)) (snd (snd x)) (fst x) k) k l.

Definition output_all_trans (trans : list automata_move) : outcome code :=
  do e <- enumerate_vect trans;
  match e with
  | [] => Raise FailExn
  | (default, _) :: rest =>
      match unzipInterv rest with
      | ([], trans_s) => Ret (CCase trans_s default)
      | (trans_i, []) => Ret (output_all_trans_i trans_i (CMove default))
      | (trans_i, trans_s) => Ret (output_all_trans_i trans_i (CCase trans_s default))
      end
  end.

(** ** Running the generated code *)

(** The value of a code body for the current character: the move it makes *)
Fixpoint case_code (c : Z) (rules : list (automata_move * Z)) (default : automata_move) : automata_move :=
  match rules with
  | [] => default
  | (dest, k) :: r => if c =? k then dest else case_code c r default
  end.
Fixpoint run_code (k : code) (c : Z) : automata_move :=
  match k with
  | CIf c1 c2 dest k' => if (c >=? c1) && (c <=? c2) then dest else run_code k' c
  | CCase rules default => case_code c rules default
  | CMove default => default
  end.

(** The outcome of calling an entry point of the generated lexer.
    [Token l p]: the action with source text [l] is run, with the lexer
    positioned at [p].  [Illegal]: dummyAction is run, which raises Fail
    "lexing: illegal symbol" (src/mosmllib/Lexing.sml).  [NotCompiled]: the
    generated text refers to a function that is not defined in it, so the
    generated program is rejected by the compiler. *)
Inductive lexres := Token (l : location) (p : Z) | Illegal | NotCompiled.

(** action_N of the generated code (Output.sml 30-35, 217): the action bodies
    are written once for each number in the list of actions *)
Fixpoint find_action (acts : list (Z * location)) (n : Z) : option location :=
  match acts with
  | [] => None
  | (k, l) :: r => if n =? k then Some l else find_action r n
  end.

Definition run_action (d : dfa) (n : Z) (p : Z) : lexres :=
  match find_action (concat (d_actions d)) n with
  | Some l => Token l p
  | None => NotCompiled
  end.

(** backtrack (src/mosmllib/Lexing.sml): return to the remembered position and
    run the remembered action; initially that is dummyAction *)
Definition backtrack (d : dfa) (last : option (Z * Z)) : lexres :=
  match last with
  | None => Illegal
  | Some (n, p) => run_action d n p
  end.

(** The function state_[n] (Output.sml 169-184), with [p] the current position
    of the lexer buffer, [last] the remembered action and position, and
    [s] the characters that getNextChar delivers, by position. *)
Fixpoint run_state (fuel : nat) (d : dfa) (s : Z -> Z) (n : Z) (p : Z) (last : option (Z * Z))
  : outcome lexres :=
  match fuel with
  | O => Diverge
  | S fuel' =>
      match asub (d_states d) n with
      | Ret (Shift what moves) =>
          let last1 := match what with No_remember => last | Remember i => Some (i, p) end in
          do k <- output_all_trans moves;
          match run_code k (s p) with
          | Backtrack => Ret (backtrack d last1)
          | Goto dest =>
              (* Output.sml 67-75 *)
              do st <- asub (d_states d) dest;
              match st with
              | Perform a => Ret (run_action d a (p + 1))
              | Shift _ _ => run_state fuel' d s dest (p + 1) last1
              end
          end
      | _ => Ret NotCompiled (* there is no function state_n *)
      end
  end.

(** The entry points (Output.sml 188-202), called at position [p] *)
Fixpoint find_entry (l : list (name * Z)) (e : name) : option Z :=
  match l with
  | [] => None
  | (k, n) :: r => if name_eqb e k then Some n else find_entry r e
  end.
Definition run_entry (fuel : nat) (d : dfa) (s : Z -> Z) (e : name) (p : Z) : outcome lexres :=
  match find_entry (d_initial d) e with
  | None => Ret NotCompiled
  | Some n => run_state fuel d s n p None
  end.
