(** Model of the lexer buffers that lexers generated by mosmllex run on:
    src/mosmllib/Lexing.sml and get_next_char of src/runtime/lexing.c.

    Characters are their codes; positions are unbounded integers (a position
    beyond 2^62 needs an input of that size).  A string is the list of its
    bytes.  The contents of a string made by create_string_ are unknown and a
    parameter of the model.

    The reader function that is given to createLexer is user code.  It is
    modelled by the list of what its calls do: the pair [(a, r)] says that the
    1024 characters of the array passed to it (lexAuxBuffer, which all lexer
    buffers share) are [a] when it returns, and that it returns [r].  After the
    end of the list it returns 0. *)
From Verif Require Import Base Lex_Model.

Definition response := (list Z * Z)%type.

(** The first component of LEXBUF: lexRefill f, or the function given in
    createLexerString (Lexing.sml 65) *)
Inductive refiller := RefillFun | RefillString.

(** Lexing.sml 5-13; lastAction is the number of an action function of the
    generated lexer, or None for dummyAction.  [reader] is what the calls of
    the reader function are going to do. *)
Record lexbuf := LEXBUF {
  refillBuff : refiller;
  lexBuffer : list Z;
  lexAbsPos : Z;
  lexStartPos : Z;
  lexCurrPos : Z;
  lexLastPos : Z;
  lexLastAction : option Z;
  reader : list response
}.

(** Results: a value, or exception Fail (the lexer buffer keeps its changes),
    or an access to memory outside a string *)
Inductive lres (A : Type) :=
| LRet (a : A) (b : lexbuf)
| LFail (b : lexbuf)
| LUB.
Arguments LRet {A} a b.
Arguments LFail {A} b.
Arguments LUB {A}.

(** Lexing.sml 60-62; [junk] are the 2048 characters of the new string *)
Definition createLexer (junk : list Z) (f : list response) : lexbuf :=
  LEXBUF RefillFun junk (-2048) 2048 2048 2048 None f.

(** Lexing.sml 64-67 (the string is not of the maximal size, for which ^
    raises Size) *)
Definition createLexerString (s : list Z) : lexbuf :=
  LEXBUF RefillString (s ++ [0]) 0 0 0 0 None [].

Definition zlen (l : list Z) : Z := Z.of_nat (length l).

(** src/runtime/str.c 46-52, blit_string: memmove without any check; the
    resulting contents of the second string, None if it touches memory outside
    one of the strings *)
Definition blit_string (s1 : list Z) (offset1 : Z) (s2 : list Z) (offset2 len : Z) : option (list Z) :=
  if (0 <=? len) && (0 <=? offset1) && (offset1 + len <=? zlen s1)
     && (0 <=? offset2) && (offset2 + len <=? zlen s2)
  then Some (firstn (Z.to_nat offset2) s2
             ++ firstn (Z.to_nat len) (skipn (Z.to_nat offset1) s1)
             ++ skipn (Z.to_nat (offset2 + len)) s2)
  else None.

(** set_nth_char and get_nth_char / Byte_u: no check either *)
Definition set_nth_char (s : list Z) (i c : Z) : option (list Z) :=
  if (0 <=? i) && (i <? zlen s)
  then Some (firstn (Z.to_nat i) s ++ c :: skipn (S (Z.to_nat i)) s) else None.
Definition nth_char (s : list Z) (i : Z) : option Z :=
  if (0 <=? i) && (i <? zlen s) then nth_error s (Z.to_nat i) else None.

(** Lexing.sml 40-56 *)
Definition lexRefill (b : lexbuf) : lres unit :=
  let '(aux, read, rest) :=
    match reader b with [] => (repeat 0 1024, 0, []) | (a, r) :: f => (a, r, f) end in
  match (if read >? 0 then Some (aux, read)
         else match set_nth_char aux 0 0 with Some a => Some (a, 1) | None => None end) with
  | None => LUB
  | Some (aux, n) =>
      match blit_string (lexBuffer b) n (lexBuffer b) 0 (2048 - n) with
      | None => LUB
      | Some buf1 =>
          match blit_string aux 0 buf1 (2048 - n) n with
          | None => LUB
          | Some buf2 =>
              let b' := LEXBUF (refillBuff b) buf2 (lexAbsPos b + n) (lexStartPos b - n)
                          (lexCurrPos b - n) (lexLastPos b - n) (lexLastAction b) rest in
              if lexStartPos b' <? 0 then LFail b' else LRet tt b'
          end
      end
  end.

Definition setLexCurrPos (b : lexbuf) (p : Z) : lexbuf :=
  LEXBUF (refillBuff b) (lexBuffer b) (lexAbsPos b) (lexStartPos b) p (lexLastPos b) (lexLastAction b) (reader b).
Definition setLexStartPos (b : lexbuf) (p : Z) : lexbuf :=
  LEXBUF (refillBuff b) (lexBuffer b) (lexAbsPos b) p (lexCurrPos b) (lexLastPos b) (lexLastAction b) (reader b).
Definition setLexLastPos (b : lexbuf) (p : Z) : lexbuf :=
  LEXBUF (refillBuff b) (lexBuffer b) (lexAbsPos b) (lexStartPos b) (lexCurrPos b) p (lexLastAction b) (reader b).
Definition setLexLastAction (b : lexbuf) (a : option Z) : lexbuf :=
  LEXBUF (refillBuff b) (lexBuffer b) (lexAbsPos b) (lexStartPos b) (lexCurrPos b) (lexLastPos b) a (reader b).

(** the call of the refill function *)
Definition refill (b : lexbuf) : lres unit :=
  match refillBuff b with
  | RefillFun => lexRefill b
  | RefillString => LRet tt (setLexCurrPos b (lexCurrPos b - 1))
  end.

(** src/runtime/lexing.c 18-35.  curr_pos is unsigned there, so that a
    negative lexCurrPos is greater than buffer_len. *)
Definition get_next_char (b : lexbuf) : lres Z :=
  let buffer_len := zlen (lexBuffer b) in
  match (if (lexCurrPos b <? 0) || (lexCurrPos b >=? buffer_len) then refill b else LRet tt b) with
  | LRet _ b1 =>
      match nth_char (lexBuffer b1) (lexCurrPos b1) with
      | Some c => LRet c (setLexCurrPos b1 (lexCurrPos b1 + 1))
      | None => LUB
      end
  | LFail b1 => LFail b1
  | LUB => LUB
  end.

(** Lexing.sml 69-76.  For a negative length, create_string (str.c 18-21,
    alloc_string in alloc.c) computes a size that wraps around: LUB. *)
Definition getLexeme (b : lexbuf) : lres (list Z) :=
  let len := lexCurrPos b - lexStartPos b in
  if len <? 0 then LUB
  else match blit_string (lexBuffer b) (lexStartPos b) (repeat 0 (Z.to_nat len)) 0 len with
       | Some s => LRet s b
       | None => LUB
       end.

(** Lexing.sml 78-80 *)
Definition getLexemeChar (b : lexbuf) (i : Z) : lres Z :=
  match nth_char (lexBuffer b) (lexStartPos b + i) with Some c => LRet c b | None => LUB end.

(** Lexing.sml 87-89 and 91-93 *)
Definition getLexemeStart (b : lexbuf) : Z := lexAbsPos b + lexStartPos b.
Definition getLexemeEnd (b : lexbuf) : Z := lexAbsPos b + lexCurrPos b.

(** ** Programs that use a lexer buffer

    What the functions of a generated lexer and its semantic actions do with
    one lexer buffer, as a tree: an operation, and how the program goes on
    depending on its result.
    - [PEntry]: the beginning of an entry point (Output.sml 192-196)
    - [PRemember]: the beginning of a state that accepts (Output.sml 178-182)
    - [PNextChar]: getNextChar
    - [PBacktrack]: Lexing.sml 82-85; the program goes on with the remembered
      action, or (None) with the handler of the Fail that dummyAction raises
    - the four operations for semantic actions
    - [PDone]: the program has come to a result; [PCut]: it is not followed
      any further (out of fuel). *)
Inductive prog (R : Type) :=
| PDone (r : R)
| PCut
| PEntry (k : prog R)
| PRemember (a : Z) (k : prog R)
| PNextChar (k : Z -> prog R)
| PBacktrack (k : option Z -> prog R)
| PGetLexeme (k : list Z -> prog R)
| PGetLexemeChar (i : Z) (k : Z -> prog R)
| PGetLexemeStart (k : Z -> prog R)
| PGetLexemeEnd (k : Z -> prog R).
Arguments PDone {R} r.
Arguments PCut {R}.
Arguments PEntry {R} k.
Arguments PRemember {R} a k.
Arguments PNextChar {R} k.
Arguments PBacktrack {R} k.
Arguments PGetLexeme {R} k.
Arguments PGetLexemeChar {R} i k.
Arguments PGetLexemeStart {R} k.
Arguments PGetLexemeEnd {R} k.

(** Results of a program: [TooLong] if getNextChar raises Fail "lexer: token
    too long", [Crash] if memory outside a string is accessed *)
Inductive pres (R : Type) := Result (r : R) | TooLong | Crash | Cut.
Arguments Result {R} r.
Arguments TooLong {R}.
Arguments Crash {R}.
Arguments Cut {R}.

Fixpoint run {R} (p : prog R) (b : lexbuf) : pres R :=
  let cont {A} (x : lres A) (k : A -> lexbuf -> pres R) : pres R :=
    match x with LRet a b' => k a b' | LFail _ => TooLong | LUB => Crash end in
  match p with
  | PDone r => Result r
  | PCut => Cut
  | PEntry k => run k (setLexStartPos (setLexLastAction b None) (lexCurrPos b))
  | PRemember a k => run k (setLexLastAction (setLexLastPos b (lexCurrPos b)) (Some a))
  | PNextChar k => cont (get_next_char b) (fun c => run (k c))
  | PBacktrack k => run (k (lexLastAction b)) (setLexCurrPos b (lexLastPos b))
  | PGetLexeme k => cont (getLexeme b) (fun s => run (k s))
  | PGetLexemeChar i k => cont (getLexemeChar b i) (fun c => run (k c))
  | PGetLexemeStart k => run (k (getLexemeStart b)) b
  | PGetLexemeEnd k => run (k (getLexemeEnd b)) b
  end.

(** ** The functions of a generated lexer as such programs

    [act l] is the semantic action with source text [l], [ill] what the caller
    does when Fail is raised, [bad] stands for a call of a function that is not
    in the generated text (see Lex_Model.NotCompiled). *)
Section Gen.
  Context {R : Type} (d : dfa) (act : location -> prog R) (ill : prog R) (bad : R).

  Definition gen_action (n : Z) : prog R :=
    match find_action (concat (d_actions d)) n with
    | Some l => act l
    | None => PDone bad
    end.

  Definition gen_backtrack : prog R :=
    PBacktrack (fun o => match o with Some n => gen_action n | None => ill end).

  (** Output.sml 169-184 *)
  Fixpoint gen_state (fuel : nat) (n : Z) : prog R :=
    match fuel with
    | O => PCut
    | S fuel' =>
        match asub (d_states d) n with
        | Ret (Shift what moves) =>
            let body :=
              PNextChar (fun c =>
                match output_all_trans moves with
                | Ret k =>
                    match run_code k c with
                    | Backtrack => gen_backtrack
                    | Goto dest =>
                        match asub (d_states d) dest with
                        | Ret (Perform a) => gen_action a
                        | Ret (Shift _ _) => gen_state fuel' dest
                        | _ => PCut
                        end
                    end
                | _ => PCut
                end) in
            match what with
            | No_remember => body
            | Remember i => PRemember i body
            end
        | _ => PDone bad
        end
    end.

  (** Output.sml 188-202 *)
  Definition gen_entry (fuel : nat) (e : name) : prog R :=
    match find_entry (d_initial d) e with
    | None => PDone bad
    | Some n => PEntry (gen_state fuel n)
    end.
End Gen.
