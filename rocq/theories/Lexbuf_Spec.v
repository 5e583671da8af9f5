(** Specification for lexer buffers: a lexer that has the whole input before
    it and counts positions from the beginning of the input. *)
From Verif Require Import Base Lex_Model Lex_Spec Lexbuf_Model.

(** The characters that one call of the reader function delivers: the first
    [r] of the array if it returns [r] > 0, otherwise one end-of-input
    character, which is the character 0. *)
Definition delivered (x : response) : list Z :=
  if snd x >? 0 then firstn (Z.to_nat (snd x)) (fst x) else [0].

(** The input by position; after its end there are end-of-input characters. *)
Definition stream (f : list response) (p : Z) : Z :=
  nth (Z.to_nat p) (concat (map delivered f)) 0.
Definition string_stream (s : list Z) (p : Z) : Z := nth (Z.to_nat p) s 0.

(** What Lexing.sig asks of the reader function: it stores at most the 1024
    characters asked for (the array has 1024) and returns their number. *)
Definition conforming (x : response) : Prop := length (fst x) = 1024%nat /\ snd x <= 1024.

(** [IStop]: getNextChar is called where [may] does not allow it.
    [IMisuse]: the program uses getLexemeChar outside the lexeme, or goes on
    using the buffer after Fail "lexer: illegal symbol in input". *)
Inductive ires (R : Type) := IResult (r : R) | IStop | IMisuse | ICut.
Arguments IResult {R} r.
Arguments IStop {R}.
Arguments IMisuse {R}.
Arguments ICut {R}.

(** [start]: where the current token begins; [cur]: the next character to
    read; [last]: the action that is remembered, and its position. *)
Fixpoint ideal {R} (may : Z -> Z -> bool) (at_ : Z -> Z) (p : prog R)
    (start cur : Z) (last : option (Z * Z)) : ires R :=
  match p with
  | PDone r => IResult r
  | PCut => ICut
  | PEntry k => ideal may at_ k cur cur None
  | PRemember a k => ideal may at_ k start cur (Some (a, cur))
  | PNextChar k => if may start cur then ideal may at_ (k (at_ cur)) start (cur + 1) last else IStop
  | PBacktrack k =>
      match last with
      | Some (a, q) => ideal may at_ (k (Some a)) start q last
      | None => match k None with PDone r => IResult r | _ => IMisuse end
      end
  | PGetLexeme k => ideal may at_ (k (prefix at_ start (Z.to_nat (cur - start)))) start cur last
  | PGetLexemeChar i k =>
      if (0 <=? i) && (i <? cur - start) then ideal may at_ (k (at_ (start + i))) start cur last
      else IMisuse
  | PGetLexemeStart k => ideal may at_ (k start) start cur last
  | PGetLexemeEnd k => ideal may at_ (k cur) start cur last
  end.

(** The whole input may be read, however long a token is; *)
Definition any_length (start cur : Z) : bool := true.
(** a character is only read if the current token has at most 1024 characters so far; *)
Definition up_to_1024 (start cur : Z) : bool := cur - start <=? 1024.
(** nothing is read after the first end-of-input character of the input [s]. *)
Definition up_to_end (s : list Z) (start cur : Z) : bool := cur <=? Z.of_nat (length s).
