(** Model of the lexer of the compiler, src/compiler/Lexer.lex: the rules of its
    entry points as regular expressions, and their actions.

    The generated automaton is run by [run_entry] (Lex_Model.v) on the stream
    [s] of the characters of the source by position, so that getLexemeStart is
    the position [p] at which an entry point is called, getLexemeEnd the
    position [q] it returns, and getLexemeChar lexbuf i is [s (p + i)]
    (Lexbuf_Model.v relates this to the buffer).

    Not modelled: the entry point Token, which only dispatches on lexingMode,
    and with it quotations: [lexingMode] is NORMALlm, [quotation] is false and
    [parCount] is empty.  In place of the offsets of the actions in Lexer.lex,
    the locations are the line numbers of the rules. *)
From Coq Require Import String Ascii.
From Verif Require Import Base ArrayLib Lex_Model Lex_Spec.
From Verif Require Arith_Model Scan_Model.
Close Scope string_scope.
Open Scope list_scope.
Open Scope Z_scope.

(** the character codes of a text *)
Definition codes (t : string) : list Z := map (fun a => Z.of_nat (nat_of_ascii a)) (list_ascii_of_string t).

(** ** The rules *)

(** lex/Gram_aux.sml 7-15, regexp_for_string *)
Fixpoint regexp_for_string (t : list Z) : re :=
  match t with
  | [] => Epsilon
  | [c] => Characters [c]
  | c :: r => Sequence (Characters [c]) (regexp_for_string r)
  end.
Definition str (t : string) : re := regexp_for_string (codes t).

(** lex/Gram_aux.sml 17-24, char_class *)
Definition char_class (c1 c2 : Z) : list Z :=
  map (fun i => c1 + Z.of_nat i) (seq 0 (Z.to_nat (c2 - c1 + 1))).

(** lex/Gram_aux.sml 26; lex/Grammar.grm 84-99: the forms of expressions *)
Definition all_chars : list Z := char_class 1 255.
Definition any : re := Characters all_chars.
Definition eof : re := Characters [0].
Definition plus (r : re) : re := Sequence r (Repetition r).
Definition maybe (r : re) : re := Alternative r Epsilon.
Definition one (c : Z) : re := Characters [c].

Definition digits : list Z := char_class 48 57.
Definition hexdigits : list Z := char_class 48 57 ++ char_class 97 102 ++ char_class 65 70.
Definition letters : list Z := char_class 65 90 ++ char_class 97 122.
Definition idchars : list Z := char_class 65 90 ++ char_class 97 122 ++ char_class 48 57 ++ [95; 39].
Definition symbols : list Z := codes "!%&$#+-/:<=>?@\~`^|*".

Definition at_line (r : re) (n : Z) : re * location := (r, Location n n).

(** Lexer.lex 232-311 *)
Definition TokenN_rules : casedef :=
  [ at_line (Characters [32; 10; 13; 9; 12]) 233;
    at_line (str "(*") 234;
    at_line (str "*)") 238;
    at_line (Sequence (str "'") (plus (Characters idchars))) 240;
    at_line (str "0") 242;
    at_line (Characters (char_class 49 57)) 243;
    at_line (Sequence (str "0") (plus (Characters digits))) 244;
    at_line (Sequence (Characters (char_class 49 57)) (plus (Characters digits))) 248;
    at_line (Sequence (str "~") (plus (Characters digits))) 252;
    at_line (Sequence (Sequence (maybe (str "~")) (str "0x")) (plus (Characters hexdigits))) 256;
    at_line (Sequence (str "0w") (plus (Characters digits))) 260;
    at_line (Sequence (str "0wx") (plus (Characters hexdigits))) 264;
    at_line (Sequence (Sequence (Sequence (maybe (str "~")) (plus (Characters digits)))
                         (maybe (Sequence (one 46) (plus (Characters digits)))))
               (maybe (Sequence (Sequence (Characters [101; 69]) (maybe (one 126))) (plus (Characters digits))))) 268;
    at_line (one 34) 272;
    at_line (Sequence (one 35) (one 34)) 276;
    at_line (str "_") 284;
    at_line (str ",") 285;
    at_line (str "...") 286;
    at_line (str "{") 287;
    at_line (str "}") 288;
    at_line (str "[") 289;
    at_line (str "#[") 290;
    at_line (str "]") 291;
    at_line (str "(") 292;
    at_line (str ")") 298;
    at_line (str ";") 309;
    at_line (Alternative eof (one 26)) 310;
    at_line Epsilon 311 ].

(** Lexer.lex 314-316 (and 318-320, 322-324), 330-332 without the backquote
    (and 334-336, 338-340), 442-444 without backquote and caret *)
Definition identifier (syms : list Z) : re :=
  Alternative (Sequence (Characters letters) (Repetition (Characters idchars))) (plus (Characters syms)).
Definition qualified (syms : list Z) : re :=
  Sequence (plus (Sequence (identifier syms) (str "."))) (identifier syms).

(** Lexer.lex 313-327 *)
Definition TokenId_rules : casedef :=
  [ at_line (identifier symbols) 314;
    at_line (qualified symbols) 318;
    at_line any 326 ].

(** Lexer.lex 329-345 *)
Definition symbolsQ : list Z := codes "!%&$#+-/:<=>?@\~^|*".
Definition TokenIdQ_rules : casedef :=
  [ at_line (identifier symbolsQ) 330;
    at_line (qualified symbolsQ) 334;
    at_line (str "`") 342;
    at_line any 344 ].

(** Lexer.lex 347-356 *)
Definition Comment_rules : casedef :=
  [ at_line (str "(*") 348;
    at_line (str "*)") 350;
    at_line (Alternative eof (one 26)) 353;
    at_line any 355 ].

(** the characters of gaps, Lexer.lex 364 and 404 *)
Definition gapchars : list Z := [32; 9; 10; 13].

(** Lexer.lex 358-397 *)
Definition String_rules : casedef :=
  [ at_line (one 34) 359;
    at_line (Sequence (one 92) (Characters [92; 34; 97; 98; 116; 110; 118; 102; 114])) 361;
    at_line (Sequence (Sequence (one 92) (plus (Characters gapchars))) (one 92)) 364;
    at_line (Sequence (Sequence (one 92) (one 94)) (Characters (char_class 64 95))) 366;
    at_line (Sequence (Sequence (Sequence (one 92) (Characters digits)) (Characters digits)) (Characters digits)) 370;
    at_line (Sequence (Sequence (Sequence (Sequence (str "\u") (Characters hexdigits)) (Characters hexdigits))
                         (Characters hexdigits)) (Characters hexdigits)) 378;
    at_line (one 92) 387;
    at_line (Alternative eof (one 26)) 389;
    at_line (Characters [10; 13]) 391;
    at_line (Characters (char_class 1 26 ++ [127; 255])) 393;
    at_line any 395 ].

(** Lexer.lex 399-409 *)
Definition SkipString_rules : casedef :=
  [ at_line (one 34) 400;
    at_line (Sequence (one 92) (Characters [92; 34; 110; 116])) 402;
    at_line (Sequence (Sequence (one 92) (plus (Characters gapchars))) (one 92)) 404;
    at_line (Alternative eof (one 26)) 406;
    at_line any 408 ].

(** Lexer.lex 411-429 *)
Definition Quotation_rules : casedef :=
  [ at_line (str "`") 412;
    at_line (one 94) 414;
    at_line (one 13) 416;
    at_line (Characters [9; 10]) 418;
    at_line (Alternative eof (one 26)) 421;
    at_line (Characters (char_class 1 26 ++ [127; 255])) 425;
    at_line any 427 ].

(** Lexer.lex 431-439 *)
Definition SkipQuotation_rules : casedef :=
  [ at_line (str "`") 432;
    at_line (Alternative eof (one 26)) 434;
    at_line any 438 ].

(** Lexer.lex 441-463 *)
Definition symbolsA : list Z := codes "!%&$#+-/:<=>?@\~|*".
Definition AntiQuotation_rules : casedef :=
  [ at_line (identifier symbolsA) 442;
    at_line (str "(") 448;
    at_line (str "`") 452;
    at_line (Alternative eof (one 26)) 456;
    at_line any 460 ].

(** Lexer.lex 212-464 without the entry point Token; there are no
    let-definitions *)
Definition lexer_definition : lexdef :=
  [ (codes "TokenN", TokenN_rules);
    (codes "TokenId", TokenId_rules);
    (codes "TokenIdQ", TokenIdQ_rules);
    (codes "Comment", Comment_rules);
    (codes "String", String_rules);
    (codes "SkipString", SkipString_rules);
    (codes "Quotation", Quotation_rules);
    (codes "SkipQuotation", SkipQuotation_rules);
    (codes "AntiQuotation", AntiQuotation_rules) ].

(** ** The string buffer *)

(** Lexer.lex 93-95: [initial] is the array initial_string_buffer, [current]
    the array that the reference string_buff holds, where None stands for
    initial_string_buffer itself; string_index *)
Record sbuf := mkSbuf { initial : list Z; current : option (list Z); index : Z }.

Definition string_buff (b : sbuf) : list Z :=
  match current b with None => initial b | Some a => a end.
Definition set_contents (b : sbuf) (a : list Z) (i : Z) : sbuf :=
  match current b with
  | None => mkSbuf a None i
  | Some _ => mkSbuf (initial b) (Some a) i
  end.

(** Lexer.lex 97-102 *)
Definition reset_string_buffer (b : sbuf) : sbuf := mkSbuf (initial b) None 0.

(** CharArray.maxLen is String.maxSize: Strbase.mlp 12 (64 bits) *)
Definition maxLen : Z := 144115188075855863.
(** CharArray.array (n, #"\000"); n is not negative *)
Definition array (n : Z) : outcome (list Z) :=
  if n >? maxLen then Raise Size else Ret (repeat 0 (Z.to_nat n)).
(** CharArray.copy {src, dst, di = 0} *)
Definition copy (src dst : list Z) : outcome (list Z) :=
  if zlen src >? zlen dst then Raise Subscript else Ret (src ++ skipn (List.length src) dst).
(** CharArray.update *)
Definition update (a : list Z) (i c : Z) : outcome (list Z) :=
  match zset a i c with Some a' => Ret a' | None => Raise Subscript end.

(** Lexer.lex 104-117 *)
Definition store_string_char (c : Z) (b : sbuf) : outcome sbuf :=
  let len := zlen (string_buff b) in
  do b1 <- (if index b >=? len then
              do new_buff <- array (len * 2);
              do new_buff1 <- copy (string_buff b) new_buff;
              Ret (mkSbuf (initial b) (Some new_buff1) (index b))
            else Ret b);
  do a <- update (string_buff b1) (index b1) c;
  Ret (set_contents b1 a (index b1 + 1)).

(** Lexer.lex 119-126 *)
Definition get_stored_string (b : sbuf) : outcome (list Z * sbuf) :=
  if index b >? zlen (string_buff b) then Raise Subscript
  else Ret (firstn (Z.to_nat (index b)) (string_buff b), mkSbuf (initial b) None (index b)).

(** ** Errors and tokens *)

(** the messages of LexicalError *)
Inductive message :=
| UnmatchedBracket | IllFormedToken | IllFormedChar | CodeTooLarge | IllFormedEscape
| NewlineInString | InvalidCharacter | TooLarge | StringNotTerminated | CommentNotTerminated.

(** [Fine x]: normal return; [Error m p1 p2]: LexicalError (m, p1, p2) *)
Inductive result (A : Type) := Fine (a : A) | Error (m : message) (p1 p2 : Z).
Arguments Fine {A} a.
Arguments Error {A} m p1 p2.

(** Calls of entry points: the line of the action and the position.  Fail
    "lexing: illegal symbol" is FailExn; when there is no such function in the
    generated code the result is UB. *)
Definition call (fuel : nat) (d : dfa) (s : Z -> Z) (e : string) (p : Z) : outcome (Z * Z) :=
  do r <- run_entry fuel d s (codes e) p;
  match r with
  | Token (Location l _) q => Ret (l, q)
  | Illegal => Raise FailExn
  | NotCompiled => UB
  end.

(** Config.mlp 167-181 (not on the Macintosh) *)
Definition char_for_backslash (c : Z) : Z :=
  if c =? 110 then 10 else if c =? 114 then 13 else if c =? 97 then 7 else if c =? 98 then 8
  else if c =? 116 then 9 else if c =? 118 then 11 else if c =? 102 then 12 else c.

(** Lexer.lex 153-156 *)
Definition charCodeOfDecimal (s : Z -> Z) (p i : Z) : Z :=
  100 * (s (p + i) - 48) + 10 * (s (p + (i + 1)) - 48) + (s (p + (i + 2)) - 48).

(** Lexer.lex 160-162 *)
Definition hexval (c : Z) : Z :=
  if (48 <=? c) && (c <=? 57) then c - 48 else (c - 55) mod 32.
(** Lexer.lex 159-168 *)
Definition charCodeOfHexadecimal (s : Z -> Z) (p i : Z) : Z :=
  4096 * hexval (s (p + (i + 1))) + 256 * hexval (s (p + (i + 2))) +
  16 * hexval (s (p + (i + 3))) + hexval (s (p + (i + 4))).

(** Char.chr *)
Definition chr (n : Z) : outcome Z := if (0 <=? n) && (n <=? 255) then Ret n else Raise Chr.

Section Lexer.
  Variables (d : dfa) (s : Z -> Z).

  (** Lexer.lex 399-409; notTerminated (185-190) takes the reference
      savedLexemeStart, [saved].  The result is the position. *)
  Fixpoint SkipString (fuel : nat) (saved p : Z) : outcome (result Z) :=
    match fuel with
    | O => Diverge
    | S fuel' =>
        do (l, q) <- call fuel' d s "SkipString" p;
        if l =? 400 then Ret (Fine q)
        else if l =? 402 then SkipString fuel' saved q
        else if l =? 404 then SkipString fuel' saved q
        else if l =? 406 then Ret (Error StringNotTerminated saved q)
        else SkipString fuel' saved q
    end.

  (** Lexer.lex 192-200, with SkipString *)
  Definition skipString {A} (fuel : nat) (m : message) (saved p q : Z) : outcome (result A) :=
    do r <- SkipString fuel saved q;
    match r with
    | Fine _ => Ret (Error m p q)
    | Error m1 p1 p2 => Ret (Error m1 p1 p2)
    end.

  (** Lexer.lex 358-397 *)
  Fixpoint String (fuel : nat) (saved p : Z) (b : sbuf) : outcome (result (Z * sbuf)) :=
    match fuel with
    | O => Diverge
    | S fuel' =>
        do (l, q) <- call fuel' d s "String" p;
        if l =? 359 then Ret (Fine (q, b))
        else if l =? 361 then
          do b1 <- store_string_char (char_for_backslash (s (p + 1))) b;
          String fuel' saved q b1
        else if l =? 364 then String fuel' saved q b
        else if l =? 366 then
          do c <- chr (s (p + 2) - 64);
          do b1 <- store_string_char c b;
          String fuel' saved q b1
        else if l =? 370 then
          let code := charCodeOfDecimal s p 1 in
          if code >=? 256 then skipString fuel' CodeTooLarge saved p q
          else
            do c <- chr code;
            do b1 <- store_string_char c b;
            String fuel' saved q b1
        else if l =? 378 then
          let code := charCodeOfHexadecimal s p 1 in
          if code >=? 256 then skipString fuel' CodeTooLarge saved p q
          else
            do c <- chr code;
            do b1 <- store_string_char c b;
            String fuel' saved q b1
        else if l =? 387 then skipString fuel' IllFormedEscape saved p q
        else if l =? 389 then Ret (Error StringNotTerminated saved q)
        else if l =? 391 then skipString fuel' NewlineInString saved p q
        else if l =? 393 then skipString fuel' InvalidCharacter saved p q
        else
          do b1 <- store_string_char (s p) b;
          String fuel' saved q b1
    end.

  (** Lexer.lex 202-208: [p] and [q] are getLexemeStart and getLexemeEnd; the
      lexeme then begins at [p] again.  The result is the end of the lexeme. *)
  Definition scanString (fuel : nat) (p q : Z) (b : sbuf) : outcome (result (Z * sbuf)) :=
    String fuel p q (reset_string_buffer b).

  (** Lexer.lex 347-356; [depth] is comment_depth *)
  Fixpoint Comment (fuel : nat) (saved p depth : Z) : outcome (result Z) :=
    match fuel with
    | O => Diverge
    | S fuel' =>
        do (l, q) <- call fuel' d s "Comment" p;
        if l =? 348 then Comment fuel' saved q (depth + 1)
        else if l =? 350 then
          let depth1 := depth - 1 in
          if depth1 >? 0 then Comment fuel' saved q depth1 else Ret (Fine q)
        else if l =? 353 then Ret (Error CommentNotTerminated saved q)
        else Comment fuel' saved q depth
    end.
End Lexer.

(** Parser.grm, tokens; the keywords and the tokens for reserved symbols are
    represented by their texts, a real constant by its lexeme, which
    sml_float_of_string converts.  Integers are tagged machine words. *)
Inductive token :=
| STRING (v : list Z) | CHAR (c : Z) | TYVAR (v : list Z)
| ZDIGIT (n : Z) | NZDIGIT (n : Z) | ZPOSINT2 (n : Z) | NZPOSINT2 (n : Z) | NEGINT (n : Z) | WORD (n : Z)
| REAL (v : list Z) | RESERVED (v : list Z) | ID (v : list Z)
| QUAL_ID (ids : list (list Z)) | QUAL_STAR (ids : list (list Z)) | EOF.

(** Lexer.lex 28-84, keyword_table; Hasht.find finds the token inserted for a
    string *)
Definition keywords : list (list Z) :=
  map codes ["abstype"; "and"; "andalso"; "as"; "case"; "datatype"; "do"; "else"; "eqtype"; "end";
    "exception"; "fn"; "fun"; "functor"; "handle"; "if"; "in"; "include"; "infix"; "infixr"; "let";
    "local"; "nonfix"; "of"; "op"; "open"; "orelse"; "prim_eqtype"; "prim_EQtype"; "prim_type";
    "prim_val"; "raise"; "rec"; "sharing"; "sig"; "signature"; "struct"; "structure"; "then"; "type";
    "val"; "where"; "while"; "with"; "withtype"; "#"; "->"; "|"; ":>"; ":"; "=>"; "="; "*"]%string.

(** Lexer.lex 86-90 *)
Definition mkKeyword (w : list Z) : token :=
  if existsb (name_eqb w) keywords then RESERVED w else ID w.

(** Lexer.lex 129-139; [pre] holds the characters from i to n - 1 *)
Fixpoint parse (pre rest : list Z) (acc : list (list Z)) : list (list Z) :=
  match rest with
  | [] => pre :: acc
  | c :: r => if c =? 46 then parse [] r (pre :: acc) else parse (pre ++ [c]) r acc
  end.
Definition splitQualId (w : list Z) : list (list Z) := parse [] w [].

(** Lexer.lex 143-150 *)
Definition mkQualId (w : list Z) : token :=
  let id := splitQualId w in
  if match id with [i] => name_eqb i (codes "*") | _ => false end then QUAL_STAR id else QUAL_ID id.

Section Tokens.
  Variables (d : dfa) (s : Z -> Z).

  (** Lexer.lex 240-271: the conversion of a constant; constTooLarge (176-180) *)
  Definition constant (o : outcome Z) (mk : Z -> token) (p q : Z) (b : sbuf)
    : outcome (result (token * Z * Z * sbuf)) :=
    match o with
    | Ret n => Ret (Fine (mk n, p, q, b))
    | Raise FailExn => Ret (Error TooLarge p q)
    | Raise e => Raise e
    | UB => UB
    | Diverge => Diverge
    end.

  (** Lexer.lex 313-327: the token, getLexemeStart and getLexemeEnd *)
  Definition TokenId (fuel : nat) (p : Z) (b : sbuf) : outcome (result (token * Z * Z * sbuf)) :=
    do (l, q) <- call fuel d s "TokenId" p;
    let w := prefix s p (Z.to_nat (q - p)) in
    if l =? 314 then Ret (Fine (mkKeyword w, p, q, b))
    else if l =? 318 then Ret (Fine (mkQualId w, p, q, b))
    else Ret (Error IllFormedToken p q).

  (** Lexer.lex 232-311 *)
  Fixpoint TokenN (fuel : nat) (p : Z) (b : sbuf) : outcome (result (token * Z * Z * sbuf)) :=
    match fuel with
    | O => Diverge
    | S fuel' =>
        do (l, q) <- call fuel' d s "TokenN" p;
        let w := prefix s p (Z.to_nat (q - p)) in
        if l =? 233 then TokenN fuel' q b
        else if l =? 234 then
          do r <- Comment d s fuel' p q 1;
          match r with
          | Fine q1 => TokenN fuel' q1 b
          | Error m p1 p2 => Ret (Error m p1 p2)
          end
        else if l =? 238 then Ret (Error UnmatchedBracket p q)
        else if l =? 240 then Ret (Fine (TYVAR w, p, q, b))
        else if l =? 242 then Ret (Fine (ZDIGIT (Arith_Model.Val_long 0), p, q, b))
        else if l =? 243 then do n <- Scan_Model.sml_int_of_string w; Ret (Fine (NZDIGIT n, p, q, b))
        else if l =? 244 then constant (Scan_Model.sml_int_of_string w) ZPOSINT2 p q b
        else if l =? 248 then constant (Scan_Model.sml_int_of_string w) NZPOSINT2 p q b
        else if l =? 252 then constant (Scan_Model.sml_int_of_string w) NEGINT p q b
        else if l =? 256 then constant (Scan_Model.sml_int_of_hex w) NEGINT p q b
        else if l =? 260 then constant (Scan_Model.sml_word_of_dec w) WORD p q b
        else if l =? 264 then constant (Scan_Model.sml_word_of_hex w) WORD p q b
        else if l =? 268 then Ret (Fine (REAL w, p, q, b))
        else if l =? 272 then
          do r <- scanString d s fuel' p q b;
          match r with
          | Fine (q1, b1) => do (v, b2) <- get_stored_string b1; Ret (Fine (STRING v, p, q1, b2))
          | Error m p1 p2 => Ret (Error m p1 p2)
          end
        else if l =? 276 then
          do r <- scanString d s fuel' p q b;
          match r with
          | Fine (q1, b1) =>
              do (v, b2) <- get_stored_string b1;
              match v with
              | [c] => Ret (Fine (CHAR c, p, q1, b2))
              | _ => Ret (Error IllFormedChar p q1)
              end
          | Error m p1 p2 => Ret (Error m p1 p2)
          end
        else if l =? 310 then Ret (Fine (EOF, p, q, b))
        else if l =? 311 then TokenId fuel' q b
        else Ret (Fine (RESERVED w, p, q, b))
    end.
End Tokens.
