(** Model of URL and HTML encoding (mosmllib/Msp.sml 205-224) and of the reading of the fields of
    a CGI request (mosmllib/Mosmlcgi.sml 110-156, 161-170) on 64-bit machines.
    Strings, substrings and [junk] are as in Substring_Model. *)
From Verif Require Import Base ArrayLib Copy_Model Buffer_Model Substring_Model.
From Verif Require Scan_Model.

(** Char.sml 53-56, 60 *)
Definition isAlphaNum (c : Z) : bool :=
  ((97 <=? c) && (c <=? 122)) || ((65 <=? c) && (c <=? 90)) || ((48 <=? c) && (c <=? 57)).

(** Msp.sml 206-213: the local function encode of urlencode.
    The concatenation of "%" and a string of two characters is that of lists. *)
Definition url_encode (junk : nat -> Z) (c : Z) : outcome str :=
  if c =? 32 then Ret [43]
  else if c =? 45 then Ret [45]
  else if c =? 95 then Ret [95]
  else if c =? 46 then Ret [46]
  else if isAlphaNum c then Ret [c]
  else do h <- Scan_Model.int_fmt Scan_Model.HEX c; do p <- padLeft junk 48 2 h; Ret (37 :: p).
(** String.translate is modelled for functions that always return; [pure_of] reads [url_encode] as one.
    Lemma Cgi_Proofs.url_encode_ok shows that it returns on every character. *)
Definition pure_of (f : Z -> outcome str) (c : Z) : str := match f c with Ret t => t | _ => [] end.
(** Msp.sml 205-214 *)
Definition urlencode (junk : nat -> Z) (s : str) : outcome str := s_translate junk (pure_of (url_encode junk)) s.

(** Msp.sml 220-223: the local function encode of htmlencode *)
Definition html_encode (c : Z) : str :=
  if c =? 60 then [38; 108; 116; 59]
  else if c =? 62 then [38; 103; 116; 59]
  else if c =? 38 then [38; 97; 109; 112; 59]
  else [c].
(** Msp.sml 219-224 *)
Definition htmlencode (junk : nat -> Z) (s : str) : outcome str := s_translate junk html_encode s.

(** Mosmlcgi.sml 124-131; the local exception Dehex is [FailExn] (it never leaves [decode]) *)
Definition dehex (ch : Z) : outcome Z :=
  if (48 <=? ch) && (ch <=? 57) then Ret (ch - 48)
  else if (65 <=? ch) && (ch <=? 70) then Ret ((ch - 65) + 10)
  else if (97 <=? ch) && (ch <=? 102) then Ret ((ch - 97) + 10)
  else Raise FailExn.
(** Mosmlcgi.sml 132-134 *)
Definition decode_one (sus : substring) (i : Z) : outcome Z :=
  do a <- sub sus (i + 1); do x <- dehex a;
  do b <- sub sus (i + 2); do y <- dehex b;
  Scan_Model.chr (16 * x + y).
(** Mosmlcgi.sml 135-139; [fuel] bounds the recursion depth *)
Fixpoint dec (fuel : nat) (sus : substring) (i : Z) : outcome (list Z) :=
  match fuel with
  | O => Diverge
  | S fuel =>
      if i >=? size sus then Ret []
      else do c <- sub sus i;
           if c =? 43 then do r <- dec fuel sus (i + 1); Ret (32 :: r)
           else if c =? 37 then do x <- decode_one sus i; do r <- dec fuel sus (i + 3); Ret (x :: r)
           else do r <- dec fuel sus (i + 1); Ret (c :: r)
  end.
(** Mosmlcgi.sml 120-143; the message written by err (line 143) is left out *)
Definition decode (junk : nat -> Z) (sus : substring) : outcome str :=
  match (do l <- dec (loop (size sus)) sus 0; implode junk l) with
  | Raise _ => Ret []
  | r => r
  end.

(** The dictionary of Mosmlcgi.sml 145-156 is a Splaymap over String.compare: here the finite map
    it stands for (see C28). *)
Definition dict := str -> option (list str).
Definition str_eqb (s t : str) : bool := if list_eq_dec Z.eq_dec s t then true else false.
Definition d_empty : dict := fun _ => None.
Definition d_insert (d : dict) (k : str) (v : list str) : dict := fun n => if str_eqb n k then Some v else d n.
(** Mosmlcgi.sml 145-148 *)
Definition addItem (kv : str * str) (d : dict) : dict :=
  let '(key, value) := kv in
  d_insert d key (match d key with Some vs => value :: vs | None => [value] end).
(** Mosmlcgi.sml 150-152 *)
Definition addField (junk : nat -> Z) (l : list substring) (d : dict) : outcome dict :=
  match l with
  | [keysrc; valsrc] => do k <- decode junk keysrc; do v <- decode junk valsrc; Ret (addItem (k, v) d)
  | _ => Ret d
  end.
(** Mosmlcgi.sml 155: List.foldr *)
Fixpoint addFields (junk : nat -> Z) (ls : list (list substring)) (d : dict) : outcome dict :=
  match ls with
  | [] => Ret d
  | l :: ls => do d' <- addFields junk ls d; addField junk l d'
  end.
(** Mosmlcgi.sml 110-116, 154-155, for a request that is not multipart *)
Definition cgi_dict (junk : nat -> Z) (query_string : str) : outcome dict :=
  do the_fields <- tokens (fun c => c =? 38) (full query_string);
  do dict_with_codes <- mapM (fields (fun c => c =? 61)) the_fields;
  addFields junk dict_with_codes d_empty.
(** Mosmlcgi.sml 162-165, 247 *)
Definition cgi_field_strings (d : dict) (name : str) : list str :=
  match d name with None => [] | Some vals => vals end.
(** Mosmlcgi.sml 167-170, 248 *)
Definition cgi_field_string (d : dict) (name : str) : option str :=
  match d name with Some (v :: _) => Some v | _ => None end.
