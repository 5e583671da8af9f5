(** Vocabulary for C54: what an encoded text stands for. *)
From Verif Require Import Base ArrayLib.

(** the value of a hexadecimal digit *)
Definition hex_value (c : Z) : option Z :=
  if (48 <=? c) && (c <=? 57) then Some (c - 48)
  else if (65 <=? c) && (c <=? 70) then Some (c - 55)
  else if (97 <=? c) && (c <=? 102) then Some (c - 87)
  else None.
(** application/x-www-form-urlencoded: "+" is a space, "%xy" the character of code xy, any other
    character itself; None if a "%" is not followed by two hexadecimal digits *)
Fixpoint url_text (t : list Z) : option (list Z) :=
  match t with
  | [] => Some []
  | c :: r =>
      if c =? 37 then
        match r with
        | a :: b :: r' =>
            match hex_value a, hex_value b, url_text r' with
            | Some x, Some y, Some s => Some (16 * x + y :: s)
            | _, _, _ => None
            end
        | _ => None
        end
      else match url_text r with Some s => Some ((if c =? 43 then 32 else c) :: s) | None => None end
  end.
(** the characters that stand for themselves in a query, "+" and "%" *)
Definition url_safe (c : Z) : Prop :=
  48 <= c <= 57 \/ 65 <= c <= 90 \/ 97 <= c <= 122 \/ In c [43; 45; 46; 95; 37].
(** [html_shows t s]: a browser shows the text [t] of an element as [s] *)
Inductive html_shows : list Z -> list Z -> Prop :=
| hs_nil : html_shows [] []
| hs_char c t s : c <> 60 -> c <> 62 -> c <> 38 -> html_shows t s -> html_shows (c :: t) (c :: s)
| hs_lt t s : html_shows t s -> html_shows ([38; 108; 116; 59] ++ t) (60 :: s)
| hs_gt t s : html_shows t s -> html_shows ([38; 103; 116; 59] ++ t) (62 :: s)
| hs_amp t s : html_shows t s -> html_shows ([38; 97; 109; 112; 59] ++ t) (38 :: s).
(** the query k1=v1&k2=v2&...&kn=vn *)
Definition pair_text (p : list Z * list Z) : list Z := fst p ++ 61 :: snd p.
Fixpoint query_text (ps : list (list Z * list Z)) : list Z :=
  match ps with
  | [] => []
  | [p] => pair_text p
  | p :: ps => pair_text p ++ 38 :: query_text ps
  end.
(** the values given for a name, in order *)
Definition values_of (name : list Z) (ps : list (list Z * list Z)) : list (list Z) :=
  List.map snd (filter (fun p => if list_eq_dec Z.eq_dec name (fst p) then true else false) ps).
