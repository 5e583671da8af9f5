(** Model of compiler/Infixst.sml (resolveInfix), the resolution of infix operators. *)
From Verif Require Import Base.

(** Globals.sml 14-17: InfixStatus, the fixity of an identifier *)
Inductive fixity := NONFIXst | INFIXst (n : Z) | INFIXRst (n : Z).

Section Resolve.
Variables (Obj IdInfo : Type).
(** Infixst.sml 8-13, the record iStackStr.  For patterns applyObj may stop compilation with an error
    message (Infixres.sml 63-67); here the functions are total. *)
Variable pair : Obj -> Obj -> Obj.
Variable asId : Obj -> option IdInfo.
Variable applyId : IdInfo -> Obj -> Obj.
Variable applyObj : Obj -> Obj -> Obj.
(** statusOfId (List.hd (#id (#qualid ii))), Infixst.sml 77: asId returns only identifiers of one
    component (Infixres.sml 15-24, 51-59), so hd is defined *)
Variable statusOfId : IdInfo -> fixity.

(** Infixst.sml 15-19 *)
Inductive entry := INFIXentry (ii : IdInfo) (n : Z) | INFIXRentry (ii : IdInfo) (n : Z) | APPentry.
(** Infixst.sml 21 *)
Inductive lastobj := ARG | OPER | VOID.
(** Infixst.sml 5-6, with the results of the functions below *)
Inductive res (A : Type) := Done (x : A) | WrongInfix | MixedAssociativity | OutOfFuel.
Arguments Done {A}. Arguments WrongInfix {A}. Arguments MixedAssociativity {A}. Arguments OutOfFuel {A}.
Definition rbind {A B} (m : res A) (f : A -> res B) : res B :=
  match m with Done x => f x | WrongInfix => WrongInfix | MixedAssociativity => MixedAssociativity | OutOfFuel => OutOfFuel end.

(** Infixst.sml 28-37 *)
Definition apply (e : entry) (output : list Obj) : res (list Obj) :=
  match output with
  | o2 :: o1 :: rest =>
      let thePair := pair o1 o2 in
      Done (match e with
            | INFIXentry ii _ => applyId ii thePair
            | INFIXRentry ii _ => applyId ii thePair
            | APPentry => applyObj o1 o2
            end :: rest)
  | _ => WrongInfix
  end.

(** Infixst.sml 42-44 *)
Definition extract (e : entry) : res (Z * bool) :=
  match e with
  | INFIXentry _ n => Done (n, true)
  | INFIXRentry _ n => Done (n, false)
  | APPentry => WrongInfix
  end.

(** Infixst.sml 39-52 *)
Definition assocLeft (e1 e2 : entry) : res bool :=
  match e1, e2 with
  | APPentry, _ => Done true
  | _, APPentry => Done false
  | _, _ =>
      rbind (extract e1) (fun '(prec1, left1) =>
      rbind (extract e2) (fun '(prec2, left2) =>
      if prec2 <? prec1 then Done true
      else if prec1 <? prec2 then Done false
      else if Bool.eqb left1 left2 then Done left1
      else MixedAssociativity))
  end.

(** Infixst.sml 54-61 *)
Fixpoint flushHigher (e : entry) (stack : list entry) (output : list Obj) : res (list entry * list Obj) :=
  match stack with
  | [] => Done ([], output)
  | top :: rest =>
      rbind (assocLeft top e) (fun b =>
      if b : bool then rbind (apply top output) (fun output => flushHigher e rest output)
      else Done (stack, output))
  end.

(** Infixst.sml 63-68 *)
Fixpoint flushAll (stack : list entry) (output : list Obj) : res Obj :=
  match stack with
  | [] => match output with [item] => Done item | _ => WrongInfix end
  | top :: rest => rbind (apply top output) (fun output => flushAll rest output)
  end.

(** Infixst.sml 70-100.  The recursion through operator APPentry repeats the same input, hence the fuel. *)
Fixpoint process (fuel : nat) (input : list Obj) (stack : list entry) (last : lastobj) (output : list Obj) : res Obj :=
  match fuel with
  | O => OutOfFuel
  | S fuel =>
    let operator e input stack output :=
      rbind (flushHigher e stack output) (fun '(stack', output') => process fuel input (e :: stack') OPER output') in
    match input with
    | [] => flushAll stack output
    | this :: rest =>
        match asId this with
        | Some ii =>
            match statusOfId ii with
            | INFIXst n => operator (INFIXentry ii n) rest stack output
            | INFIXRst n => operator (INFIXRentry ii n) rest stack output
            | NONFIXst =>
                match last with
                | ARG => operator APPentry input stack output
                | _ => process fuel rest stack ARG (this :: output)
                end
            end
        | None =>
            match last with
            | ARG => operator APPentry input stack output
            | _ => process fuel rest stack ARG (this :: output)
            end
        end
    end
  end.

(** Infixst.sml 102 *)
Definition resolveInfix (objs : list Obj) : res Obj :=
  process (2 * length objs + 1) objs [] VOID [].
End Resolve.
Arguments Done {A}. Arguments WrongInfix {A}. Arguments MixedAssociativity {A}. Arguments OutOfFuel {A}.
Arguments INFIXentry {IdInfo}. Arguments INFIXRentry {IdInfo}. Arguments APPentry {IdInfo}.
Arguments resolveInfix {Obj IdInfo}.
