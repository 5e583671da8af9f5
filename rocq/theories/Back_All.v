(** The code of a term does what the term means: all terms, by induction on the fuel. *)
From Verif Require Import Base Opcodes Back_Model Back_Spec Back_Rel.
From Verif Require Import Back_Sim Back_Goal Back_Tree Back_Main Back_Lists Back_Terms Back_Defs Back_Prims Back_Ok Back_Head Back_Ctl Back_Case.

Theorem sim_all mp p P base F shc nf : code_ok P F shc nf -> prims_ok mp p F ->
  (forall c m fv cl s s', nf c -> eval p (prim_arity mp) F shc m fv cl c s <> Some (RF, s')) ->
  forall n, sim mp p P base F shc nf n.
Proof.
  intros CO PO NF. induction n as [|n IH]; intros e.
  - intros fv cl s r s' HE. discriminate HE.
  - destruct e.
    + now apply t_var.
    + now apply t_const.
    + now apply t_apply.
    + intros fv cl s r s' HE. discriminate HE.
    + now apply t_let.
    + now apply t_letrec.
    + now apply t_prim.
    + now apply t_case.
    + now apply t_switch.
    + now apply t_sfail.
    + now apply t_shandle.
    + now apply t_handle.
    + now apply t_if.
    + now apply t_seq.
    + now apply t_while.
    + now apply t_and.
    + now apply t_or.
    + now apply t_unspec.
    + now apply t_shared.
    + now apply t_assign.
Qed.
