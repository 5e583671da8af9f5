(** The code for a term as a relation, without the compiler's state: labels are only required to stand
    for the code that they should stand for in the program [P], and the numbering of the stack slots is
    the list [vs] of the slots of the variables in scope. *)
From Verif Require Import Base Opcodes Back_Model Back_Spec.

Section Rel.
Variable P : list instr.                (* the program *)
Variable K : list instr.                (* what follows the code in question *)
Variable fv : list Z.
Variable shc : nat -> option lam.
Variable nf : lam -> Prop.              (* terms in which no match fails *)

(** a label for the code *)
Inductive lab : list instr -> Z -> list instr -> Prop :=
| lab_branch l C : lab (Kbranch l :: C) l (Kbranch l :: C)
| lab_label l C : target P l = C ++ K -> lab (Klabel l :: C) l (Klabel l :: C)
| lab_new l C : target P l = C ++ K -> lab C l (Klabel l :: C).
(** a branch to the code *)
Inductive mbr : list instr -> instr -> list instr -> Prop :=
| mbr_return n C : mbr (Kreturn n :: C) (Kreturn n) (Kreturn n :: C)
| mbr_branch l C : mbr (Kbranch l :: C) (Kbranch l) (Kbranch l :: C)
| mbr_raise C : mbr (Kraise :: C) Kraise (Kraise :: C)
| mbr_lreturn l n C : mbr (Klabel l :: Kreturn n :: C) (Kreturn n) (Klabel l :: Kreturn n :: C)
| mbr_label l C : (forall n C', C <> Kreturn n :: C') -> target P l = C ++ K -> mbr (Klabel l :: C) (Kbranch l) (Klabel l :: C)
| mbr_new l C : isReturn C = false -> target P l = C ++ K -> mbr C (Kbranch l) (Klabel l :: C).
(** the same continuation *)
Definition head_ret (C : list instr) : option Z :=
  match C with Kreturn n :: _ => Some n | Klabel _ :: Kreturn n :: _ => Some n | _ => None end.
Inductive goes : list instr -> Z -> Prop :=
| goes_branch l C : goes (Kbranch l :: C) l
| goes_label l C : target P l = C ++ K -> goes (Klabel l :: C) l.
Inductive same : list instr -> list instr -> Prop :=
| same_refl C : same C C
| same_ret C C' n : head_ret C = Some n -> head_ret C' = Some n -> same C C'
| same_goes C C' l : head_ret C = None -> head_ret C' = None -> goes C l -> goes C' l -> same C C'
| same_raise C C' : same (Kraise :: C) (Kraise :: C').
(** a jump through a table *)
Inductive swt : list Z -> list instr -> list instr -> Prop :=
| swt_fall l0 r C : Forall (eq l0) r -> target P l0 = C ++ K -> swt (l0 :: r) (Klabel l0 :: C) (Klabel l0 :: C)
| swt_branch l0 r C D : Forall (eq l0) r -> swt (l0 :: r) C (Kbranch l0 :: D)
| swt_switch t C : swt t C (Kswitch t :: C).

Definition overwrites (C : list instr) : bool :=
  match C with Kquote _ :: _ | Kget_global _ :: _ | Kaccess _ :: _ | Kenvacc _ :: _ => true | _ => false end.
Definition zlen {A} (l : list A) : Z := Z.of_nat (length l).

Inductive cmp : Z * Z -> Z -> list Z -> lam -> list instr -> list instr -> Prop :=
| c_env sf sz vs n C i : n < 0 -> fv_index n 0 fv = Some i -> cmp sf sz vs (Lvar n) C (Kenvacc i :: C)
| c_var sf sz vs n C i : 0 <= n -> (n < zlen vs -> nth_error vs (Z.to_nat n) = Some i) ->
    cmp sf sz vs (Lvar n) C (Kaccess (sz - i) :: C)
| c_assign sf sz vs n e C i O : (0 <= n < zlen vs -> nth_error vs (Z.to_nat n) = Some i) ->
    cmp sf sz vs e (Kassign (sz - i) :: C) O -> cmp sf sz vs (Lassign n e) C O
| c_const_drop sf sz vs c C : overwrites C = true -> cmp sf sz vs (Lconst c) C C
| c_const sf sz vs c C : cmp sf sz vs (Lconst c) C (Kquote c :: C)
| c_appterm sf sz vs b args C C1 O : isReturn C = true ->
    cmp sf (sz + zlen args) vs b (Kappterm (zlen args) (sz + zlen args) :: discardDeadCode C) C1 ->
    cmp_rl sf sz vs args (Kpush :: C1) O -> cmp sf sz vs (Lapply b args) C O
| c_apply sf sz vs b args C C1 O : zlen args < 5 ->
    cmp sf (sz + zlen args) vs b (Kapply (zlen args) :: C) C1 ->
    cmp_rl sf sz vs args (Kpush :: C1) O -> cmp sf sz vs (Lapply b args) C O
| c_apply5 sf sz vs b args C lbl C1 C2 C3 : 5 <= zlen args -> isReturn C = false -> lab C lbl C1 ->
    cmp sf (sz + 3 + zlen args) vs b (Kapply (zlen args) :: C1) C2 ->
    cmp_rl sf (sz + 3) vs args (Kpush :: C2) C3 -> cmp sf sz vs (Lapply b args) C (Kpush_retaddr lbl :: C3)
| c_let_unspec sf sz vs e C O : cmp sf sz vs e C O -> cmp sf sz vs (Llet [e] Lunspec) C O
| c_let sf sz vs args b C O : cmp_let sf (zlen args) sz vs args b C O -> cmp sf sz vs (Llet args b) C O
| c_letrec_rec sf sz vs lbl csz rest b C Cb O :
    cmp sf (sz + 1) (vs ++ [sz + 1]) b (addPop 1 C) Cb ->
    cmp_rl sf sz vs rest (Kclosurerec lbl csz :: Kpush :: Cb) O ->
    cmp sf sz vs (Lletrec [Lprim (Pclosure lbl csz) (Lvar (zlen vs) :: rest)] b) C O
| c_letrec_one sf sz vs lbl csz n rest b C Cb O : n <> zlen vs ->
    cmp sf (sz + 1) (vs ++ [sz + 1]) b (addPop 1 C) Cb ->
    cmp_rl sf sz vs (Lvar n :: rest) (Kclosure lbl csz :: Kpush :: Cb) O ->
    cmp sf sz vs (Lletrec [Lprim (Pclosure lbl csz) (Lvar n :: rest)] b) C O
| c_letrec_nil sf sz vs lbl csz b C Cb :
    cmp sf (sz + 1) (vs ++ [sz + 1]) b (addPop 1 C) Cb ->
    cmp sf sz vs (Lletrec [Lprim (Pclosure lbl csz) []] b) C (Kclosure lbl 0 :: Kpush :: Cb)
| c_letrec sf sz vs args b C O : length args <> 1%nat ->
    cmp_init sf (zlen args) sz vs args args b C O -> cmp sf sz vs (Lletrec args b) C O
| c_succ sf sz vs e C O : cmp sf sz vs e (Kprim (Psimple SMLSUCCINT) :: C) O ->
    cmp sf sz vs (Lprim (Pp (Psimple SMLADDINT)) [e; Lconst (INTscon 1)]) C O
| c_pred sf sz vs e C O : cmp sf sz vs e (Kprim (Psimple SMLPREDINT) :: C) O ->
    cmp sf sz vs (Lprim (Pp (Psimple SMLSUBINT)) [e; Lconst (INTscon 1)]) C O
| c_getg sf sz vs u C : cmp sf sz vs (Lprim (Pget_global u) []) C (Kget_global u :: C)
| c_setg sf sz vs u e C O : cmp sf sz vs e (Kset_global u :: C) O -> cmp sf sz vs (Lprim (Pset_global u) [e]) C O
| c_field sf sz vs i es C O : cmp_lr sf sz vs es (Kgetfield i :: C) O -> cmp sf sz vs (Lprim (Pfield i) es) C O
| c_setfield sf sz vs i es C O : cmp_lr sf sz vs es (Ksetfield i :: C) O -> cmp sf sz vs (Lprim (Psetfield i) es) C O
| c_makeblock sf sz vs t sp es C O : cmp_lr sf sz vs es (Kmakeblock t (zlen es) :: C) O ->
    cmp sf sz vs (Lprim (Pmakeblock t sp) es) C O
| c_not_if sf sz vs e l C O : cmp sf sz vs e (Kbranchifnot l :: C) O -> cmp sf sz vs (Lprim (Pp Pnot) [e]) (Kbranchif l :: C) O
| c_not_ifnot sf sz vs e l C O : cmp sf sz vs e (Kbranchif l :: C) O -> cmp sf sz vs (Lprim (Pp Pnot) [e]) (Kbranchifnot l :: C) O
| c_test_if sf sz vs t es l C O : cmp_lr sf sz vs es (Ktest t l :: C) O -> cmp sf sz vs (Lprim (Pp (Ptest t)) es) (Kbranchif l :: C) O
| c_test_ifnot sf sz vs t t' es l C O : invertBoolTest t = Ret t' -> cmp_lr sf sz vs es (Ktest t' l :: C) O ->
    cmp sf sz vs (Lprim (Pp (Ptest t)) es) (Kbranchifnot l :: C) O
| c_raise sf sz vs es C O : cmp_lr sf sz vs es (Kraise :: discardDeadCode C) O -> cmp sf sz vs (Lprim Praise es) C O
| c_clos sf sz vs lbl csz es C O : cmp_rl sf sz vs es (Kclosure lbl csz :: C) O -> cmp sf sz vs (Lprim (Pclosure lbl csz) es) C O
| c_ident sf sz vs es C O : cmp_lr sf sz vs es C O -> cmp sf sz vs (Lprim (Pp Pidentity) es) C O
| c_prim sf sz vs q es C O : q <> Pidentity -> cmp_lr sf sz vs es (Kprim q :: C) O -> cmp sf sz vs (Lprim (Pp q) es) C O
| c_shandle_fail sf sz vs b C O : cmp sf sz vs b C O -> cmp sf sz vs (Lstatichandle b Lstaticfail) C O
| c_shandle sf sz vs b h C br C1 Ch l C2 O : mbr C br C1 -> cmp sf sz vs h C1 Ch -> lab Ch l C2 ->
    cmp (l, sz) sz vs b (br :: discardDeadCode C2) O -> cmp sf sz vs (Lstatichandle b h) C O
| c_sfail sf sz vs C D : cmp sf sz vs Lstaticfail C (addPop (sz - snd sf) (Kbranch (fst sf) :: D))
| c_handle sf sz vs b h C br C1 l Ch Cb : mbr C br C1 -> target P l = Kpush :: Ch ++ K ->
    cmp sf (sz + 1) (vs ++ [sz + 1]) h (addPop 1 C1) Ch ->
    cmp sf (sz + 4) vs b (Kpoptrap :: br :: Klabel l :: Kpush :: Ch) Cb ->
    cmp sf sz vs (Lhandle b h) C (Kpushtrap l :: Cb)
| c_if sf sz vs c t f C O : cmp_test2 sf sz vs c t f C O -> cmp sf sz vs (Lif c t f) C O
| c_seq sf sz vs a b C C1 O : cmp sf sz vs b C C1 -> cmp sf sz vs a C1 O -> cmp sf sz vs (Lseq a b) C O
| c_while sf sz vs c b C l2 Cc l1 C1 Cb :
    cmp sf sz vs c (Kbranchif l2 :: Kquote constUnit :: C) Cc -> lab Cc l1 C1 -> cmp sf sz vs b C1 Cb ->
    target P l2 = Kcheck_signals :: Cb ++ K ->
    cmp sf sz vs (Lwhile c b) C (Kbranch l1 :: Klabel l2 :: Kcheck_signals :: Cb)
| c_and_goes sf sz vs a b C l C1 O : head_ret C = None -> goes C l -> cmp sf sz vs b C C1 -> cmp sf sz vs a (Kstrictbranchifnot l :: C1) O ->
    cmp sf sz vs (Landalso a b) C O
| c_and_ret sf sz vs a b l n C C1 O : target P l = Kreturn n :: C ++ K -> cmp sf sz vs b (Klabel l :: Kreturn n :: C) C1 ->
    cmp sf sz vs a (Kstrictbranchifnot l :: C1) O -> cmp sf sz vs (Landalso a b) (Klabel l :: Kreturn n :: C) O
| c_and_ifnot sf sz vs a b l C C1 O : cmp sf sz vs b (Kbranchifnot l :: C) C1 -> cmp sf sz vs a (Kbranchifnot l :: C1) O ->
    cmp sf sz vs (Landalso a b) (Kbranchifnot l :: C) O
| c_and_if sf sz vs a b l C l1 C1 C2 O : lab C l1 C1 -> cmp sf sz vs b (Kbranchif l :: C1) C2 ->
    cmp sf sz vs a (Kbranchifnot l1 :: C2) O -> cmp sf sz vs (Landalso a b) (Kbranchif l :: C) O
| c_and_new sf sz vs a b C l C1 O : target P l = C ++ K -> cmp sf sz vs b (Klabel l :: C) C1 ->
    cmp sf sz vs a (Kstrictbranchifnot l :: C1) O -> cmp sf sz vs (Landalso a b) C O
| c_or_goes sf sz vs a b C l C1 O : head_ret C = None -> goes C l -> cmp sf sz vs b C C1 -> cmp sf sz vs a (Kstrictbranchif l :: C1) O ->
    cmp sf sz vs (Lorelse a b) C O
| c_or_ret sf sz vs a b l n C C1 O : target P l = Kreturn n :: C ++ K -> cmp sf sz vs b (Klabel l :: Kreturn n :: C) C1 ->
    cmp sf sz vs a (Kstrictbranchif l :: C1) O -> cmp sf sz vs (Lorelse a b) (Klabel l :: Kreturn n :: C) O
| c_or_if sf sz vs a b l C C1 O : cmp sf sz vs b (Kbranchif l :: C) C1 -> cmp sf sz vs a (Kbranchif l :: C1) O ->
    cmp sf sz vs (Lorelse a b) (Kbranchif l :: C) O
| c_or_ifnot sf sz vs a b l C l1 C1 C2 O : lab C l1 C1 -> cmp sf sz vs b (Kbranchifnot l :: C1) C2 ->
    cmp sf sz vs a (Kbranchif l1 :: C2) O -> cmp sf sz vs (Lorelse a b) (Kbranchifnot l :: C) O
| c_or_new sf sz vs a b C l C1 O : target P l = C ++ K -> cmp sf sz vs b (Klabel l :: C) C1 ->
    cmp sf sz vs a (Kstrictbranchif l :: C1) O -> cmp sf sz vs (Lorelse a b) C O
| c_case_int sf sz vs a cl l t C C1 O : int_clauses cl = Ret l -> compileNBranch l = Ret t -> cl <> [] ->
    cmp_decision sf sz vs t C C1 -> cmp sf sz vs a C1 O -> cmp sf sz vs (Lcase a cl) C O
| c_case_tests sf sz vs a cl br C C1 C2 O : match cl with (c, _) :: _ => int_like c = false | [] => False end ->
    mbr C br C1 -> sz = snd sf -> cmp_tests sf sz vs br C1 cl C2 -> cmp sf sz vs a C2 O -> cmp sf sz vs (Lcase a cl) C O
| c_switch_1 sf sz vs a t e C O : cmp sf sz vs e C O -> cmp sf sz vs (Lswitch 1 a [(t, e)]) C O
| c_switch_0 sf sz vs a e C O : cmp_test2 sf sz vs a Lstaticfail e C O -> cmp sf sz vs (Lswitch 2 a [(0, e)]) C O
| c_switch_01 sf sz vs a e C O : cmp_test2 sf sz vs a e Lstaticfail C O -> cmp sf sz vs (Lswitch 2 a [(1, e)]) C O
| c_switch_2 sf sz vs a e0 e1 C O : cmp_test2 sf sz vs a e1 e0 C O -> cmp sf sz vs (Lswitch 2 a [(0, e0); (1, e1)]) C O
| c_switch_2' sf sz vs a e0 e1 C O : cmp_test2 sf sz vs a e1 e0 C O -> cmp sf sz vs (Lswitch 2 a [(1, e1); (0, e0)]) C O
| c_switch_direct sf sz vs size a cl C br C1 t C2 C3 O : sz = snd sf \/ size = zlen cl -> mbr C br C1 ->
    cmp_case sf sz vs br C1 (repeat (fst sf) (Z.to_nat size)) cl t C2 -> swt t (discardDeadCode C2) C3 ->
    cmp sf sz vs a (Kprim Ptag_of :: C3) O -> cmp sf sz vs (Lswitch size a cl) C O
| c_switch_dec sf sz vs size a cl t C C1 O : compileNBranch cl = Ret t -> cmp_decision sf sz vs t C C1 ->
    cmp sf sz vs a (Kprim Ptag_of :: C1) O -> cmp sf sz vs (Lswitch size a cl) C O
| c_unspec sf sz vs C : cmp sf sz vs Lunspec C C
| c_shared sf sz vs k c C Cc l C1 : shc k = Some c -> cmp sf sz vs c C Cc -> lab Cc l C1 -> cmp sf sz vs (Lshared k) C C1
| c_shared_again sf sz vs k c C D sf' C' Cc l C1 : shc k = Some c -> cmp sf' sz vs c C' Cc -> lab Cc l C1 -> same C' C ->
    0 <= snd sf' <= sz -> (sf' = sf \/ nf c) -> cmp sf sz vs (Lshared k) C (Kbranch l :: D)
with cmp_rl : Z * Z -> Z -> list Z -> list lam -> list instr -> list instr -> Prop :=
| rl_nil sf sz vs C : cmp_rl sf sz vs [] C C
| rl_one sf sz vs e C O : cmp sf sz vs e C O -> cmp_rl sf sz vs [e] C O
| rl_cons sf sz vs e r C C1 O : r <> [] -> cmp sf (sz + zlen r) vs e C C1 -> cmp_rl sf sz vs r (Kpush :: C1) O ->
    cmp_rl sf sz vs (e :: r) C O
with cmp_lr : Z * Z -> Z -> list Z -> list lam -> list instr -> list instr -> Prop :=
| lr_nil sf sz vs C : cmp_lr sf sz vs [] C C
| lr_one sf sz vs e C O : cmp sf sz vs e C O -> cmp_lr sf sz vs [e] C O
| lr_cons sf sz vs e r C C1 O : r <> [] -> cmp_lr sf (sz + 1) vs r C C1 -> cmp sf sz vs e (Kpush :: C1) O ->
    cmp_lr sf sz vs (e :: r) C O
with cmp_let : Z * Z -> Z -> Z -> list Z -> list lam -> lam -> list instr -> list instr -> Prop :=
| let_nil sf na sz vs b C O : cmp sf sz vs b (addPop na C) O -> cmp_let sf na sz vs [] b C O
| let_cons sf na sz vs e r b C C1 O : cmp_let sf na (sz + 1) (vs ++ [sz + 1]) r b C C1 ->
    cmp sf sz vs e (Kpush :: C1) O -> cmp_let sf na sz vs (e :: r) b C O
with cmp_init : Z * Z -> Z -> Z -> list Z -> list lam -> list lam -> lam -> list instr -> list instr -> Prop :=
| init_nil sf na sz vs args b C O : cmp_args sf na sz vs na args b C O -> cmp_init sf na sz vs [] args b C O
| init_cons sf na sz vs lbl csz fre r args b C C1 : cmp_init sf na (sz + 1) (vs ++ [sz + 1]) r args b C C1 ->
    cmp_init sf na sz vs (Lprim (Pclosure lbl csz) fre :: r) args b C (Kprim (Pdummy csz) :: Kpush :: C1)
with cmp_args : Z * Z -> Z -> Z -> list Z -> Z -> list lam -> lam -> list instr -> list instr -> Prop :=
| args_nil sf na sz vs i b C O : cmp sf sz vs b (addPop na C) O -> cmp_args sf na sz vs i [] b C O
| args_cons sf na sz vs i lbl csz fre r b C C1 O : cmp_args sf na sz vs (i - 1) r b C C1 ->
    cmp sf sz vs (Lprim (Pclosure lbl csz) fre) (Kpush :: Kaccess i :: Kprim Pupdate :: C1) O ->
    cmp_args sf na sz vs i (Lprim (Pclosure lbl csz) fre :: r) b C O
with cmp_test2 : Z * Z -> Z -> list Z -> lam -> lam -> lam -> list instr -> list instr -> Prop :=
| t2_so sf sz vs c f C C1 O : sz = snd sf -> cmp sf sz vs f C C1 -> cmp sf sz vs c (Kbranchif (fst sf) :: C1) O ->
    cmp_test2 sf sz vs c Lstaticfail f C O
| t2_not sf sz vs c t C C1 O : sz = snd sf -> cmp sf sz vs t C C1 -> cmp sf sz vs c (Kbranchifnot (fst sf) :: C1) O ->
    cmp_test2 sf sz vs c t Lstaticfail C O
| t2 sf sz vs c t f C br C1 Cn l C2 Cs O : mbr C br C1 -> cmp sf sz vs f C1 Cn -> lab Cn l C2 ->
    cmp sf sz vs t (br :: discardDeadCode C2) Cs -> cmp sf sz vs c (Kbranchifnot l :: Cs) O -> cmp_test2 sf sz vs c t f C O
with cmp_tests : Z * Z -> Z -> list Z -> instr -> list instr -> list (scon * lam) -> list instr -> Prop :=
| ts_one sf sz vs br C1 c e Ce : cmp sf sz vs e C1 Ce -> cmp_tests sf sz vs br C1 [(c, e)] (Ktest (testForAtom c) (fst sf) :: Ce)
| ts_cons sf sz vs br C1 c e r l Cr Ce : r <> [] -> cmp_tests sf sz vs br C1 r Cr -> target P l = Cr ++ K ->
    cmp sf sz vs e (br :: Klabel l :: Cr) Ce -> cmp_tests sf sz vs br C1 ((c, e) :: r) (Ktest (testForAtom c) l :: Ce)
with cmp_cases : Z * Z -> Z -> list Z -> instr -> list instr -> list lam -> list Z -> list instr -> Prop :=
| cs_nil sf sz vs br C : cmp_cases sf sz vs br C [] [] C
| cs_cons sf sz vs br C e v t C1 Ce l C2 : cmp_cases sf sz vs br C v t C1 -> cmp sf sz vs e (br :: discardDeadCode C1) Ce ->
    lab Ce l C2 -> cmp_cases sf sz vs br C (e :: v) (l :: t) C2
with cmp_dec : Z * Z -> Z -> list Z -> instr -> dtree -> list instr -> list instr -> Prop :=
| d_fail sf sz vs br C D : cmp_dec sf sz vs br DTfail C (Kbranch (fst sf) :: D)
| d_int sf sz vs br dl low act high dr C lr Cr ll Cl Ca :
    cmp_side sf sz vs br dr C lr Cr -> cmp_side sf sz vs br dl Cr ll Cl -> cmp_act sf sz vs br act Cl Ca ->
    cmp_dec sf sz vs br (DTinterval dl low act high dr) C (Kbranchinterval low high ll lr :: Ca)
with cmp_side : Z * Z -> Z -> list Z -> instr -> dtree -> list instr -> Z -> list instr -> Prop :=
| side_fail sf sz vs br C : cmp_side sf sz vs br DTfail C (fst sf) C
| side_tree sf sz vs br t C Ct l C1 : cmp_dec sf sz vs br t C Ct -> lab Ct l C1 -> cmp_side sf sz vs br t C l C1
with cmp_act : Z * Z -> Z -> list Z -> instr -> list lam -> list instr -> list instr -> Prop :=
| act_one sf sz vs br a C Ca : cmp sf sz vs a (br :: discardDeadCode C) Ca -> cmp_act sf sz vs br [a] C Ca
| act_many sf sz vs br v C t C1 C2 : cmp_cases sf sz vs br C v t C1 -> swt t (discardDeadCode C1) C2 -> cmp_act sf sz vs br v C C2
with cmp_decision : Z * Z -> Z -> list Z -> dtree -> list instr -> list instr -> Prop :=
| decision sf sz vs t C br C1 O : sz = snd sf -> mbr C br C1 -> cmp_dec sf sz vs br t C1 O -> cmp_decision sf sz vs t C O
with cmp_case : Z * Z -> Z -> list Z -> instr -> list instr -> list Z -> list (Z * lam) -> list Z -> list instr -> Prop :=
| ca_one sf sz vs br C1 t tag e Ce l C2 : cmp sf sz vs e C1 Ce -> lab Ce l C2 -> 0 <= tag < zlen t ->
    cmp_case sf sz vs br C1 t [(tag, e)] (set_nth t (Z.to_nat tag) l) C2
| ca_cons sf sz vs br C1 t tag e r t' Cr Ce l C2 : r <> [] -> cmp_case sf sz vs br C1 t r t' Cr ->
    cmp sf sz vs e (br :: discardDeadCode Cr) Ce -> lab Ce l C2 -> 0 <= tag < zlen t' ->
    cmp_case sf sz vs br C1 t ((tag, e) :: r) (set_nth t' (Z.to_nat tag) l) C2.
End Rel.
