(** C40 and C46: calls of functions of several arguments; the code of a program computes what the program means.
    Both are about the output of Back_Model.compileLambda, run by Zam_Model.step. *)
From Verif Require Import Base Value_Model Real_Model Opcodes Back_Model Back_Spec Back_Rel Back_Sim Back_Goal Back_Main Back_Lists Back_All Back_Frame Back_Comp Back_Gen Back_Prog Back_Lift Lam_Spec.

(** compileLambda and Emit_phr.sml 24-30, with what UNdeBruijn makes of the term (its functions given labels), and with
    the log of the uses of shared nodes *)
Definition start (shared : list lam) : bst :=
  mkB 0 (Nolabel - 1) (map (fun c => (c, Nolabel)) shared) [] [] 0 (repeat (-1) (Z.to_nat 4000)) [].
Definition phrase (fuel : nat) (e : lam) (shared : list lam) : outcome (lam * bst * list instr * list visit) :=
  do (qe, s0) <- UNdeBruijn fuel e (start shared);
  do (inits, s1) <- compexp fuel [] (Nolabel, 0) 0 0 (snd qe) [] s0;
  do (funcs, s2) <- compileRest (S (length (still s1))) fuel [] s1;
  Ret (snd qe, s0, program inits funcs, seen s2).
Lemma phrase_code fuel e shared inits funcs : compileLambda fuel e shared = Ret (inits, funcs) <->
  exists e' s0 log s1 s2 q, UNdeBruijn fuel e (start shared) = Ret (q, e', s0) /\ compexp fuel [] (Nolabel, 0) 0 0 e' [] s0 = Ret (inits, s1) /\
    compileRest (S (length (still s1))) fuel [] s1 = Ret (funcs, s2) /\ log = seen s2 /\ phrase fuel e shared = Ret (e', s0, program inits funcs, log).
Proof.
  unfold compileLambda, phrase. split.
  - intros H. change (mkB 0 (Nolabel - 1) (map (fun c => (c, Nolabel)) shared) [] [] 0 (repeat (-1) (Z.to_nat 4000)) []) with (start shared) in H.
    destruct (UNdeBruijn fuel e (start shared)) as [[[q e'] s0]| | |]; try discriminate. cbn [bind snd] in *.
    destruct (compexp fuel [] (Nolabel, 0) 0 0 e' [] s0) as [[i s1]| | |] eqn:E1; try discriminate. cbn [bind] in *.
    destruct (compileRest (S (length (still s1))) fuel [] s1) as [[f s2]| | |] eqn:E2; try discriminate. cbn [bind] in *.
    injection H as -> ->. exists e', s0, (seen s2), s1, s2, q. auto 10.
  - intros (e' & s0 & log & s1 & s2 & q & E1 & E2 & E3 & _ & _).
    change (mkB 0 (Nolabel - 1) (map (fun c => (c, Nolabel)) shared) [] [] 0 (repeat (-1) (Z.to_nat 4000)) []) with (start shared).
    rewrite E1. cbn [bind snd]. rewrite E2. cbn [bind]. rewrite E3. reflexivity.
Qed.
Lemma phrase_inv fuel e shared e' s0 P log : phrase fuel e shared = Ret (e', s0, P, log) ->
  lifted s0 /\ exists inits funcs s1 s2, compexp fuel [] (Nolabel, 0) 0 0 e' [] s0 = Ret (inits, s1) /\
    compileRest (S (length (still s1))) fuel [] s1 = Ret (funcs, s2) /\ log = seen s2 /\ P = program inits funcs /\
    compileLambda fuel e shared = Ret (inits, funcs).
Proof.
  unfold phrase. intros H. destruct (UNdeBruijn fuel e (start shared)) as [[[q e1] s1]| | |] eqn:E0; try discriminate. cbn [bind snd] in *.
  destruct (compexp fuel [] (Nolabel, 0) 0 0 e1 [] s1) as [[i s2]| | |] eqn:E1; try discriminate. cbn [bind] in *.
  destruct (compileRest (S (length (still s2))) fuel [] s2) as [[f s3]| | |] eqn:E2; try discriminate. cbn [bind] in *.
  injection H as <- <- <- <-. split. { eapply undb_lifted. exact E0. }
  exists i, f, s2, s3. repeat (split; auto). unfold compileLambda.
  change (mkB 0 (Nolabel - 1) (map (fun c => (c, Nolabel)) shared) [] [] 0 (repeat (-1) (Z.to_nat 4000)) []) with (start shared).
  rewrite E0. cbn [bind snd]. rewrite E1. cbn [bind]. rewrite E2. reflexivity.
Qed.

(** ** Reading a result *)
(** The machine's value [a] in the heap [h] is the value [v] of the store [s], to any depth: the same numbers,
    the same constructors, blocks with the same tag and the same fields; functions are functions. *)
Fixpoint reads (d : nat) (s : store) (v : sval) (h : heap_t) (a : value) : Prop :=
  match d with
  | O => True
  | S d =>
      match v with
      | SNum n => a = VInt n
      | SAtom t => a = VAtom t
      | SLoc l =>
          match nth_error s l with
          | Some (Blk t vs) => exists ad avs, a = VPtr ad /\ nth_error h ad = Some (mkBlock t avs) /\ Forall2 (fun v a => reads d s v h a) vs avs
          | Some (Clo _ _) => exists ad c avs, a = VPtr ad /\ nth_error h ad = Some (mkBlock Closure_tag (c :: avs))
          | None => False
          end
      | SPap _ _ => exists ad c avs, a = VPtr ad /\ nth_error h ad = Some (mkBlock Closure_tag (c :: avs))
      | SAny => True
      end
  end.
Lemma vrel_reads F mp p w s h g gm : Inv F mp p w s h g gm -> forall d v a, vrel F w s h v a -> reads d s v h a.
Proof.
  intros I. induction d as [|d IH]; intros v a H; [exact I0 || exact Logic.I|]. cbn [reads].
  destruct v as [n | t | l | l args |]; cbn [vrel] in H; auto.
  - destruct H as (ad & W & ->).
    assert (HL : (l < length s)%nat). { rewrite <- (i_len _ _ _ _ _ _ _ _ I). apply nth_error_Some. congruence. }
    destruct (nth_error s l) as [b|] eqn:ES; [|apply nth_error_None in ES; lia].
    destruct (i_blk _ _ _ _ _ _ _ _ I _ _ ES) as (ad1 & m & W1 & H1 & B). rewrite W in W1. injection W1 as <-.
    destruct b as [t vs | lbl vs]; destruct B as (avs & -> & A).
    + exists ad, avs. split; auto. split; auto. clear - A IH. induction A; constructor; auto.
    + exists ad, (VCode lbl), avs. auto.
  - destruct H as (ad & lbl & vs & ad' & avs & fd & -> & _ & _ & _ & _ & _ & _ & H & _). do 3 eexists. split; [reflexivity | exact H].
Qed.

(** ** C46 *)
Lemma steps_run mp P base s1 s2 : steps mp P base s1 s2 -> exists k, run mp P base k s1 = s2.
Proof. induction 1 as [s | s s1 s2 E H (k & IH)]; [now exists O|]. exists (S k). cbn [run]. now rewrite E. Qed.

(** The machine, started on the code of a phrase with a heap and globals that represent the store, stops; what it leaves
    is what the evaluator gives for the term whose functions have been given labels.  [shared_ok]: the uses of
    each shared node are alike.  Missing: that UNdeBruijn keeps the meaning, which is false in general
    (C46_shared_refuted); that shared_ok holds. *)
Theorem C46_code_partial : forall fuel e shared e' s0 P log mp p st g w h gm n r s' acc ev,
  phrase fuel e shared = Ret (e', s0, P, log) -> shared_ok log -> prims_ok mp p (funs (still s0)) ->
  Inv (funs (still s0)) mp p w st h g gm ->
  eval p (prim_arity mp) (funs (still s0)) (contents (sh s0)) n [] [] e' (mkS [] st g) = Some (r, s') ->
  r <> RF ->
  exists k m, run mp P 0 k (mkM P acc [] ev 0 0 h gm) = m /\ step mp P 0 m = None /\
    match r with
    | RV v => pc m = [] /\ sp m = [] /\ forall d, reads d (sto s') v (heap m) (accu m)
    | RX v => (exists c, pc m = Kraise :: c) /\ forall d, reads d (sto s') v (heap m) (accu m)
    | RF => False
    end.
Proof.
  intros fuel e shared e' s0 P log mp p st g w h gm n r s' acc ev HP SOK PO HI HE NR.
  destruct (phrase_inv _ _ _ _ _ _ _ HP) as (HL & inits & funcs & s1 & s2 & E1 & E2 & -> & -> & _).
  destruct (prog_sim fuel _ e' s0 s1 s2 inits funcs HL E1 E2 SOK mp p 0 n st g r s' w h gm [] 0 ev acc PO HE HI eq_refl (Z.le_refl 0))
    as (w' & h' & gm' & X & I' & R).
  destruct r as [v | v |]; [| |easy].
  - destruct R as (a & V & S). destruct (steps_run _ _ _ _ _ S) as (k & K). exists k, (mkM [] a [] ev 0 0 h' gm'). split; auto. split; auto.
    split; auto. split; auto. intros d. cbn [heap accu]. eapply vrel_reads; eauto.
  - destruct R as (m & V & S & R1 & R2 & <- & <-). destruct (steps_run _ _ _ _ _ S) as (k & K). exists k, m. split; auto. split; auto.
    split; auto. intros d. eapply vrel_reads; eauto.
Qed.
Print Assumptions C46_code_partial.

(** ** Concrete primitives: integer arithmetic with overflow *)
Definition iop (q : Z) (a b : Z) : option Z :=
  if q =? SMLADDINT then Some (a + b) else if q =? SMLSUBINT then Some (a - b) else if q =? SMLMULINT then Some (a * b) else None.
Definition iop1 (q : Z) (a : Z) : option Z := if q =? SMLSUCCINT then Some (a + 1) else if q =? SMLPREDINT then Some (a - 1) else None.
Definition ires (r : option Z) (s : store) : option (bool * sval * store) :=
  match r with Some x => if in_intb x then Some (true, SNum x, s) else Some (false, SAtom 9, s) | None => None end.
Definition iresm (r : option Z) (h : heap_t) : option (bool * value * heap_t) :=
  match r with Some x => if in_intb x then Some (true, VInt x, h) else Some (false, VAtom 9, h) | None => None end.
Definition sp0 : sprims := mkSP (fun k => SNum k)
  (fun q vs s => match q, vs with
                 | Psimple q, [SNum a; SNum b] => ires (iop q a b) s
                 | Psimple q, [SNum a] => ires (iop1 q a) s
                 | _, _ => None end)
  (fun _ _ _ _ => None).
Definition mp0 : prims := mkPrims (fun k => VInt k)
  (fun q => match q with Psimple q => if (q =? SMLSUCCINT) || (q =? SMLPREDINT) then 1%nat else 2%nat | _ => O end)
  (fun q vs s => match q, vs with
                 | Psimple q, [VInt a; VInt b] => iresm (iop q a b) s
                 | Psimple q, [VInt a] => iresm (iop1 q a) s
                 | _, _ => None end)
  (fun _ _ _ _ => None).
Lemma prims0 F : prims_ok mp0 sp0 F.
Proof.
  assert (R : forall r s b v s' w h g gm, ires r s = Some (b, v, s') -> Inv F mp0 sp0 w s h g gm ->
    exists a w' h', iresm r h = Some (b, a, h') /\ ext w s h w' s' h' /\ Inv F mp0 sp0 w' s' h' g gm /\ vrel F w' s' h' v a).
  { intros r s b v s' w h g gm H I. destruct r as [x|]; [|discriminate]. cbn [ires iresm] in *.
    destruct (in_intb x); injection H as <- <- <-; [exists (VInt x) | exists (VAtom 9)]; exists w, h; (split; [reflexivity | split; [apply ext_refl | split; [auto | reflexivity]]]). }
  assert (AR : forall v s r, iop SMLADDINT v 1 = r -> iop1 SMLSUCCINT v = r /\ s = s :> store) by (intros v s r <-; cbn; auto).
  constructor; try reflexivity; try discriminate.
  - intros q vs avs b v s s' w h g gm H V I. cbn [sprim sp0 prim_sem mp0] in *.
    destruct q; try discriminate. destruct V as [|x a xs as' V1 V]; [discriminate|]. destruct x; try discriminate. cbn [vrel] in V1. subst a.
    destruct V as [|x a xs as' V1 V]. { eapply R; eauto. }
    destruct x; try discriminate. cbn [vrel] in V1. subst a. destruct V; [|discriminate]. eapply R; eauto.
  - intros v s r H. cbn [sprim sp0] in *. destruct v; try discriminate. exact H.
  - intros v s r H. cbn [sprim sp0] in *. destruct v; try discriminate. exact H.
Qed.
Lemma Inv0 F : Inv F mp0 sp0 [] [] [] [] [].
Proof. constructor; auto; try easy; [constructor | intros l b H; destruct l; discriminate]. Qed.

(** ** A program with recursion, partial application, over-application, an exception, a handler, and a shared node that
    is used twice *)
Definition num n := Lconst (INTscon n).
Definition arith q a b := Lprim (Pp (Psimple q)) [a; b].
Definition fact := Lfn (Lif (Lprim (Pp (Ptest (Pint_test PTeq))) [Lvar 0; num 0]) (num 1)
  (arith SMLMULINT (Lvar 0) (Lapply (Lvar 1) [arith SMLSUBINT (Lvar 0) (num 1)]))).
Definition triple := Lfn (Lfn (Lfn (Lprim (Pmakeblock 3 9) [Lvar 2; Lvar 1; Lvar 0]))).
(* fn x => fn y => fn z => fn t => (x, t) after z has been applied to y *)
Definition prog1 : lam :=
  Lletrec [fact]
  (Llet [triple; Lapply (Lvar 0) [num 1; Lapply (Lvar 1) [num 10]];
         Lhandle (Lapply (Lvar 2) [num 30]) (Lprim (Pmakeblock 0 1) [Lvar 0; Lvar 1]);
         Lfn (Lvar 2);
         Lapply (Lvar 0) [num 0; num 7]]
    (Lif (Lprim (Pp (Ptest (Pint_test PTlt))) [num 1; num 2])
      (Lif (Lprim (Pp (Ptest (Pint_test PTlt))) [num 2; num 2]) (Lshared 0) (Lshared 0))
      (num 0))).
Definition shared1 := [Lprim (Pmakeblock 1 2) [Lvar 0; Lvar 2]].

Ltac visits := repeat match goal with H : In _ (_ :: _) |- _ => destruct H as [<- | H] | H : In _ [] |- _ => destruct H end.
Example C46_example : exists e' s0 P log s',
  phrase 30 prog1 shared1 = Ret (e', s0, P, log) /\ shared_ok log /\ length log = 2%nat /\
  prims_ok mp0 sp0 (funs (still s0)) /\ Inv (funs (still s0)) mp0 sp0 [] [] [] [] [] /\
  eval sp0 (prim_arity mp0) (funs (still s0)) (contents (sh s0)) 300 [] [] e' (mkS [] [] []) = Some (RV (SLoc 5), s') /\
  nth_error (sto s') 5 = Some (Blk 1 [SLoc 4; SLoc 2]) /\ nth_error (sto s') 4 = Some (Blk 3 [SNum 1; SNum 3628800; SNum 7]).
Proof.
  assert (E : match phrase 30 prog1 shared1 with
              | Ret (e', s0, P, log) => shared_ok log /\ length log = 2%nat /\
                  match eval sp0 (prim_arity mp0) (funs (still s0)) (contents (sh s0)) 300 [] [] e' (mkS [] [] []) with
                  | Some (RV (SLoc 5), s') => nth_error (sto s') 5 = Some (Blk 1 [SLoc 4; SLoc 2]) /\ nth_error (sto s') 4 = Some (Blk 3 [SNum 1; SNum 3628800; SNum 7])
                  | _ => False end
              | _ => False end).
  { destruct (phrase 30 prog1 shared1) as [[[[e' s0] P] log]| | |] eqn:E; [|vm_compute in E; discriminate..].
    assert (EL : log = match phrase 30 prog1 shared1 with Ret (_, _, _, l) => l | _ => [] end) by now rewrite E.
    vm_compute in EL. split; [|split].
    - rewrite EL. intros v v' H1 H2 _. clear E EL. visits; cbn; (split; [reflexivity|split;[reflexivity|split;[reflexivity|split;[reflexivity|]]]]);
        right; right; left; (split; [reflexivity|split; [reflexivity|exists 4; split; reflexivity]]).
    - rewrite EL. reflexivity.
    - assert (EV : match phrase 30 prog1 shared1 with Ret (e', s0, _, _) =>
         eval sp0 (prim_arity mp0) (funs (still s0)) (contents (sh s0)) 300 [] [] e' (mkS [] [] []) | _ => None end =
         eval sp0 (prim_arity mp0) (funs (still s0)) (contents (sh s0)) 300 [] [] e' (mkS [] [] [])) by now rewrite E.
      rewrite <- EV. vm_compute. split; reflexivity. }
  destruct (phrase 30 prog1 shared1) as [[[[e' s0] P] log]| | |] eqn:EP; try contradiction. destruct E as (E1 & E2 & E3).
  destruct (eval _ _ _ _ _ _ _ _ _) as [[[[ | | l | | ] | | ] s']|] eqn:EV; try contradiction.
  do 5 (destruct l as [|l]; [contradiction|]). destruct l as [|l]; [|contradiction]. destruct E3 as (E3 & E4).
  exists e', s0, P, log, s'. split; auto. split; auto. split; auto. split; [apply prims0|]. split; [apply Inv0|]. auto.
Qed.

(** ** Findings *)
(** The contents of a shared node are changed before it is found that a variable must not be replaced by its definition,
    and stay changed (Back.sml 293-384): here the source gives the number 5, and the code a pointer. *)
Definition prog2 : lam :=
  Llet [Lprim (Pmakeblock 0 1) [num 5];
        Lif (Lconst (EMPTYsc 0)) (Lshared 0) (Lif (Lconst (EMPTYsc 1)) (Lshared 0) (num 0));
        Lapply (Lfn (num 0)) [Lvar 1]]
    (Lvar 1).
Definition shared2 := [Lprim (Pfield 0) [Lvar 0]].
Theorem C46_shared_refuted : exists e shared inits funcs s k m,
  compileLambda 30 e shared = Ret (inits, funcs) /\
  lev sp0 (prim_arity mp0) (nth_error shared) 30 [] e (mkX [] [] []) = Some (RV (SNum 5), s) /\
  run mp0 (program inits funcs) 0 k (mkM (program inits funcs) (VInt 0) [] (VInt 0) 0 0 [] []) = m /\
  step mp0 (program inits funcs) 0 m = None /\ pc m = [] /\ accu m <> VInt 5.
Proof.
  assert (E : match compileLambda 30 prog2 shared2 with
              | Ret (i, f) => let m := run mp0 (program i f) 0 200 (mkM (program i f) (VInt 0) [] (VInt 0) 0 0 [] []) in
                  match lev sp0 (prim_arity mp0) (nth_error shared2) 30 [] prog2 (mkX [] [] []) with Some (RV (SNum 5), _) => True | _ => False end /\
                  step mp0 (program i f) 0 m = None /\ pc m = [] /\ accu m <> VInt 5
              | _ => False end).
  { vm_compute. split; [exact I|]. split; auto. split; auto. discriminate. }
  destruct (compileLambda 30 prog2 shared2) as [[i f]| | |] eqn:EC; try contradiction. cbv zeta in E. destruct E as (E1 & E2 & E3 & E4).
  destruct (lev _ _ _ _ _ _ _) as [[[[ [|x|] | | | | ] | | ] s']|] eqn:EV; try contradiction.
  destruct x as [x | x |]; try contradiction. destruct x as [x | x |]; try contradiction. destruct x; try contradiction.
  exists prog2, shared2, i, f, s', 200%nat, (run mp0 (program i f) 0 200 (mkM (program i f) (VInt 0) [] (VInt 0) 0 0 [] [])). auto 10.
Qed.
Print Assumptions C46_shared_refuted.

(** A comparison of reals in a condition is compiled to the opposite comparison (Back.sml 229-247), which is not its negation
    when one of them is not a number: if NaN < 1.0 then 1 else 2 gives 1.  Reals are 64 bits here (as literals;
    floattest, interp.c 1348-1358; C's < and == on doubles as in Value_Model). *)
Definition dcmp (t : prim_test) (a b : Z) : option bool :=
  match t with
  | PTeq => Some (deq a b) | PTnoteq => Some (negb (deq a b)) | PTlt => Some (dlt a b) | PTgt => Some (dlt b a)
  | PTle => Some (dle a b) | PTge => Some (dle b a) | PTnoteqimm _ => None
  end.
Definition sp1 : sprims := mkSP SNum (fun _ _ _ => None) (fun t a b _ => match t, a, b with Pfloat_test t, SNum a, SNum b => dcmp t a b | _, _, _ => None end).
Definition mp1 : prims := mkPrims VInt (fun _ => O) (fun _ _ _ => None) (fun t a b _ => match t, a, b with Pfloat_test t, VInt a, VInt b => dcmp t a b | _, _, _ => None end).
Definition prog3 (nan one : Z) : lam :=
  Lif (Lprim (Pp (Ptest (Pfloat_test PTlt))) [Lconst (OTHERsc nan); Lconst (OTHERsc one)]) (num 1) (num 2).
Theorem C46_nan_refuted : exists nan one inits funcs s k m,
  let e := prog3 nan one in
  dexp nan = 2047 /\ dfrac nan <> 0 /\
  compileLambda 30 e [] = Ret (inits, funcs) /\
  lev sp1 (prim_arity mp1) (nth_error []) 30 [] e (mkX [] [] []) = Some (RV (SNum 2), s) /\
  run mp1 (program inits funcs) 0 k (mkM (program inits funcs) (VInt 0) [] (VInt 0) 0 0 [] []) = m /\
  step mp1 (program inits funcs) 0 m = None /\ pc m = [] /\ accu m = VInt 1.
Proof.
  set (e := prog3 9221120237041090560 4607182418800017408).
  assert (E : match compileLambda 30 e [] with
              | Ret (i, f) => let m := run mp1 (program i f) 0 50 (mkM (program i f) (VInt 0) [] (VInt 0) 0 0 [] []) in
                  step mp1 (program i f) 0 m = None /\ pc m = [] /\ accu m = VInt 1
              | _ => False end).
  { vm_compute. split; auto. }
  assert (EL : lev sp1 (prim_arity mp1) (nth_error []) 30 [] e (mkX [] [] []) = Some (RV (SNum 2), mkX [] [] [])) by (vm_compute; reflexivity).
  destruct (compileLambda 30 e []) as [[i f]| | |] eqn:EC; try contradiction. cbv zeta in E. destruct E as (E1 & E2 & E3).
  exists 9221120237041090560, 4607182418800017408, i, f, (mkX [] [] []), 50%nat, (run mp1 (program i f) 0 50 (mkM (program i f) (VInt 0) [] (VInt 0) 0 0 [] [])).
  cbv zeta. split; [reflexivity|]. split; [discriminate|]. split; [exact EC|]. split; [exact EL|]. split; [reflexivity|]. auto.
Qed.
Print Assumptions C46_nan_refuted.

(** The compiler itself overflows when the keys of a case on integers are too far apart (compileNBranch, Back.sml 176-193:
    the difference of two keys). *)
Definition prog4 : lam :=
  Lcase (num 5) [(SInt (- 2 ^ 62), num 1); (SInt 0, num 2); (SInt 5, num 3); (SInt (2 ^ 62 - 1), num 4)].
Theorem C46_keys_refuted : exists e s, lev sp0 (prim_arity mp0) (nth_error []) 30 [] e (mkX [] [] []) = Some (RV (SNum 3), s) /\
  compileLambda 30 e [] = Raise Overflow.
Proof. exists prog4, (mkX [] [] []). split; vm_compute; reflexivity. Qed.
Print Assumptions C46_keys_refuted.

(** ** C40 *)
(** A call of the function [af] with the arguments [avs], to go on with the code [C] in the state R, ev, x: APPLY1 to
    APPLY4 make the return frame themselves; APPLY finds it below the arguments; APPTERM replaces a frame of its function
    with the arguments [bvs] that this function had got beside its own. *)
Inductive calls (C : list instr) (af : value) (R : list value) (ev : value) (x t : Z) (h : heap_t) (gm : globals) : list value -> mst -> Prop :=
| call_few avs : zlen avs < 5 -> calls C af R ev x t h gm avs (mkM (Kapply (zlen avs) :: C) af (avs ++ R) ev x t h gm)
| call_many avs D e1 x1 : 5 <= zlen avs ->
    calls C af R ev x t h gm avs (mkM (Kapply (zlen avs) :: D) af (avs ++ VPc C :: ev :: VInt x :: R) e1 x1 t h gm)
| call_tail avs T bvs D e1 : avs <> [] ->
    calls C af R ev x t h gm (avs ++ bvs)
      (mkM (Kappterm (zlen avs) (zlen avs + zlen T) :: D) af (avs ++ T ++ bvs ++ VPc C :: ev :: VInt x :: R) e1 (zlen bvs) t h gm).

(** In the code of any phrase, a call with any number of arguments gives what applying the function to the arguments one
    at a time gives ([apps]: a function that has not got all its arguments is a function of the others): from the call, and from
    the code that follows with the result in accu, the machine reaches the same state ([J]); or it raises the same
    exception. *)
Theorem C40_calls : forall fuel e shared e' s0 P log mp p n f xs st g r st' g',
  phrase fuel e shared = Ret (e', s0, P, log) -> shared_ok log ->
  let F := funs (still s0) in
  prims_ok mp p F -> xs <> [] ->
  apps F (fun fd args vs st g =>
    match eval p (prim_arity mp) F (contents (sh s0)) n (f_fv fd) vs (f_body fd) (mkS args st g) with
    | Some (RV v, s') => Some (RV v, sto s', gl s')
    | Some (RX v, s') => Some (RX v, sto s', gl s')
    | _ => None
    end) f xs st g = Some (r, st', g') ->
  forall w h gm af avs C R ev x t base, Inv F mp p w st h g gm -> vrel F w st h f af -> Forall2 (vrel F w st h) xs avs ->
    base <= zlen R -> t <= zlen R ->
  exists w' h' gm' a, ext w st h w' st' h' /\ Inv F mp p w' st' h' g' gm' /\
    match r with
    | RV v => vrel F w' st' h' v a /\ forall s, calls C af R ev x t h gm avs s -> J mp P base s (mkM C a R ev x t h' gm')
    | RX v => vrel F w' st' h' v a /\ forall s, calls C af R ev x t h gm avs s -> J mp P base s (mkM [Kraise] a R ev x t h' gm')
    | RF => False
    end.
Proof.
  intros fuel e shared e' s0 P log mp p n f xs st g r st' g' HP SOK F PO NX HA w h gm af avs C R ev x t base HI Vf Vx Hb Ht.
  destruct (phrase_inv _ _ _ _ _ _ _ HP) as (HL & inits & funcs & s1 & s2 & E1 & E2 & -> & -> & _).
  pose proof (prog_code fuel _ e' s0 s1 s2 inits funcs HL E1 E2 SOK) as CO.
  assert (IH : sim mp p (program inits funcs) base F (contents (sh s0)) (fun _ => False) n) by (apply sim_all; auto; easy).
  set (R' := VPc C :: ev :: VInt x :: R).
  assert (LR : zlen R' = 3 + zlen R) by (unfold R'; rewrite !zlen_cons; lia).
  destruct (call_sim _ _ _ _ _ _ _ CO n IH f xs st g r st' g' NX HA w h gm af avs R' 0 t HI Vf Vx) as (c & w' & h' & gm' & D1 & D2 & D3 & D4);
    [exists [], C, ev, x, R; auto | lia | lia |]. cbn zeta in D4.
  assert (CS : forall s, calls C af R ev x t h gm avs s -> step mp (program inits funcs) base s = Some (mkM c af (avs ++ R') af (0 + zlen avs - 1) t h gm)).
  { intros s HS. destruct HS as [avs HK | avs D e1 x1 HK | avs T bvs D e1 HN]; cbn [step pc accu heap]; rewrite D1; cbn [sp env extra trap glob].
    - destruct (zlen avs <? 5) eqn:E5; [|lia]. rewrite (ztake_app avs R) by reflexivity. do 2 f_equal.
    - destruct (zlen avs <? 5) eqn:E5; [lia|]. do 2 f_equal.
    - rewrite (ztake_app avs) by reflexivity. rewrite (app_assoc avs T), (ztake_app (avs ++ T)) by (rewrite app_length; unfold zlen; lia).
      rewrite zlen_app, <- app_assoc. do 2 f_equal. lia. }
  destruct r as [v | v |]; [| |easy].
  - destruct D4 as (D4 & _). destruct (D4 eq_refl) as (a & V & D6). exists w', h', gm', a. split; auto. split; auto. split; auto.
    intros s HS. eapply J_step_l; [apply CS, HS|]. eapply D6. reflexivity.
  - destruct D4 as (a & V & D5). exists w', h', gm', a. split; auto. split; auto. split; auto.
    intros s HS. eapply J_step_l; [apply CS, HS|]. eapply J_trans; [apply (D5 ev x)|].
    change R' with ([VPc C; ev; VInt x] ++ R). apply J_raise. unfold zlen in *. lia.
Qed.
Print Assumptions C40_calls.

(** the hypotheses hold: the functions of prog1 *)
Example C40_example : exists e' s0 P log, phrase 30 prog1 shared1 = Ret (e', s0, P, log) /\ shared_ok log /\ prims_ok mp0 sp0 (funs (still s0)) /\
  let F := funs (still s0) in
  let run := fun fd args vs st g =>
    match eval sp0 (prim_arity mp0) F (contents (sh s0)) 20 (f_fv fd) vs (f_body fd) (mkS args st g) with
    | Some (RV v, s') => Some (RV v, sto s', gl s') | Some (RX v, s') => Some (RX v, sto s', gl s') | _ => None end in
  apps F run (SLoc 1) [SNum 1; SNum 2; SNum 3] [Clo 1 [SLoc 0]; Clo 2 []] [] =
    Some (RV (SLoc 2), [Clo 1 [SLoc 0]; Clo 2 []; Blk 3 [SNum 1; SNum 2; SNum 3]], []) /\
  apps F run (SLoc 1) [SNum 1; SNum 2] [Clo 1 [SLoc 0]; Clo 2 []] [] = Some (RV (SPap 1 [SNum 1; SNum 2]), [Clo 1 [SLoc 0]; Clo 2 []], []) /\
  apps F run (SLoc 0) [SNum 5] [Clo 3 [SLoc 0]; Clo 2 []] [] = Some (RV (SLoc 0), [Clo 3 [SLoc 0]; Clo 2 []], []) /\
  apps F run (SLoc 0) [SNum 5; SNum 6; SNum 7] [Clo 3 [SLoc 1]; Clo 2 []] [] = Some (RV (SPap 1 [SNum 6; SNum 7]), [Clo 3 [SLoc 1]; Clo 2 []], []).
Proof.
  destruct C46_example as (e' & s0 & P & log & s' & E1 & E2 & _ & E3 & _). exists e', s0, P, log. split; auto. split; auto. split; auto.
  assert (ES : still s0 = match phrase 30 prog1 shared1 with Ret (_, s, _, _) => still s | _ => [] end) by now rewrite E1.
  assert (EH : sh s0 = match phrase 30 prog1 shared1 with Ret (_, s, _, _) => sh s | _ => [] end) by now rewrite E1.
  destruct s0 as [? ? h0 t0 ? ? ? ?]. cbn [still sh] in *. vm_compute in ES, EH. subst h0 t0. cbn zeta. vm_compute. auto.
Qed.

(** C41: code that pushes more than 256 words without a call, and so without a check of the stack *)
Example C41_code : exists inits, compileLambda 400 (Llet [num 1] (Lprim (Pmakeblock 0 1) (repeat (Lvar 0) 300))) [] = Ret (inits, []) /\
  length (filter (fun i => match i with Kpush => true | _ => false end) inits) = 300%nat /\
  forallb (fun i => match i with Kpush | Kaccess _ | Kquote _ | Kmakeblock _ _ | Kpop _ => true | _ => false end) inits = true.
Proof. eexists. split; [vm_compute; reflexivity|]. vm_compute. auto. Qed.
