(** C39: compiled pattern matching selects the first matching rule. *)
From Verif Require Import Base Match_Model Match_Spec Match_Proofs Match_Top.

(** For all typed rows and arguments, whatever the hash table answers: if the match compiler returns code, then the code run
    on the representations of the arguments picks rule [i] exactly if [i] is the first matching row, fails exactly if no
    row matches, and does nothing else; rules reported as unused are never the first to match, and if no failure code
    is needed then some row matches.  What is missing: that the compiler returns code (refuted below). *)
Theorem C39_match_partial : forall E exname lookup fuel rows res ts vs rs,
  types_ok E ->
  Forall (Forall2 (pat_type E exname) ts) rows -> Forall2 (has_type E) ts vs -> rep_list E ts vs rs ->
  translateMatch lookup fuel rows = Ret res ->
  (forall i, run exname (rev rs) (rcode res) = Rule i <-> first_match exname rows vs i) /\
  (run exname (rev rs) (rcode res) = Failed <-> no_match exname rows vs) /\
  ((exists i, run exname (rev rs) (rcode res) = Rule i) \/ run exname (rev rs) (rcode res) = Failed) /\
  (forall i, In i (unused_rules res) -> ~ first_match exname rows vs i) /\
  (has_failure res = false -> exists i, first_match exname rows vs i).
Proof.
  intros E exname lookup fuel rows res ts vs rs TOK PT HT RL TR.
  assert (FU : forall i j, first_match exname rows vs i -> first_match exname rows vs j -> i = j).
  { intros i j [(ri & Ni & Mi) Fi] [(rj & Nj & Mj) Fj]. destruct (Nat.lt_trichotomy i j) as [L|[L|L]]; [|exact L|]; exfalso.
    - apply (Fj _ _ L Ni Mi).
    - apply (Fi _ _ L Nj Mj). }
  assert (NF : forall i, no_match exname rows vs -> ~ first_match exname rows vs i).
  { intros i NM [(r & N & M) _]. apply (NM r); [eapply nth_error_In; eauto|exact M]. }
  destruct (translate_ok E TOK exname lookup fuel rows res ts vs rs TR PT HT RL) as [(NM & R & HF)|(i & FM & R & NU)]; rewrite R.
  - split; [|split; [|split; [|split]]].
    + intros i. split; [discriminate|]. intros F. destruct (NF i NM F).
    + tauto.
    + auto.
    + intros i _. apply NF, NM.
    + rewrite HF. discriminate.
  - split; [|split; [|split; [|split]]].
    + intros j. split; [intros X; now injection X as <-|]. intros F. f_equal. eapply FU; eauto.
    + split; [discriminate|]. intros NM. destruct (NF i NM FM).
    + left. eauto.
    + intros j I F. rewrite (FU _ _ F FM) in I. contradiction.
    + eauto.
Qed.

(** An instance: datatype t = A | B of int * int | C of int; fun f (A, _) = .. | f (B (1, x), true) = .. | f (C _, _) = .. | f (B p, false) = .. *)
Definition ex_types : types :=
  TE (fun d _ => if d =? 0 then [(None, false); (Some (TTuple [TInt; TInt]), true); (Some TInt, false)] else [(None, false); (None, false)]) (fun n => Some (TTuple (repeat TInt (Z.to_nat n)))).
Definition bool_pat (b : bool) : pat := NILpat (CI (if b then 1 else 0) 2 false).
Definition ex_rows : list (list pat) :=
  [ [NILpat (CI 0 3 false); WILDCARDpat];
    [CONSpat (CI 1 3 true) (RECpat [SCONpat (INTscon 1); VARpat 0]); bool_pat true];
    [CONSpat (CI 2 3 false) WILDCARDpat; WILDCARDpat];
    [CONSpat (CI 1 3 true) (VARpat 0); bool_pat false] ].
Definition ex_tys : list ty := [TData 0 []; TData 1 []].
Definition no_table (_ : list dec) (_ : dec) : option nat := None.
Example C39_types_ok : types_ok ex_types.
Proof.
  intros d ts n t. cbn. destruct (d =? 0).
  - destruct n as [|[|[|n]]]; cbn; try discriminate; [|destruct n; discriminate]. intros X. injection X as <-. eauto.
  - destruct n as [|[|n]]; cbn; try discriminate. destruct n; discriminate.
Qed.
Example C39_rows_typed : Forall (Forall2 (pat_type ex_types (fun e => e)) ex_tys) ex_rows.
Proof.
  repeat constructor.
  - apply (pt_nil ex_types _ 0 [] 0 false). reflexivity.
  - apply (pt_cons ex_types _ 0 [] 1 (TTuple [TInt; TInt]) true); [reflexivity|]. repeat constructor.
  - apply (pt_nil ex_types _ 1 [] 1 false). reflexivity.
  - apply (pt_cons ex_types _ 0 [] 2 TInt false); [reflexivity|]. constructor.
  - apply (pt_cons ex_types _ 0 [] 1 (TTuple [TInt; TInt]) true); [reflexivity|]. constructor.
  - apply (pt_nil ex_types _ 1 [] 0 false). reflexivity.
Qed.
(** B (1, 7), true is rule 1; B (2, 7), true matches no rule *)
Definition ex_vals (i : Z) : list value := [VCon 1 (Some (VTuple [VConst (INTscon i); VConst (INTscon 7)])); VCon 1 None].
Definition ex_reps (i : Z) : list rval := [RBlock 1 [RConst (INTscon i); RConst (INTscon 7)]; RBlock 1 []].
Example C39_vals_typed i : Forall2 (has_type ex_types) ex_tys (ex_vals i).
Proof.
  constructor; [|constructor; [|constructor]].
  - apply (ht_con1 ex_types 0 [] 1 (TTuple [TInt; TInt]) true); [reflexivity|]. repeat constructor.
  - apply (ht_con0 ex_types 1 [] 1 false). reflexivity.
Qed.
Example C39_vals_reps i : rep_list ex_types ex_tys (ex_vals i) (ex_reps i).
Proof.
  constructor; [|constructor; [|constructor]].
  - apply (rp_con1 ex_types 0 [] 1 (TTuple [TInt; TInt]) true _ (RBlock 0 [RConst (INTscon i); RConst (INTscon 7)])); [reflexivity|]. repeat constructor.
  - apply (rp_con0 ex_types 1 []).
Qed.
Definition outcome_of (rows : list (list pat)) (args : list (list rval)) : option (list nat * bool * list cres) :=
  match translateMatch no_table 100 rows with
  | Ret res => Some (unused_rules res, has_failure res, map (fun rs => run (fun e => e) (rev rs) (rcode res)) args)
  | _ => None
  end.
Example C39_run : outcome_of ex_rows [ex_reps 1; ex_reps 2] = Some ([], true, [Rule 1; Failed]).
Proof. vm_compute. reflexivity. Qed.
(** with one more row, (B _, true), the match is exhaustive, and a further row is unused *)
Example C39_exhaustive :
  outcome_of (ex_rows ++ [[CONSpat (CI 1 3 true) WILDCARDpat; bool_pat true]; [WILDCARDpat; WILDCARDpat]]) [ex_reps 2] = Some ([5%nat], false, [Rule 4]).
Proof. vm_compute. reflexivity. Qed.

(** A finding: the compiler stops with an internal error (fatalError "Match.succeed") on correct programs:
    exception A of int * int;  exception B of int * int * int;
    fun f (A (1, 2)) = 1 | f (B (x, y, z)) = 2 | f _ = 3.
    The exceptions could be the same, so both the arguments of A and of B are looked for at once. *)
Definition crash_rows : list (list pat) :=
  [ [EXCONSpat 2 (RECpat [SCONpat (INTscon 1); SCONpat (INTscon 2)])];
    [EXCONSpat 3 (RECpat [VARpat 0; VARpat 1; VARpat 2])];
    [WILDCARDpat] ].
Theorem C39_crash_refuted : exists E exname rows ts,
  types_ok E /\ Forall (Forall2 (pat_type E exname) ts) rows /\ (exists v, Forall2 (has_type E) ts [v]) /\ ts = [TExn] /\
  forall lookup fuel, (100 <= fuel)%nat -> translateMatch lookup fuel rows = Raise ImpossibleExn.
Proof.
  exists ex_types, (fun e => e), crash_rows, [TExn]. split; [apply C39_types_ok|]. split; [|split; [|split; [reflexivity|]]].
  - repeat constructor.
    + apply (pt_excons ex_types _ 2 (TTuple [TInt; TInt])); [reflexivity|]. repeat constructor.
    + apply (pt_excons ex_types _ 3 (TTuple [TInt; TInt; TInt])); [reflexivity|]. repeat constructor.
  - exists (VExn 2 (Some (VTuple [VConst (INTscon 1); VConst (INTscon 2)]))). constructor; [|constructor].
    apply (ht_exn1 ex_types 2 (TTuple [TInt; TInt])); [reflexivity|]. repeat constructor.
  - intros lookup fuel F. replace fuel with (100 + (fuel - 100))%nat by lia. generalize (fuel - 100)%nat. intros k. unfold crash_rows. cbn. reflexivity.
Qed.
Print Assumptions C39_match_partial.
Print Assumptions C39_crash_refuted.
