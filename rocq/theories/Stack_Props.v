(** C41: exceptions unwind to the innermost handler with its stack, also when the stack is reallocated. *)
From Verif Require Import Base Stack_Model Stack_Spec Stack_Proofs.

(** Any trace of pushes, pops, accesses, handlers, exceptions and stack checks, from the start of the program,
    as long as at most 256 words are pushed between checks: the machine's stack reads the values and finds the
    handlers of the stack without addresses, wherever the blocks are allocated; if it stops with Out_of_memory
    the stack was deeper than 2^20 - 256 words. *)
Theorem C41_handlers_partial : forall addr junk l os s',
  Z.of_nat (length junk) = Stack_words -> junk_ok l -> bases_ok l -> fits Stack_words l ->
  srun l (mkH [] []) = Some (os, s') ->
  (exists c, crun l (init_stack addr junk) = Ret (os, c)) \/
  (crun l (init_stack addr junk) = Raise OutOfMemory /\ Max_stack_words - Threshold_words < deepest l (mkH [] [])).
Proof.
  intros addr junk l os s' HJ HK HB HF HS.
  destruct (run_ok l Stack_words (mkH [] []) (init_stack addr junk) junk os s') as [H | (c & A & H & _)]; auto.
  - now apply init_rel.
  - rewrite HJ. reflexivity.
  - left. now exists c.
Qed.
Print Assumptions C41_handlers_partial.

Definition block (n : Z) : list word := repeat (WVal 0) (Z.to_nat n).
Fixpoint rounds (n : nat) : list op := match n with O => [] | S n => repeat (Push 7) 200 ++ [Check (1000000 * Z.of_nat n) block] ++ rounds n end.
(** two handlers, the stack reallocated with both in place, an exception in each, values below them read afterwards *)
Definition tr : list op :=
  [Push 1; PushTrap 10 11 12; Push 2] ++ rounds 12 ++ [PushTrap 20 21 22; Push 3] ++ rounds 10 ++
  [Raise_ 0; Access 2400; Assign 2400 9; Access 2400; Raise_ 0; Access 0; Raise_ 0].
Fixpoint fitsb (room : Z) (l : list op) : bool :=
  match l with
  | [] => true
  | o :: l => (needs o <=? room) && fitsb (match o with Check _ _ => Threshold_words | _ => room - needs o end) l
  end.
Lemma fitsb_ok l : forall r, fitsb r l = true -> fits r l.
Proof. induction l as [|o l IH]; cbn [fitsb fits]; auto. intros r H. apply andb_prop in H as (H1 & H2). split; [lia | auto]. Qed.
Example tr_fits : fits Stack_words tr.
Proof. apply fitsb_ok. vm_compute. reflexivity. Qed.
Example tr_junk : junk_ok tr.
Proof.
  assert (G : forall n addr junk, In (Check addr junk) (rounds n) -> junk = block).
  { induction n as [|n IH]; cbn [rounds]; intros addr junk H; [easy|]. apply in_app_or in H as [H | [H | H]].
    - apply repeat_spec in H. discriminate.
    - now injection H.
    - eauto. }
  intros addr junk n H Hn. assert (junk = block) as ->.
  { unfold tr in H. repeat (apply in_app_or in H as [H | H]; eauto); cbn in H; intuition discriminate. }
  unfold block. rewrite repeat_length. lia.
Qed.
Example tr_runs : exists s', srun tr (mkH [] []) =
  Some ([OHandler (Some (20, 21, 22)); OVal 2; OVal 9; OHandler (Some (10, 11, 12)); OVal 1; OHandler None], s') /\
  exists c, crun tr (init_stack 0 (block Stack_words)) =
    Ret ([OHandler (Some (20, 21, 22)); OVal 2; OVal 9; OHandler (Some (10, 11, 12)); OVal 1; OHandler None], c) /\ high c - low c = 8192.
Proof. vm_compute. eexists. split; [reflexivity|]. eexists. split; reflexivity. Qed.

(** Without the bound on the pushes between checks it is false: there is room for 256 words after a check;
    more, and the machine writes outside the block.  Only calls check. *)
Theorem C41_overflow_refuted : exists addr junk l os s',
  Z.of_nat (length junk) = Stack_words /\ junk_ok l /\ bases_ok l /\ deepest l (mkH [] []) < 2 * Stack_words /\
  srun l (mkH [] []) = Some (os, s') /\ crun l (init_stack addr junk) = UB.
Proof.
  exists 1000, (block Stack_words), (repeat (Push 7) 3840 ++ [Check 5000000 block] ++ repeat (Push 7) 257), [], (mkH (repeat 7 4097) []).
  split. { unfold block. now rewrite repeat_length. }
  split. { intros addr junk n H Hn. apply in_app_or in H as [H | [H | H]]; try (apply repeat_spec in H; discriminate). injection H as <- <-. unfold block. rewrite repeat_length. lia. }
  split. { intros b H. apply in_app_or in H as [H | [H | H]]; try (apply repeat_spec in H; discriminate). discriminate. }
  split. { vm_compute. reflexivity. }
  split; vm_compute; reflexivity.
Qed.
Print Assumptions C41_overflow_refuted.
