(** C46: the code of a closed term without shared nodes computes what the term means (Lam_Spec): the whole of
    compileLambda, that is UNdeBruijn with the removal of references and the generation of code. *)
From Coq Require Import Sorting.Sorted.
From Verif Require Import Base Value_Model Opcodes Back_Model Back_Spec Back_Rel Back_Sim Back_Goal Back_Main Back_Lists Back_All Back_Frame Back_Comp Back_Gen Back_Prog Back_Lift Back_Props Lam_Spec Lift_Rel Lift_Prim Lift_Sim Lift_Main Lift_Undb Lift_Lft Lift_Cap Lift_Quiet.

Lemma nodup_find (l : list entry) lbl k fv md b : NoDup (map e_lbl l) -> In (lbl, k, fv, md, b) l -> funs l lbl = Some (mkF (Z.to_nat k) fv b).
Proof.
  unfold funs. induction l as [|x l IH]; intros ND H; [easy|]. cbn [find]. cbn in ND. inversion ND; subst. destruct H as [-> | H].
  - cbn [e_lbl]. now rewrite Z.eqb_refl.
  - destruct (e_lbl x =? lbl) eqn:E; auto. apply Z.eqb_eq in E. exfalso. apply H2. rewrite E. apply in_map_iff. exists (lbl, k, fv, md, b). auto.
Qed.

Lemma undb_tr fuel e q e' s0 : closed 0 e = true -> UNdeBruijn fuel e (start []) = Ret ((q, e'), s0) -> tr (funs (still s0)) [] [] e e'.
Proof.
  intros HC H. assert (HL : lifted s0) by (eapply undb_lifted; exact H).
  assert (A : agree (funs (still s0)) (still s0)). { intros lbl k fv md b Hi. eapply nodup_find; eauto. apply HL. }
  assert (N0 : forall n d k e s e' s', d <= k -> d - k = 0 -> closed k e = true -> fvr s = [] -> lftexp n d e s = Ret (e', s') -> fvr s' = []).
  { intros n d k e1 s e1' s' _ Hd H1 H2 H3. assert (D : dec (fvr s')). { eapply q_lftexp; eauto. rewrite H2. split; constructor. }
    pose proof (lft_cap _ d _ _ H1 _ _ _ H3) as C. unfold cap in C. rewrite H2, Hd in C. destruct (fvr s') as [|z l]; auto. exfalso.
    destruct (C z (or_introl eq_refl)) as [[] | C1]. pose proof (dec_neg _ z D (or_introl eq_refl)). lia. }
  unfold UNdeBruijn in H.
  assert (X : fresh_refs (let* e' := lftexp fuel 0 e in fun s => Ret ((Z.of_nat (length (fvr s)), e'), s)) (start []) = Ret ((q, e'), s0) -> tr (funs (still s0)) [] [] e e').
  { clear H. intros H. apply fresh_inv in H as (s1 & H & E1 & E2). apply bind_inv in H as (e1 & s2 & E & H). injection H as <- <- <-.
    assert (N : fvr s2 = []) by (eapply (N0 _ 0 0); [lia | lia | exact HC | | exact E]; reflexivity). rewrite E1 in *. eapply (lft_tr _ _ 0 e []); eauto; [lia | split; constructor|]. rewrite N. apply incl_refl. }
  destruct e; try (exact (X H)). clear X.
  destruct (lftfn_inv _ _ _ _ _ _ (fun d e => q_lftexp fuel d e) H) as (j & b0 & b' & s2 & lbl & md & -> & E1 & E2 & E3 & -> & ->).
  cbn [closed] in HC. rewrite closed_lfns in HC.
  assert (N : fvr s2 = []). { eapply (N0 _ (1 + Z.of_nat j) (1 + Z.of_nat j)); [lia | lia | | | exact E1]; [replace (1 + Z.of_nat j) with (0 + 1 + Z.of_nat j) by lia; exact HC | reflexivity]. }
  rewrite N in *. change (Lfn (lfns j b0)) with (lfns (S j) b0). eapply (tr_fn _ [] [] j b0 lbl []); try easy.
  - rewrite (A lbl (1 + Z.of_nat j) [] md b'); [do 2 f_equal; lia|]. rewrite E3. left. reflexivity.
  - replace (repeat false (S j)) with (fls (1 + Z.of_nat j)) by (unfold fls; f_equal; lia). eapply lft_tr; [lia | exact E1 | split; constructor | rewrite N; apply incl_refl|].
    eapply agree_incl; [|exact A]. rewrite E3. apply incl_tl, incl_refl.
Qed.

(** ** Where a phrase starts: the store, the global variables and the constants hold data, no functions *)
Definition data_val (n : nat) (v : sval) : Prop := match v with SLoc l => (l < n)%nat | SPap _ _ => False | _ => True end.
Definition data_only (p : sprims) (st : store) (g : sglob) : Prop :=
  (forall b, In b st -> exists t vs, b = Blk t vs /\ Forall (data_val (length st)) vs) /\
  (forall u v, slook g u = Some v -> data_val (length st) v) /\ (forall k, data_val (length st) (slit p k)).
Definition W0 (n : nat) : w1 := map (fun l => Some (SLoc l)) (seq 0 n).
Lemma W0_at n l : (l < n)%nat -> nth_error (W0 n) l = Some (Some (SLoc l)).
Proof. intros H. unfold W0. rewrite nth_error_map. rewrite (nth_error_nth' _ O) by (rewrite seq_length; auto). rewrite seq_nth by auto. reflexivity. Qed.
Lemma W0_inv n l v : nth_error (W0 n) l = Some v -> (l < n)%nat /\ v = Some (SLoc l).
Proof. intros H. assert (L : (l < n)%nat). { apply nth_lt in H. unfold W0 in H. now rewrite map_length, seq_length in H. } split; auto. rewrite W0_at in H by auto. congruence. Qed.
Lemma data_vr n v : data_val n v -> vr (W0 n) v v.
Proof. destruct v; cbn; auto. apply W0_at. Qed.
Lemma data_inv F p st g : data_only p st g -> inv F p (W0 (length st)) (mkX st g []) st g.
Proof.
  intros (H1 & H2 & H3). constructor; cbn [xsto xgl xfn].
  - unfold W0. now rewrite map_length, seq_length.
  - intros l tg vs v' E HW. apply W0_inv in HW as (_ & [= ->]). exists l, vs. split; auto. split; auto.
    destruct (H1 _ (nth_error_In _ _ E)) as (t & vs1 & [= <- <-] & HF). clear - HF. induction HF; constructor; auto using data_vr.
  - intros l k env E. destruct (H1 _ (nth_error_In _ _ E)) as (t & vs & [=] & _).
  - intros l1 l2 tg1 vs1 tg2 vs2 v' _ _ A B. apply W0_inv in A as (_ & A). apply W0_inv in B as (_ & B). congruence.
  - intros u v E. exists v. split; auto. apply data_vr; eauto.
  - intros k. apply data_vr. auto.
Qed.

Lemma reads_comp F p W s t gt h : inv F p W s t gt -> forall d v v' a, vr W v v' -> reads d t v' h a -> reads d (xsto s) v h a.
Proof.
  intros I. induction d as [|d IH]; intros v v' a V R; [exact Logic.I|].
  destruct v as [n | n | l | l x |]; cbn [vr] in V; subst; auto; [|easy]. cbn [reads].
  assert (L : (l < length (xsto s))%nat). { rewrite <- (v_len _ _ _ _ _ _ I). now apply nth_lt in V. }
  destruct (nth_error (xsto s) l) as [[tg vs | k env]|] eqn:E; [| |apply nth_error_None in E; lia].
  - destruct (v_blk _ _ _ _ _ _ I _ _ _ _ E V) as (l' & vs' & -> & E1 & VS). cbn [reads] in R. rewrite E1 in R. destruct R as (ad & avs & -> & E2 & RS). exists ad, avs. split; auto. split; auto.
    clear - VS RS IH. revert avs RS. induction VS; intros avs RS; inversion RS; subst; constructor; eauto.
  - destruct (v_clo _ _ _ _ _ _ I _ _ _ E) as (v1 & E1 & (b & j & l' & args' & lbl & vs' & fv & b' & args & env0 & _ & _ & FN & CL & _)).
    rewrite V in E1. injection E1 as <-. destruct v'; cbn [func] in FN; try discriminate; injection FN as <- <-; cbn [reads] in R; [now rewrite CL in R | exact R].
Qed.

(** The machine, started on the code of a closed phrase without shared nodes, with a heap and globals that represent a
    store of data, stops; what it leaves is what the phrase means.  The hypotheses on the primitives: each gives on the
    machine what it gives in the meaning (prims_ok), and does not depend on where its arguments are in the store
    (prims_par).  Missing: terms with shared nodes, of which the claim is false (C46_shared_refuted); a store
    that has functions. *)
Theorem C46_unshared_partial : forall fuel e inits funcs mp p st g w h gm n r s' acc ev,
  compileLambda fuel e [] = Ret (inits, funcs) -> closed 0 e = true ->
  (forall F, prims_ok mp p F) -> (forall F, prims_par F p) ->
  data_only p st g -> (forall F, Inv F mp p w st h g gm) ->
  lev p (prim_arity mp) (fun _ => None) n [] e (mkX st g []) = Some (r, s') -> r <> RF ->
  let P := program inits funcs in
  exists k m, run mp P 0 k (mkM P acc [] ev 0 0 h gm) = m /\ step mp P 0 m = None /\
    match r with
    | RV v => pc m = [] /\ sp m = [] /\ forall d, reads d (xsto s') v (heap m) (accu m)
    | RX v => (exists c, pc m = Kraise :: c) /\ forall d, reads d (xsto s') v (heap m) (accu m)
    | RF => False
    end.
Proof.
  intros fuel e inits funcs mp p st g w h gm n r s' acc ev HC CL PO PP DO HI HE NR P.
  destruct (proj1 (phrase_code _ _ _ _ _) HC) as (e' & s0 & log & s1 & s2 & q & E0 & E1 & E2 & -> & HP).
  assert (SH : sh s0 = []). { pose proof (s_undb fuel e _ _ _ E0) as X. unfold samesh in X. cbn in X. now destruct (sh s0). }
  assert (SN : seen s0 = []) by (apply (undb_lifted _ _ _ _ _ E0)).
  destruct (t_compexp _ _ _ _ _ _ _ _ _ _ E1 SH) as (S1 & N1). destruct (t_rest _ _ _ _ _ _ E2 S1) as (_ & N2).
  assert (SOK : shared_ok (seen s2)) by (rewrite N2, N1, SN; easy).
  pose proof (undb_tr _ _ _ _ _ CL E0) as T.
  assert (LR : lrel (W0 (length st)) (mkX st g []) [] [] []) by (constructor; auto; intros [|i]; discriminate).
  assert (FR : frel (W0 (length st)) 0 [] [] [] []) by (intros id []).
  destruct (tr_sim (funs (still s0)) p (prim_arity mp) (fun _ => None) (contents (sh s0)) (fun _ => eq_refl) (PP _) n (S n) [] [] e e' [] [] [] (mkX st g []) (mkS [] st g)
    (W0 (length st)) r s' ltac:(lia) T HE (data_inv _ _ _ _ DO) LR FR) as (W' & r' & x' & EV & (_ & I' & _) & RR).
  assert (NR' : r' <> RF) by (destruct r, r'; try discriminate; easy).
  destruct (C46_code_partial fuel e [] e' s0 P (seen s2) mp p st g w h gm (S n) r' x' acc ev HP SOK (PO _) (HI _) EV NR') as (k & m & K1 & K2 & K3).
  exists k, m. split; auto. split; auto. destruct r as [v | v |], r' as [v' | v' |]; try contradiction; cbn [rr] in RR.
  - destruct K3 as (A & B & C). split; auto. split; auto. intros d. eapply reads_comp; eauto.
  - destruct K3 as (A & B). split; auto. intros d. eapply reads_comp; eauto.
Qed.
Print Assumptions C46_unshared_partial.

(** ** An example: recursion, partial application, a reference that is removed, one that is not, an exception *)
Lemma par0 F : prims_par F sp0.
Proof.
  assert (R : forall r st b v s' W fns t g gt, ires r st = Some (b, v, s') -> inv F sp0 W (mkX st g fns) t gt ->
    exists v' t' W', ires r t = Some (b, v', t') /\ pre W W' /\ inv F sp0 W' (mkX s' g fns) t' gt /\ vr W' v v' /\
      (forall l x, nth_error W l = Some None -> nth_error st l = Some x -> nth_error s' l = Some x)).
  { intros r st b v s' W fns t g gt H I. destruct r as [x|]; [|discriminate]. cbn [ires] in *.
    destruct (in_intb x); injection H as <- <- <-; [exists (SNum x) | exists (SAtom 9)]; exists t, W; (split; [reflexivity | split; [apply pre_refl | split; [auto | split; [reflexivity | auto]]]]). }
  constructor; [|discriminate].
  intros q vs vs' b v W fns t g gt st s' H V I. cbn [sprim sp0] in *.
  destruct q; try discriminate. destruct V as [|x a xs as' V1 V]; [discriminate|]. destruct x; try discriminate. cbn [vr] in V1. subst a.
  destruct V as [|x a xs as' V1 V]. { eapply R; eauto. }
  destruct x; try discriminate. cbn [vr] in V1. subst a. destruct V; [|discriminate]. eapply R; eauto.
Qed.
Definition get r := Lprim (Pfield 0) [r].
Definition put r x := Lprim (Psetfield 0) [r; x].
(* let fun fact ..; val r = ref 0; val c = ref 5; val f = fn x => fn y => (c := !c + x; !c + y); val g = f 1 in
   while !r < 10 do r := !r + 1; (fact (!r), g 2, g 2, (raise 7) handle e => e + !r) *)
Definition prog2 : lam :=
  Lletrec [fact]
  (Llet [Lprim (Pmakeblock 250 1) [num 0]; Lprim (Pmakeblock 250 1) [num 5];
         Lfn (Lfn (Lseq (put (Lvar 2) (arith SMLADDINT (get (Lvar 2)) (Lvar 1))) (arith SMLADDINT (get (Lvar 2)) (Lvar 0))));
         Lapply (Lvar 0) [num 1]]
    (Lseq (Lwhile (Lprim (Pp (Ptest (Pint_test PTlt))) [get (Lvar 3); num 10]) (put (Lvar 3) (arith SMLADDINT (get (Lvar 3)) (num 1))))
      (Lprim (Pmakeblock 2 4) [Lapply (Lvar 4) [get (Lvar 3)]; Lapply (Lvar 0) [num 2]; Lapply (Lvar 0) [num 2];
         Lhandle (Lprim Praise [num 7]) (arith SMLADDINT (Lvar 0) (get (Lvar 4)))]))).
Example C46_unshared_example : exists inits funcs s',
  compileLambda 40 prog2 [] = Ret (inits, funcs) /\ closed 0 prog2 = true /\ data_only sp0 [] [] /\
  (forall F, prims_ok mp0 sp0 F) /\ (forall F, prims_par F sp0) /\ (forall F, Inv F mp0 sp0 [] [] [] [] []) /\
  lev sp0 (prim_arity mp0) (fun _ => None) 300 [] prog2 (mkX [] [] []) = Some (RV (SLoc 5), s') /\
  nth_error (xsto s') 5 = Some (Blk 2 [SNum 3628800; SNum 8; SNum 9; SNum 17]).
Proof.
  assert (E : match compileLambda 40 prog2 [] with Ret (i, f) =>
      match lev sp0 (prim_arity mp0) (fun _ => None) 300 [] prog2 (mkX [] [] []) with
      | Some (r, s') => r = RV (SLoc 5) /\ nth_error (xsto s') 5 = Some (Blk 2 [SNum 3628800; SNum 8; SNum 9; SNum 17]) | None => False end
    | _ => False end) by (vm_compute; split; reflexivity).
  revert E. destruct (compileLambda 40 prog2 []) as [[i f]| | |]; [|intros []..].
  destruct (lev sp0 (prim_arity mp0) (fun _ => None) 300 [] prog2 (mkX [] [] [])) as [[r s']|]; [|intros []]. intros (-> & E).
  exists i, f, s'. split; auto. split; [reflexivity|]. split; [|split; [apply prims0 | split; [apply par0 | split; [apply Inv0 | auto]]]].
  split; [easy|]. split; [easy|]. intros k. exact Logic.I.
Qed.
