(** Proofs for C39: the code made from the dag does what the dag says. *)
From Verif Require Import Base Match_Model Match_Proofs Match_Dag.

Section Code.
Variable exname : Z -> Z.
Variable env : list rval.
Variable s : state.
Variable failLam : code.
Hypothesis FL : failLam = Cfailure \/ failLam = Cunspec.
Notation run := (run exname env).
Notation leads := (leads exname env (nodes s)).
Notation test := (test exname env).
Notation access := (access exname env).
Definition leaf (m : nat) : Prop := forall o c t e, nth_error (nodes s) m <> Some (IfEq o c t e).
Definition leafres (m : nat) : cres :=
  match nth_error (nodes s) m with Some Failure => run failLam | Some (Success i) => Rule i | _ => Bad end.
Lemma leafres_clause m : leafres m <> NoClause.
Proof. unfold leafres. destruct (nth_error (nodes s) m) as [[|i|o c t e]|]; try discriminate. destruct FL as [->| ->]; discriminate. Qed.

Section Chain.
Context {A : Type}.
Variable getcon : con -> outcome A.
Variable last : lam.
Inductive chain : nat -> list (A * nat) -> nat -> Prop :=
| c_nil n : chain n [] n
| c_cons n c t e a l m : nth_error (nodes s) n = Some (IfEq last c t e) -> getcon c = Ret a -> chain e l m -> chain n ((a, t) :: l) m.
Lemma collect_chain : forall fuel cases o cs o', collect s getcon last fuel cases o = Ret (cs, o') -> exists l, cs = rev l ++ cases /\ chain o l o'.
Proof.
  induction fuel as [|fuel IH]; intros cases o cs o' E; [discriminate|]. cbn [collect] in E.
  assert (ST : Ret (cases, o) = Ret (cs, o') -> exists l, cs = rev l ++ cases /\ chain o l o').
  { intros X. injection X as <- <-. exists []. split; [reflexivity|constructor]. }
  destruct (nth_error (nodes s) o) as [[|i|obj c t e]|] eqn:N; try discriminate E; auto.
  destruct (lam_dec obj last) as [->|]; auto. destruct (shared s o); auto.
  destruct (getcon c) as [a| | |] eqn:GC; try discriminate E. cbn [bind] in E. destruct (IH _ _ _ _ E) as (l & -> & C).
  exists ((a, t) :: l). split; [cbn [rev]; now rewrite <- app_assoc|]. econstructor; eauto.
Qed.
Lemma revmap_ok (f : nat -> outcome code) : forall xs res cl, revmap f xs res = Ret cl ->
  exists l, cl = l ++ res /\ Forall2 (fun (x : A * nat) (y : A * code) => fst x = fst y /\ f (snd x) = Ret (snd y)) (rev xs) l.
Proof.
  induction xs as [|[x y] xs IH]; intros res cl E; cbn [revmap] in E.
  - injection E as <-. exists []. split; [reflexivity|constructor].
  - destruct (f y) as [c| | |] eqn:F; try discriminate E. cbn [bind] in E. destruct (IH _ _ E) as (l & -> & P).
    exists (l ++ [(x, c)]). split; [now rewrite <- app_assoc|]. cbn [rev]. apply Forall2_app; [exact P|]. constructor; [auto|constructor].
Qed.
Fixpoint pick (f : A -> bool) (cl : list (A * code)) : cres :=
  match cl with [] => NoClause | (a, c) :: cl => if f a then run c else pick f cl end.
Lemma chain_run f share m : (forall c a, getcon c = Ret a -> forall b, test last c = Some b -> b = f a) -> leaf m ->
  (forall n c, share n = Ret c -> leads n m -> run c = leafres m) ->
  forall o l o' cl, chain o l o' -> Forall2 (fun (x : A * nat) (y : A * code) => fst x = fst y /\ share (snd x) = Ret (snd y)) l cl ->
  leads o m -> (pick f cl = NoClause /\ leads o' m) \/ pick f cl = leafres m.
Proof.
  intros TE LF SH o l o' cl C. revert cl. induction C as [n|n c t e a l m' N GC C IH]; intros cl F L; inversion F as [|x [a' cc] l1 cl' [E1 E2] F']; subst; [left; auto|].
  cbn [fst snd] in *. subst a'. cbn [pick]. inversion L as [|? obj c' t' e' b ? N' T L']; subst; [destruct (LF _ _ _ _ N)|].
  rewrite N in N'. injection N' as <- <- <- <-. rewrite (TE _ _ GC _ T) in L'. destruct (f a); [right; eauto|]. apply IH; auto.
Qed.
End Chain.
Lemma run_case obj cl k : access obj = Some (RConst k) -> run (Lcase obj cl) = pick (fun k' => if scon_dec k k' then true else false) cl.
Proof.
  intros E. cbn [Match_Model.run]. rewrite E. induction cl as [|[k' c] cl IH]; [reflexivity|]. cbn [pick]. destruct (scon_dec k k'); [reflexivity|exact IH].
Qed.
Lemma run_switch sp obj cl t fs : access obj = Some (RBlock t fs) -> run (Lswitch sp obj cl) = pick (fun t' => t =? t') cl.
Proof.
  intros E. cbn [Match_Model.run]. rewrite E. induction cl as [|[k' c] cl IH]; [reflexivity|]. cbn [pick]. destruct (t =? k'); [reflexivity|exact IH].
Qed.

(** one unfolding *)
Definition shr (fuel n : nat) : outcome code := do c <- toseq s failLam fuel n; Ret (if shared s n then Lshared c else c).
Lemma toseq_S fuel n : toseq s failLam (S fuel) n =
      match nth_error (nodes s) n with
      | None => UB
      | Some Failure => Ret failLam
      | Some (Success i) => Ret (Crhs i)
      | Some (IfEq obj (SCon c) thenact elseact) =>
          do (cases, otherwise) <- collect s getSCon obj (S (length (nodes s))) [] elseact;
          do c1 <- (shr fuel) thenact;
          do cl <- revmap (shr fuel) cases [];
          do o <- (shr fuel) otherwise;
          Ret (Lstatichandle (Lcase obj ((c, c1) :: cl)) o)
      | Some (IfEq obj (Vec k) thenact elseact) =>
          do (cases, otherwise) <- collect s getVec obj (S (length (nodes s))) [] elseact;
          do c1 <- (shr fuel) thenact;
          do cl <- revmap (shr fuel) cases [];
          do o <- (shr fuel) otherwise;
          Ret (Lstatichandle (Lcase obj ((INTscon (Z.of_nat k), c1) :: cl)) o)
      | Some (IfEq obj (CCon t sp _) thenact elseact) =>
          do (cases, otherwise) <- collect s getCCon obj (S (length (nodes s))) [] elseact;
          do c1 <- (shr fuel) thenact;
          do cl <- revmap (shr fuel) cases [];
          do o <- (shr fuel) otherwise;
          Ret (Lstatichandle (Lswitch sp obj ((t, c1) :: cl)) o)
      | Some (IfEq obj (EExn l) thenact elseact) =>
          do t <- (shr fuel) thenact;
          do e <- (shr fuel) elseact;
          Ret (Lif_eq obj l t e)
      | Some (IfEq _ (Tup _) _ _) => Diverge              (* mkSwitch and toseq call each other *)
      end.
Proof. reflexivity. Qed.
Lemma toseq_ok m : leaf m -> forall fuel n c, toseq s failLam fuel n = Ret c -> leads n m -> run c = leafres m.
Proof.
  intros LF. induction fuel as [|fuel IH]; intros n c E L; [discriminate|]. rewrite toseq_S in E.
  set (share := shr fuel) in E.
  assert (SH : forall n c, share n = Ret c -> leads n m -> run c = leafres m).
  { intros n' c' E' L'. unfold share, shr in E'. destruct (toseq s failLam fuel n') as [c1| | |] eqn:E1; try discriminate E'. cbn [bind] in E'. injection E' as <-.
    destruct (shared s n'); cbn [Match_Model.run]; eauto. }
  clearbody share. cbv beta in E. inversion L as [|? obj cn t e b ? N T L']; subst.
  - destruct (nth_error (nodes s) m) as [[|i|o c' t e]|] eqn:N; try discriminate E.
    + injection E as <-. unfold leafres. now rewrite N.
    + injection E as <-. unfold leafres. now rewrite N.
    + destruct (LF _ _ _ _ N).
  - rewrite N in E. destruct cn as [k|k|k|tg sp ar|l]; try discriminate E.
    + destruct (collect s getSCon obj (S (length (nodes s))) [] e) as [[cs o]| | |] eqn:EC; try discriminate E. cbn [bind] in E.
      destruct (share t) as [c1| | |] eqn:E1; try discriminate E. cbn [bind] in E.
      destruct (revmap share cs []) as [cl| | |] eqn:E2; try discriminate E. cbn [bind] in E.
      destruct (share o) as [co| | |] eqn:E3; try discriminate E. cbn [bind] in E. inversion E; subst c; clear E.
      destruct (collect_chain _ _ _ _ _ _ _ EC) as (l & -> & C). rewrite app_nil_r in E2.
      destruct (revmap_ok _ _ _ _ E2) as (l' & -> & F). rewrite app_nil_r, rev_involutive in *.
      cbn [Match_Proofs.test] in T. destruct (access obj) as [[k'| |]|] eqn:A; try discriminate T. injection T as T.
      cbn [Match_Model.run]. change (match run (Lcase obj ((k, c1) :: l')) with NoClause => run co | r => r end = leafres m).
      rewrite (run_case _ _ _ A). cbn [pick]. destruct (scon_dec k' k); subst b.
      { rewrite (SH _ _ E1 L'). destruct (leafres m) eqn:R; auto. now destruct (leafres_clause m). }
      destruct (chain_run getSCon obj (fun k2 => if scon_dec k' k2 then true else false) share m) with (o := e) (l := l) (o' := o) (cl := l') as [[P L2]|P]; auto.
      * intros c a G b T. destruct c; try discriminate G. injection G as ->. cbn [Match_Proofs.test] in T. rewrite A in T. now injection T as <-.
      * rewrite P. eauto.
      * rewrite P. destruct (leafres m) eqn:R; auto. now destruct (leafres_clause m).
    + destruct (collect s getVec obj (S (length (nodes s))) [] e) as [[cs o]| | |] eqn:EC; try discriminate E. cbn [bind] in E.
      destruct (share t) as [c1| | |] eqn:E1; try discriminate E. cbn [bind] in E.
      destruct (revmap share cs []) as [cl| | |] eqn:E2; try discriminate E. cbn [bind] in E.
      destruct (share o) as [co| | |] eqn:E3; try discriminate E. cbn [bind] in E. inversion E; subst c; clear E.
      destruct (collect_chain _ _ _ _ _ _ _ EC) as (l & -> & C). rewrite app_nil_r in E2.
      destruct (revmap_ok _ _ _ _ E2) as (l' & -> & F). rewrite app_nil_r, rev_involutive in *.
      cbn [Match_Proofs.test] in T. destruct (access obj) as [[k'| |]|] eqn:A; try discriminate T. injection T as T.
      cbn [Match_Model.run]. change (match run (Lcase obj ((INTscon (Z.of_nat k), c1) :: l')) with NoClause => run co | r => r end = leafres m).
      rewrite (run_case _ _ _ A). cbn [pick]. destruct (scon_dec k' (INTscon (Z.of_nat k))); subst b.
      { rewrite (SH _ _ E1 L'). destruct (leafres m) eqn:R; auto. now destruct (leafres_clause m). }
      destruct (chain_run getVec obj (fun k2 => if scon_dec k' k2 then true else false) share m) with (o := e) (l := l) (o' := o) (cl := l') as [[P L2]|P]; auto.
      * intros c a G b T. destruct c; try discriminate G. injection G as <-. cbn [Match_Proofs.test] in T. rewrite A in T. now injection T as <-.
      * rewrite P. eauto.
      * rewrite P. destruct (leafres m) eqn:R; auto. now destruct (leafres_clause m).
    + destruct (collect s getCCon obj (S (length (nodes s))) [] e) as [[cs o]| | |] eqn:EC; try discriminate E. cbn [bind] in E.
      destruct (share t) as [c1| | |] eqn:E1; try discriminate E. cbn [bind] in E.
      destruct (revmap share cs []) as [cl| | |] eqn:E2; try discriminate E. cbn [bind] in E.
      destruct (share o) as [co| | |] eqn:E3; try discriminate E. cbn [bind] in E. inversion E; subst c; clear E.
      destruct (collect_chain _ _ _ _ _ _ _ EC) as (l & -> & C). rewrite app_nil_r in E2.
      destruct (revmap_ok _ _ _ _ E2) as (l' & -> & F). rewrite app_nil_r, rev_involutive in *.
      cbn [Match_Proofs.test] in T. destruct (access obj) as [[|t' fs|]|] eqn:A; try discriminate T. injection T as T.
      cbn [Match_Model.run]. change (match run (Lswitch sp obj ((tg, c1) :: l')) with NoClause => run co | r => r end = leafres m).
      rewrite (run_switch _ _ _ _ _ A). cbn [pick]. rewrite T. destruct b.
      { rewrite (SH _ _ E1 L'). destruct (leafres m) eqn:R; auto. now destruct (leafres_clause m). }
      destruct (chain_run getCCon obj (fun k2 => t' =? k2) share m) with (o := e) (l := l) (o' := o) (cl := l') as [[P L2]|P]; auto.
      * intros c a G b T2. destruct c; try discriminate G. injection G as <-. cbn [Match_Proofs.test] in T2. rewrite A in T2. now injection T2 as <-.
      * rewrite P. eauto.
      * rewrite P. destruct (leafres m) eqn:R; auto. now destruct (leafres_clause m).
    + destruct (share t) as [c1| | |] eqn:E1; try discriminate E. cbn [bind] in E.
      destruct (share e) as [c2| | |] eqn:E2; try discriminate E. cbn [bind] in E. inversion E; subst c; clear E.
      cbn [Match_Proofs.test] in T. cbn [Match_Model.run]. destruct (access obj) as [[| |x]|]; try discriminate T.
      destruct (access l) as [[| |y]|]; try discriminate T. injection T as T. rewrite T. destruct b; eauto.
Qed.
End Code.
