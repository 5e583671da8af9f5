(** UNdeBruijn produces translations in the sense of Lift_Rel.tr. *)
From Verif Require Import Base Opcodes Back_Model Back_Spec Back_Sim Back_Frame Back_Prog Back_Lift Lam_Spec Lift_Rel Lift_Prim Lift_Sim.

Lemma set_nth_app {A} (l l2 : list A) : forall i x, (i < length l)%nat -> set_nth (l ++ l2) i x = set_nth l i x ++ l2.
Proof. induction l as [|y l IH]; intros [|i] x H; cbn in *; try lia; auto. f_equal. apply IH. lia. Qed.
Lemma set_nth_len {A} (l : list A) : forall i x, length (set_nth l i x) = length l.
Proof. induction l as [|y l IH]; intros [|i] x; cbn; auto. Qed.
Lemma set_nth_other {A} (l : list A) : forall i j x, i <> j -> nth_error (set_nth l i x) j = nth_error l j.
Proof. induction l as [|y l IH]; intros [|i] [|j] x H; cbn; auto; try easy. Qed.
Lemma set_nth_same {A} (l : list A) : forall i x, (i < length l)%nat -> nth_error (set_nth l i x) i = Some x.
Proof. induction l as [|y l IH]; intros [|i] x H; cbn in *; auto; try lia. apply IH. lia. Qed.
Lemma set_nth_last {A} (l : list A) x y : set_nth (l ++ [x]) (length l) y = l ++ [y].
Proof. induction l; cbn; auto. now f_equal. Qed.

Lemma obind_inv {A B} (m : M (option A)) (f : A -> M (option B)) s b s' : obind m f s = Ret (Some b, s') ->
  exists a s1, m s = Ret (Some a, s1) /\ f a s1 = Ret (Some b, s').
Proof. intros H. apply bind_inv in H as ([a|] & s1 & E & H); [eauto | discriminate]. Qed.
Ltac ob H := let a := fresh "a" in let s := fresh "st" in let E := fresh "E" in apply obind_inv in H as (a & s & E & H).

Section Unref.
Variable F : Z -> option fundef.
Notation tr := (tr F).
Notation trl := (trl F).

Lemma tr_other FV us i e v : tr FV us e (Lvar v) -> (i < length us)%nat -> v <> Z.of_nat i -> tr FV (set_nth us i true) e (Lvar v).
Proof.
  intros H Hi Hv. inversion H; subst; [| | |match goal with J : junk (Lvar _) |- _ => inversion J end].
  - apply tr_var; rewrite ?set_nth_len; auto. intros H0. rewrite set_nth_other by lia. auto.
  - apply tr_get; rewrite ?set_nth_len; auto. rewrite set_nth_other by lia. auto.
  - apply tr_get1; rewrite ?set_nth_len; auto. rewrite set_nth_other by lia. auto.
Qed.
(** the variable itself *)
Lemma tr_self FV us i e : tr FV us e (Lvar (Z.of_nat i)) -> nth_error us i = Some false -> exists n, e = Lvar n /\ Z.of_nat i = zl us - n - 1.
Proof.
  intros H Hi. inversion H; subst; [eauto | | |match goal with J : junk (Lvar _) |- _ => inversion J end];
    match goal with J : nth_error us (Z.to_nat ?z) = Some true, K : ?z = Z.of_nat i |- _ => rewrite K, Nat2Z.id in J; congruence
                  | J : nth_error us (Z.to_nat (Z.of_nat i)) = Some true |- _ => rewrite Nat2Z.id in J; congruence | _ => idtac end.
Qed.

Section Step.
Variable n i : nat.
Definition unok (e' : lam) : Prop := forall FV us e e'' s s', unref n (Z.of_nat i) e' s = Ret (Some e'', s') -> tr FV us e e' -> nth_error us i = Some false ->
  tr FV (set_nth us i true) e e''.
Hypothesis IH : forall e', unok e'.

Lemma un_list FV us : forall es es', Forall2 (tr FV us) es es' -> nth_error us i = Some false ->
  forall s es'' s', omapl (unref n (Z.of_nat i)) es' s = Ret (Some es'', s') -> Forall2 (tr FV (set_nth us i true)) es es''.
Proof.
  intros es es' H Hi. induction H as [|e e' es es' T Ts IHs]; intros s es'' s' E; cbn [omapl] in E.
  - injection E as <- <-. constructor.
  - ob E. ob E. injection E as <- <-. constructor; eauto. eapply IH; eauto.
Qed.
Lemma un_case {T} FV us : forall (cl cl' : list (T * lam)), Forall2 (fun x y => fst x = fst y /\ tr FV us (snd x) (snd y)) cl cl' -> nth_error us i = Some false ->
  forall s cl'' s', omapl (fun '(t, a) => let? a := unref n (Z.of_nat i) a in some (t, a)) cl' s = Ret (Some cl'', s') ->
  Forall2 (fun x y => fst x = fst y /\ tr FV (set_nth us i true) (snd x) (snd y)) cl cl''.
Proof.
  intros cl cl' H Hi. induction H as [|[t e] [t' e'] cl cl' [T1 T2] Ts IHs]; intros s cl'' s' E; cbn [omapl] in E.
  - injection E as <- <-. constructor.
  - ob E. ob E0. injection E0 as <- <-. ob E. injection E as <- <-. constructor; eauto. cbn in *. split; auto. eapply IH; eauto.
Qed.
Lemma un_mk FV us e t e' e'' s s' : tr FV us e (Lprim (Pmakeblock t 1) [e']) -> nth_error us i = Some false ->
  unref n (Z.of_nat i) e' s = Ret (Some e'', s') -> tr FV (set_nth us i true) e (Lprim (Pmakeblock t 1) [e'']).
Proof.
  intros H Hi E. inversion H; subst.
  - match goal with J : junk (Lprim _ _) |- _ => inversion J end.
  - apply tr_let1. eapply IH; eauto.
  - match goal with J : Forall2 _ _ _ |- _ => inversion J as [|? ? ? ? J1 J2]; subst; inversion J2; subst end.
    apply tr_prim. constructor; auto. eapply IH; eauto.
Qed.
Lemma un_let FV : forall es' us es b b', trl FV us es b es' b' -> nth_error us i = Some false ->
  forall s es'' s1 b'' s2, omapl (unref n (Z.of_nat i)) es' s = Ret (Some es'', s1) -> unref n (Z.of_nat i) b' s1 = Ret (Some b'', s2) ->
  trl FV (set_nth us i true) es b es'' b''.
Proof.
  induction es' as [|e' es' IHe]; intros us es b b' H Hi s es'' s1 b'' s2 E1 E2; cbn [omapl] in E1.
  - inversion H; subst. injection E1 as <- <-. apply trl_nil. eapply IH; eauto.
  - assert (LT : (i < length us)%nat) by (apply nth_error_Some; congruence).
    assert (NA : forall u, nth_error (us ++ [u]) i = Some false) by (intros u; now rewrite nth_error_app1).
    ob E1. ob E1. injection E1 as <- <-. inversion H; subst.
    + apply trl_cons; [eapply IH; eauto|]. rewrite <- set_nth_app by auto. eapply IHe; eauto.
    + eapply trl_cell; [eapply un_mk; eauto|]. rewrite <- set_nth_app by auto. eapply IHe; eauto.
Qed.
Lemma un_vars : forall l s es'' s', omapl (unref n (Z.of_nat i)) (map Lvar l) s = Ret (Some es'', s') -> es'' = map Lvar l /\ ~ In (Z.of_nat i) l.
Proof.
  induction l as [|z l IHl]; intros s es'' s' E; cbn [omapl map] in E. { injection E as <- <-. auto. }
  ob E. ob E. injection E as <- <-. apply IHl in E1 as (-> & N). destruct n; [discriminate|]. cbn [unref] in E0.
  destruct (z =? Z.of_nat i) eqn:EZ; [discriminate|]. injection E0 as <- <-. cbn. split; auto. intros [H | H]; auto. lia.
Qed.
Lemma un_fn FV us k b lbl fv b' : tr FV us (lfns (S k) b) (Lprim (Pclosure lbl (zl fv)) (map (fun id => Lvar (zl us + id)) fv)) -> nth_error us i = Some false ->
  F lbl = Some (mkF (S k) fv b') -> tr fv (repeat false (S k)) b b' ->
  (forall id, In id fv -> id < 0 /\ (zl us + id < 0 -> In (zl us + id) FV) /\ (0 <= zl us + id -> nth_error us (Z.to_nat (zl us + id)) = Some false)) ->
  (forall id, In id (tl fv) -> id < -1) ->
  forall s es'' s', omapl (unref n (Z.of_nat i)) (map (fun id => Lvar (zl us + id)) fv) s = Ret (Some es'', s') ->
  tr FV (set_nth us i true) (lfns (S k) b) (Lprim (Pclosure lbl (zl fv)) es'').
Proof.
  intros _ Hi HF Hb H1 H2 s es'' s' E.
  replace (map (fun id => Lvar (zl us + id)) fv) with (map Lvar (map (Z.add (zl us)) fv)) in E by (rewrite map_map; auto).
  apply un_vars in E as (-> & N). rewrite map_map.
  replace (map (fun x => Lvar (zl us + x)) fv) with (map (fun x => Lvar (zl (set_nth us i true) + x)) fv) by (now rewrite set_nth_len).
  eapply tr_fn; eauto. rewrite set_nth_len. intros id Hid. destruct (H1 id Hid) as (A & B & C). split; auto. split; auto. intros H0. rewrite set_nth_other; auto.
  intros Ei. apply N. apply in_map_iff. exists id. split; auto. rewrite Ei. lia.
Qed.
End Step.

Ltac jk := match goal with J : junk ?e |- _ => tryif is_var e then fail else (inversion J; fail) end.
Lemma unref_tr i : forall n e', unok n i e'.
Proof.
  induction n as [|n IH]; intros e' FV us e e'' s s' H T Hi; [discriminate|]. cbn [unref] in H.
  assert (LT : (i < length us)%nat) by (apply nth_error_Some; congruence).
  assert (G : forall q es' x s x', omapl (unref n (Z.of_nat i)) es' s = Ret (Some x, x') -> tr FV us e (Lprim q es') -> tr FV (set_nth us i true) e (Lprim q x)).
  { clear s s' H T e''. intros q es' x s x' H T. inversion T; subst; try jk.
    - eapply un_fn; eauto.
    - cbn [omapl] in H. ob H. ob H. injection E0 as <- <-. injection H as <- <-. apply tr_let1. eapply IH; eauto.
    - apply tr_prim. eapply un_list; eauto. }
  destruct e'.
  - destruct (n0 =? Z.of_nat i) eqn:E; [discriminate|]. injection H as <- <-. apply tr_other; auto. lia.
  - injection H as <- <-. inversion T; subst; try jk. constructor.
  - ob H. ob H. injection H as <- <-. inversion T; subst; try jk. apply tr_app; [eapply IH | eapply un_list]; eauto.
  - discriminate.
  - ob H. ob H. injection H as <- <-. inversion T; subst; try jk. apply tr_let. eapply un_let; eauto.
  - ob H. ob H. injection H as <- <-. inversion T; subst; try jk.
    assert (NA : forall u, nth_error (us ++ u) i = Some false) by (intros u; now rewrite nth_error_app1).
    apply tr_letrec; rewrite <- set_nth_app by auto; [eapply un_list | eapply IH]; eauto.
  - (* a primitive *)
    assert (G0 : (let? es := omapl (unref n (Z.of_nat i)) es in some (Lprim p es)) s = Ret (Some e'', s') -> tr FV (set_nth us i true) e e'').
    { intros H0. ob H0. injection H0 as <- <-. eapply G; eauto. }
    destruct p as [u | u | tg k | k | k | | lb k | q]; try (exact (G0 H)); destruct k as [|k|k]; try (exact (G0 H));
      destruct es as [|[] [|e2 [|]]]; try (exact (G0 H)); clear G0.
    + destruct (n0 =? Z.of_nat i) eqn:E; injection H as <- <-.
      * apply Z.eqb_eq in E as ->. inversion T; subst; try jk.
        -- match goal with J : tr _ _ _ (Lvar _) |- _ => destruct (tr_self _ _ _ _ J Hi) as (m & -> & Em) end.
           apply tr_get1; rewrite ?set_nth_len; auto; [lia|]. rewrite Nat2Z.id. now apply set_nth_same.
        -- match goal with J : Forall2 _ _ _ |- _ => inversion J as [|? ? ? ? J1 J2]; subst; inversion J2; subst end.
           destruct (tr_self _ _ _ _ J1 Hi) as (m & -> & Em). apply tr_get; rewrite ?set_nth_len; auto; [lia|]. rewrite Nat2Z.id. now apply set_nth_same.
      * apply Z.eqb_neq in E. inversion T; subst; try jk.
        -- apply tr_let1. now apply tr_other.
        -- match goal with J : Forall2 _ _ _ |- _ => inversion J as [|? ? ? ? J1 J2]; subst; inversion J2; subst end.
           apply tr_prim. constructor; auto. now apply tr_other.
    + ob H. inversion T; subst; try jk.
      match goal with J : Forall2 _ _ _ |- _ => inversion J as [|? ? ? ? J1 J2]; subst; inversion J2 as [|? ? ? ? J3 J4]; subst; inversion J4; subst end.
      destruct (n0 =? Z.of_nat i) eqn:En; injection H as <- <-.
      * apply Z.eqb_eq in En as ->. destruct (tr_self _ _ _ _ J1 Hi) as (m & -> & Em). apply tr_set; rewrite ?set_nth_len; auto; [lia| |eapply IH; eauto].
        rewrite Nat2Z.id. now apply set_nth_same.
      * apply Z.eqb_neq in En. apply tr_prim. constructor; [now apply tr_other|]. constructor; auto. eapply IH; eauto.
  - ob H. ob H. injection H as <- <-. inversion T; subst; try jk. apply tr_case; [eapply IH | eapply un_case]; eauto.
  - ob H. ob H. injection H as <- <-. inversion T; subst; try jk. apply tr_switch; [eapply IH | eapply un_case]; eauto.
  - injection H as <- <-. inversion T; subst; try jk. constructor.
  - ob H. ob H. injection H as <- <-. inversion T; subst; try jk. apply tr_shandle; eapply IH; eauto.
  - ob H. ob H. injection H as <- <-. inversion T; subst; try jk. apply tr_handle; [eapply IH; eauto|]. rewrite <- set_nth_app by auto. eapply IH; eauto. now rewrite nth_error_app1.
  - ob H. ob H. ob H. injection H as <- <-. inversion T; subst; try jk. apply tr_if; eapply IH; eauto.
  - ob H. ob H. injection H as <- <-. inversion T; subst; try jk. apply tr_seq; eapply IH; eauto.
  - ob H. ob H. injection H as <- <-. inversion T; subst; try jk. apply tr_while; eapply IH; eauto.
  - ob H. ob H. injection H as <- <-. inversion T; subst; try jk. apply tr_and; eapply IH; eauto.
  - ob H. ob H. injection H as <- <-. inversion T; subst; try jk. apply tr_or; eapply IH; eauto.
  - injection H as <- <-. inversion T; subst; try jk. constructor.
  - (* shared *) apply bind_inv in H as ((c & l) & s1 & E1 & H).
    assert (X : e'' = Lshared k). { destruct (l =? lnot s1); [now injection H|]. apply bind_inv in H as (u & s2 & E2 & H). ob H. apply bind_inv in H as (u2 & s3 & E3 & H). now injection H. }
    subst e''. inversion T; subst. now constructor.
  - ob H. injection H as <- <-. inversion T; subst.
    + apply tr_set; rewrite ?set_nth_len; auto. { rewrite set_nth_other; auto. intros X. subst i. congruence. } eapply IH; eauto.
    + constructor; auto. constructor.
Qed.

(** ** The arguments of a let: [l] is the translations of [as], the last one first *)
Inductive trs (FV : list Z) (us : list bool) : list lam -> list lam -> Prop :=
| trs_nil : trs FV us [] []
| trs_snoc es a l x : trs FV us es l -> tr FV (us ++ repeat false (length es)) a x -> trs FV us (es ++ [a]) (x :: l).
Lemma repeat_snoc {A} (x : A) n : repeat x n ++ [x] = repeat x (S n).
Proof. induction n; cbn; auto. now f_equal. Qed.
Lemma opt_refs_tr FV us b fuel : forall l es b' acc es2 i s r s', opt_refs fuel b' i l acc s = Ret (r, s') -> trs FV us es l ->
  i = zl us + zl es - 1 -> trl FV (us ++ repeat false (length es)) es2 b acc b' -> tr FV us (Llet (es ++ es2) b) r.
Proof.
  induction l as [|x l IHl]; intros es b' acc es2 i s r s' H T Ei TL; cbn [opt_refs] in H.
  - injection H as <- <-. inversion T; subst. cbn in TL. rewrite app_nil_r in TL. now apply tr_let.
  - inversion T as [|es1 a l1 x1 T1 Ta]; subst. clear T. rewrite app_length in *. cbn [length] in *.
    assert (R : us ++ repeat false (length es1 + 1) = (us ++ repeat false (length es1)) ++ [false]).
    { rewrite <- app_assoc, repeat_snoc. now rewrite Nat.add_1_r. }
    assert (N : forall s, opt_refs fuel b' (zl us + Z.of_nat (length es1 + 1) - 1 - 1) l (x :: acc) s = Ret (r, s') -> tr FV us (Llet ((es1 ++ [a]) ++ es2) b) r).
    { intros s0 H0. rewrite <- app_assoc. eapply IHl; [exact H0 | exact T1 | lia |]. cbn [app]. apply trl_cons; auto. now rewrite <- R. }
    assert (D : forall t e, x = Lprim (Pmakeblock t 1) [e] -> forall s, (let* _ := newLabelNot in
      let* r := (let? acc' := omapl (unref fuel (zl us + Z.of_nat (length es1 + 1) - 1)) acc in let? b'' := unref fuel (zl us + Z.of_nat (length es1 + 1) - 1) b' in some (acc', b'')) in
      match r with
      | Some (acc', b'') => opt_refs fuel b'' (zl us + Z.of_nat (length es1 + 1) - 1 - 1) l (e :: acc')
      | None => opt_refs fuel b' (zl us + Z.of_nat (length es1 + 1) - 1 - 1) l (x :: acc)
      end) s = Ret (r, s') -> tr FV us (Llet ((es1 ++ [a]) ++ es2) b) r).
    { intros t e -> s0 H0. apply bind_inv in H0 as (u & s1 & _ & H0). apply bind_inv in H0 as ([[acc' b'']|] & s2 & E & H0); [|eauto].
      ob E. ob E. injection E as <- <- <-. rewrite <- app_assoc. eapply IHl; [exact H0 | exact T1 | lia |]. cbn [app].
      apply trl_cell with (t := t); auto.
      replace (zl us + Z.of_nat (length es1 + 1) - 1) with (Z.of_nat (length (us ++ repeat false (length es1)))) in * by (rewrite app_length, repeat_length; lia).
      rewrite <- (set_nth_last _ false true). rewrite <- R. eapply un_let; eauto.
      - apply unref_tr.
      - rewrite R, nth_error_app2, Nat.sub_diag by lia. reflexivity. }
    destruct x; try (eapply N; eauto; fail). destruct p; try (eapply N; eauto; fail). destruct span as [|[q|q|]|q]; try (eapply N; eauto; fail).
    destruct es as [|e [|]]; try (eapply N; eauto; fail). eapply D; eauto.
Qed.
End Unref.
