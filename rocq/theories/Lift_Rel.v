(** Terms before and after UNdeBruijn: [tr] relates a term with de Bruijn indices (Lam_Spec) to a term whose functions have
    labels, whose variables are numbered from the outermost, and some of whose references live in variables (Back_Spec);
    a program and its translation mean the same (tr_sim). *)
From Verif Require Import Base Opcodes Back_Model Back_Spec Back_Sim Back_Frame Lam_Spec.

Fixpoint lfns (n : nat) (b : lam) : lam := match n with O => b | S n => Lfn (lfns n b) end.
Inductive junk : lam -> Prop := j_assign n e : junk (Lassign n e) | j_shared k : junk (Lshared k).
Notation zl l := (Z.of_nat (length l)).

Section Tr.
Variable F : Z -> option fundef.

(** [FV]: the free variables of the function; [us]: for each local variable, from the outermost, whether it holds
    the contents of a reference rather than the reference *)
Inductive tr : list Z -> list bool -> lam -> lam -> Prop :=
| tr_var FV us n id : id = zl us - n - 1 -> (id < 0 -> In id FV) -> (0 <= id -> nth_error us (Z.to_nat id) <> Some true) -> tr FV us (Lvar n) (Lvar id)
| tr_get FV us n id : id = zl us - n - 1 -> 0 <= id -> nth_error us (Z.to_nat id) = Some true -> tr FV us (Lprim (Pfield 0) [Lvar n]) (Lvar id)
| tr_get1 FV us n id : id = zl us - n - 1 -> 0 <= id -> nth_error us (Z.to_nat id) = Some true ->
    tr FV us (Llet [Lvar n] (Lprim (Pfield 0) [Lvar 0])) (Lvar id)
| tr_set FV us n id e e' : id = zl us - n - 1 -> 0 <= id -> nth_error us (Z.to_nat id) = Some true -> tr FV us e e' ->
    tr FV us (Lprim (Psetfield 0) [Lvar n; e]) (Lassign id e')
| tr_const FV us c : tr FV us (Lconst c) (Lconst c)
| tr_fail FV us : tr FV us Lstaticfail Lstaticfail
| tr_unspec FV us : tr FV us Lunspec Lunspec
| tr_junk FV us e e' : junk e -> junk e' -> tr FV us e e'
| tr_app FV us f f' es es' : tr FV us f f' -> Forall2 (tr FV us) es es' -> tr FV us (Lapply f es) (Lapply f' es')
| tr_fn FV us k b lbl fv b' : F lbl = Some (mkF (S k) fv b') -> tr fv (repeat false (S k)) b b' ->
    (forall id, In id fv -> id < 0 /\ (zl us + id < 0 -> In (zl us + id) FV) /\ (0 <= zl us + id -> nth_error us (Z.to_nat (zl us + id)) = Some false)) ->
    (forall id, In id (tl fv) -> id < -1) ->
    tr FV us (lfns (S k) b) (Lprim (Pclosure lbl (zl fv)) (map (fun id => Lvar (zl us + id)) fv))
| tr_let FV us es b es' b' : trl FV us es b es' b' -> tr FV us (Llet es b) (Llet es' b')
| tr_let1 FV us e e' q : tr FV us e e' -> tr FV us (Llet [e] (Lprim q [Lvar 0])) (Lprim q [e'])
| tr_letrec FV us es b es' b' : Forall2 (tr FV (us ++ repeat false (length es))) es es' -> tr FV (us ++ repeat false (length es)) b b' ->
    tr FV us (Lletrec es b) (Lletrec es' b')
| tr_prim FV us q es es' : Forall2 (tr FV us) es es' -> tr FV us (Lprim q es) (Lprim q es')
| tr_case FV us a a' cl cl' : tr FV us a a' -> Forall2 (fun x y => fst x = fst y /\ tr FV us (snd x) (snd y)) cl cl' -> tr FV us (Lcase a cl) (Lcase a' cl')
| tr_switch FV us n a a' cl cl' : tr FV us a a' -> Forall2 (fun x y => fst x = fst y /\ tr FV us (snd x) (snd y)) cl cl' ->
    tr FV us (Lswitch n a cl) (Lswitch n a' cl')
| tr_shandle FV us a a' b b' : tr FV us a a' -> tr FV us b b' -> tr FV us (Lstatichandle a b) (Lstatichandle a' b')
| tr_handle FV us a a' b b' : tr FV us a a' -> tr FV (us ++ [false]) b b' -> tr FV us (Lhandle a b) (Lhandle a' b')
| tr_if FV us a a' b b' c c' : tr FV us a a' -> tr FV us b b' -> tr FV us c c' -> tr FV us (Lif a b c) (Lif a' b' c')
| tr_seq FV us a a' b b' : tr FV us a a' -> tr FV us b b' -> tr FV us (Lseq a b) (Lseq a' b')
| tr_while FV us a a' b b' : tr FV us a a' -> tr FV us b b' -> tr FV us (Lwhile a b) (Lwhile a' b')
| tr_and FV us a a' b b' : tr FV us a a' -> tr FV us b b' -> tr FV us (Landalso a b) (Landalso a' b')
| tr_or FV us a a' b b' : tr FV us a a' -> tr FV us b b' -> tr FV us (Lorelse a b) (Lorelse a' b')
with trl : list Z -> list bool -> list lam -> lam -> list lam -> lam -> Prop :=
| trl_nil FV us b b' : tr FV us b b' -> trl FV us [] b [] b'
| trl_cons FV us e e' es b es' b' : tr FV us e e' -> trl FV (us ++ [false]) es b es' b' -> trl FV us (e :: es) b (e' :: es') b'
| trl_cell FV us e t e' es b es' b' : tr FV us e (Lprim (Pmakeblock t 1) [e']) -> trl FV (us ++ [true]) es b es' b' ->
    trl FV us (e :: es) b (e' :: es') b'.

(** ** Values *)
(** for each location of the source's store the value that stands for it; none for a reference that lives in a variable *)
Definition w1 := list (option sval).
Definition vr (W : w1) (v v' : sval) : Prop :=
  match v with
  | SNum n => v' = SNum n
  | SAtom t => v' = SAtom t
  | SLoc l => nth_error W l = Some (Some v')
  | SPap _ _ => False
  | SAny => v' = SAny
  end.
Definition pre {A} (W W' : list A) : Prop := exists W2, W' = W ++ W2.
Lemma pre_refl {A} (W : list A) : pre W W.
Proof. exists []. now rewrite app_nil_r. Qed.
Lemma pre_trans {A} (a b c : list A) : pre a b -> pre b c -> pre a c.
Proof. intros (x & ->) (y & ->). exists (x ++ y). now rewrite app_assoc. Qed.
Lemma pre_app {A} (a b : list A) : pre a (a ++ b).
Proof. now exists b. Qed.
Lemma pre_nth {A} (a b : list A) i x : pre a b -> nth_error a i = Some x -> nth_error b i = Some x.
Proof. intros (c & ->) H. rewrite nth_error_app1; auto. apply nth_error_Some. congruence. Qed.
Lemma vr_mono W W' v v' : pre W W' -> vr W v v' -> vr W' v v'.
Proof. intros P. destruct v; cbn; auto. now apply pre_nth. Qed.
Lemma vrs_mono W W' vs vs' : pre W W' -> Forall2 (vr W) vs vs' -> Forall2 (vr W') vs vs'.
Proof. intros P H. induction H; constructor; eauto using vr_mono. Qed.

Definition func (v : sval) : option (nat * list sval) := match v with SLoc l => Some (l, []) | SPap l a => Some (l, a) | _ => None end.
(** the variables of a closure *)
Definition cvars (W : w1) (fv : list Z) (cl env0 : list sval) : Prop :=
  forall id, In id fv -> exists v i v', nth_error env0 (Z.to_nat (-1 - id)) = Some v /\ fv_index id 0 fv = Some i /\ nth_error cl (Z.to_nat i) = Some v' /\ vr W v v'.
Definition frelv (W : w1) (fns : list lam) (t : store) (k : Z) (env : list sval) (v' : sval) : Prop :=
  exists b j l' args' lbl vs' fv b' args env0,
    0 <= k /\ nth_error fns (Z.to_nat k) = Some (lfns j b) /\ func v' = Some (l', args') /\ nth_error t l' = Some (Clo lbl vs') /\
    F lbl = Some (mkF (S j + length args') fv b') /\ tr fv (repeat false (S j + length args')) b b' /\
    env = rev args ++ env0 /\ Forall2 (vr W) args args' /\ (forall id, In id fv -> id < 0) /\ cvars W fv vs' env0.

Variable p : sprims.
Record inv (W : w1) (s : xst) (t : store) (gt : sglob) : Prop := {
  v_len : length W = length (xsto s);
  v_blk : forall l tg vs v', nth_error (xsto s) l = Some (Blk tg vs) -> nth_error W l = Some (Some v') ->
    exists l' vs', v' = SLoc l' /\ nth_error t l' = Some (Blk tg vs') /\ Forall2 (vr W) vs vs';
  v_clo : forall l k env, nth_error (xsto s) l = Some (Clo k env) -> exists v', nth_error W l = Some (Some v') /\ frelv W (xfn s) t k env v';
  v_inj : forall l1 l2 tg1 vs1 tg2 vs2 v', nth_error (xsto s) l1 = Some (Blk tg1 vs1) -> nth_error (xsto s) l2 = Some (Blk tg2 vs2) ->
    nth_error W l1 = Some (Some v') -> nth_error W l2 = Some (Some v') -> l1 = l2;
  v_glob : forall u v, slook (xgl s) u = Some v -> exists v', slook gt u = Some v' /\ vr W v v';
  v_lit : forall k, vr W (slit p k) (slit p k) }.

(** the location [l] is a reference that lives in a local variable *)
Definition cell (us : list bool) (env : list sval) (l : nat) : Prop :=
  exists i, nth_error us i = Some true /\ nth_error env (length us - 1 - i) = Some (SLoc l).
Record lrel (W : w1) (s : xst) (us : list bool) (env loc : list sval) : Prop := {
  l_len : length loc = length us;
  l_at : forall i u, nth_error us i = Some u -> exists v v', nth_error env (length us - 1 - i) = Some v /\ nth_error loc i = Some v' /\
    if u then exists l t v0, v = SLoc l /\ nth_error W l = Some None /\ nth_error (xsto s) l = Some (Blk t [v0]) /\ vr W v0 v' else vr W v v';
  l_inj : forall i j l, nth_error us i = Some true -> nth_error us j = Some true ->
    nth_error env (length us - 1 - i) = Some (SLoc l) -> nth_error env (length us - 1 - j) = Some (SLoc l) -> i = j }.
Definition frel (W : w1) (d : nat) (FV : list Z) (fv : list Z) (cl env : list sval) : Prop :=
  forall id, In id FV -> id < 0 /\ exists v i v', nth_error env (d + Z.to_nat (-1 - id)) = Some v /\ fv_index id 0 fv = Some i /\ nth_error cl (Z.to_nat i) = Some v' /\ vr W v v'.
(** the references of other functions' variables are not touched *)
Definition keeps (W : w1) (us : list bool) (env : list sval) (s s' : xst) : Prop :=
  forall l b, nth_error W l = Some None -> ~ cell us env l -> nth_error (xsto s) l = Some b -> nth_error (xsto s') l = Some b.
Definition rr (W : w1) (r r' : res) : Prop :=
  match r, r' with RV v, RV v' => vr W v v' | RX v, RX v' => vr W v v' | RF, RF => True | _, _ => False end.
Definition lrr (W : w1) (r r' : lres) : Prop :=
  match r, r' with LV vs, LV vs' => Forall2 (vr W) vs vs' | LX v, LX v' => vr W v v' | LF, LF => True | _, _ => False end.

Definition post (W : w1) us env (s s' : xst) (W' : w1) (x : sst) : Prop :=
  pre W W' /\ inv W' s' (sto x) (gl x) /\ lrel W' s' us env (loc x) /\ keeps W us env s s'.

Lemma cell_lt W s t gt us env loc l : inv W s t gt -> lrel W s us env loc -> cell us env l -> nth_error W l = Some None.
Proof.
  intros I L (i & H1 & H2). destruct (l_at _ _ _ _ _ L _ _ H1) as (v & v' & E & _ & l1 & tg & v0 & -> & E1 & _). congruence.
Qed.
Lemma post_trans W us env s s1 W1 x1 s2 W2 x2 : post W us env s s1 W1 x1 -> post W1 us env s1 s2 W2 x2 -> post W us env s s2 W2 x2.
Proof.
  intros (A1 & A2 & A3 & A4) (B1 & B2 & B3 & B4). split; [eapply pre_trans; eauto|]. split; auto. split; auto.
  intros l b H1 H2 H3. apply B4; auto. eapply pre_nth; eauto.
Qed.
Lemma post_refl W us env s x : inv W s (sto x) (gl x) -> lrel W s us env (loc x) -> post W us env s s W x.
Proof. intros I L. split; [apply pre_refl|]. split; auto. split; auto. intros l b _ _ H. exact H. Qed.
Lemma lrel_mono W s us env loc W' s' : lrel W s us env loc -> pre W W' ->
  (forall l b, cell us env l -> nth_error (xsto s) l = Some b -> nth_error (xsto s') l = Some b) -> lrel W' s' us env loc.
Proof. clear F p.
  intros [] P K. constructor; auto. intros i u H. destruct (l_at0 i u H) as (v & v' & E1 & E2 & E3). exists v, v'. split; auto. split; auto.
  destruct u; [|eapply vr_mono; eauto]. destruct E3 as (l & t & v0 & -> & E4 & E5 & E6). exists l, t, v0. split; auto. split; [eapply pre_nth; eauto|].
  split; [|eapply vr_mono; eauto]. apply K; auto. now exists i.
Qed.
Lemma frel_mono W W' d FV fv cl env : frel W d FV fv cl env -> pre W W' -> frel W' d FV fv cl env.
Proof. clear F p. intros H P id Hi. destruct (H id Hi) as (E0 & v & i & v' & E1 & E2 & E3 & E4). split; auto. exists v, i, v'. repeat (split; auto). eapply vr_mono; eauto. Qed.
Lemma frel_push W d FV fv cl env v : frel W d FV fv cl env -> frel W (S d) FV fv cl (v :: env).
Proof. clear F p. intros H id Hi. destruct (H id Hi) as (E0 & w & i & v' & E1 & E2 & E3 & E4). split; auto. exists w, i, v'. repeat (split; auto). Qed.
Lemma lrel_push W s us env loc v v' : lrel W s us env loc -> vr W v v' -> lrel W s (us ++ [false]) (v :: env) (loc ++ [v']).
Proof. clear F p.
  intros [] V. constructor.
  - rewrite !app_length. cbn. lia.
  - intros i u H. rewrite app_length. cbn [length].
    destruct (Nat.lt_ge_cases i (length us)) as [C | C].
    + rewrite nth_error_app1 in H by auto. destruct (l_at0 i u H) as (x & x' & E1 & E2 & E3). exists x, x'.
      replace (length us + 1 - 1 - i)%nat with (S (length us - 1 - i)) by lia. cbn [nth_error]. split; auto. split; auto.
      rewrite nth_error_app1; auto. lia.
    + rewrite nth_error_app2 in H by auto. destruct (i - length us)%nat as [|k] eqn:E; cbn in H; [|destruct k; discriminate]. injection H as <-.
      exists v, v'. replace (length us + 1 - 1 - i)%nat with O by lia. split; auto. split; auto. rewrite nth_error_app2 by lia. now replace (i - length loc)%nat with O by lia.
  - intros i j l. rewrite !app_length. cbn [length]. intros H1 H2.
    assert (T : forall i, nth_error (us ++ [false]) i = Some true -> (i < length us)%nat /\ nth_error us i = Some true).
    { intros k Hk. destruct (Nat.lt_ge_cases k (length us)) as [C | C]; [rewrite nth_error_app1 in Hk; auto|].
      rewrite nth_error_app2 in Hk by auto. destruct (k - length us)%nat as [|m]; [|destruct m]; discriminate. }
    apply T in H1 as (C1 & H1). apply T in H2 as (C2 & H2).
    replace (length us + 1 - 1 - i)%nat with (S (length us - 1 - i)) by lia. replace (length us + 1 - 1 - j)%nat with (S (length us - 1 - j)) by lia. cbn [nth_error]. eauto.
Qed.
Lemma cell_push us env v l : cell (us ++ [false]) (v :: env) l <-> cell us env l.
Proof. clear F p.
  split; intros (i & H1 & H2).
  - rewrite app_length in H2. cbn [length] in H2. destruct (Nat.lt_ge_cases i (length us)) as [C | C].
    + rewrite nth_error_app1 in H1 by auto. exists i. split; auto. now replace (length us + 1 - 1 - i)%nat with (S (length us - 1 - i)) in H2 by lia.
    + rewrite nth_error_app2 in H1 by auto. destruct (i - length us)%nat as [|m]; [|destruct m]; discriminate.
  - assert (C : (i < length us)%nat) by (apply nth_error_Some; congruence). exists i. rewrite app_length. cbn [length].
    split; [now rewrite nth_error_app1|]. now replace (length us + 1 - 1 - i)%nat with (S (length us - 1 - i)) by lia.
Qed.
Lemma lrel_pushc W s us env loc l t v0 v' : lrel W s us env loc -> nth_error W l = Some None -> nth_error (xsto s) l = Some (Blk t [v0]) -> vr W v0 v' ->
  ~ cell us env l -> lrel W s (us ++ [true]) (SLoc l :: env) (loc ++ [v']).
Proof. clear F p.
  intros [] NW NS V NC.
  assert (T : forall i, nth_error (us ++ [true]) i = Some true -> ((i < length us)%nat /\ nth_error us i = Some true) \/ i = length us).
  { intros k Hk. destruct (Nat.lt_ge_cases k (length us)) as [C | C]; [rewrite nth_error_app1 in Hk; auto|].
    rewrite nth_error_app2 in Hk by auto. destruct (k - length us)%nat as [|m] eqn:E; [|destruct m; discriminate]. right. lia. }
  constructor.
  - rewrite !app_length. cbn. lia.
  - intros i u H. rewrite app_length. cbn [length].
    destruct (Nat.lt_ge_cases i (length us)) as [C | C].
    + rewrite nth_error_app1 in H by auto. destruct (l_at0 i u H) as (x & x' & E1 & E2 & E3). exists x, x'.
      replace (length us + 1 - 1 - i)%nat with (S (length us - 1 - i)) by lia. cbn [nth_error]. split; auto. split; auto.
      rewrite nth_error_app1; auto. lia.
    + rewrite nth_error_app2 in H by auto. destruct (i - length us)%nat as [|k] eqn:E; cbn in H; [|destruct k; discriminate]. injection H as <-.
      exists (SLoc l), v'. replace (length us + 1 - 1 - i)%nat with O by lia. split; auto. split; [|exists l, t, v0; auto].
      rewrite nth_error_app2 by lia. now replace (i - length loc)%nat with O by lia.
  - intros i j l1. rewrite !app_length. cbn [length]. intros H1 H2.
    apply T in H1 as [(C1 & H1) | ->]; apply T in H2 as [(C2 & H2) | ->]; auto.
    + replace (length us + 1 - 1 - i)%nat with (S (length us - 1 - i)) by lia. replace (length us + 1 - 1 - j)%nat with (S (length us - 1 - j)) by lia. cbn [nth_error]. eauto.
    + replace (length us + 1 - 1 - i)%nat with (S (length us - 1 - i)) by lia. replace (length us + 1 - 1 - length us)%nat with O by lia. cbn [nth_error].
      intros E1 [= <-]. destruct NC. now exists i.
    + replace (length us + 1 - 1 - j)%nat with (S (length us - 1 - j)) by lia. replace (length us + 1 - 1 - length us)%nat with O by lia. cbn [nth_error].
      intros [= <-] E1. destruct NC. now exists j.
Qed.
Lemma cell_pushc us env k l : cell (us ++ [true]) (SLoc k :: env) l <-> cell us env l \/ l = k.
Proof. clear F p.
  split.
  - intros (i & H1 & H2). rewrite app_length in H2. cbn [length] in H2. destruct (Nat.lt_ge_cases i (length us)) as [C | C].
    + rewrite nth_error_app1 in H1 by auto. left. exists i. split; auto. now replace (length us + 1 - 1 - i)%nat with (S (length us - 1 - i)) in H2 by lia.
    + right. assert ((i < length (us ++ [true]))%nat) by (apply nth_error_Some; congruence). rewrite app_length in H. cbn [length] in H.
      replace (length us + 1 - 1 - i)%nat with O in H2 by lia. now injection H2 as <-.
  - intros [(i & H1 & H2) | ->].
    + assert (C : (i < length us)%nat) by (apply nth_error_Some; congruence). exists i. rewrite app_length. cbn [length].
      split; [now rewrite nth_error_app1|]. now replace (length us + 1 - 1 - i)%nat with (S (length us - 1 - i)) by lia.
    + exists (length us). rewrite app_length. cbn [length]. split; [rewrite nth_error_app2, Nat.sub_diag by lia; auto|]. now replace (length us + 1 - 1 - length us)%nat with O by lia.
Qed.
(** leaving a scope *)
Lemma lrel_pop W s us u env v loc : lrel W s (us ++ [u]) (v :: env) loc -> lrel W s us env (firstn (length us) loc).
Proof. clear F p.
  intros []. rewrite app_length in *. cbn [length] in *.
  assert (X : forall i x, nth_error us i = Some x -> (i < length us)%nat /\ nth_error (us ++ [u]) i = Some x /\ (length us + 1 - 1 - i = S (length us - 1 - i))%nat).
  { intros i x H. assert (C : (i < length us)%nat) by (apply nth_error_Some; congruence). split; auto. split; [now rewrite nth_error_app1 | lia]. }
  constructor.
  - rewrite firstn_length. lia.
  - intros i x H. destruct (X _ _ H) as (C & H1 & E). destruct (l_at0 _ _ H1) as (y & y' & E1 & E2 & E3). rewrite E in E1. exists y, y'. split; auto. split; auto.
    rewrite <- (firstn_skipn (length us) loc) in E2. rewrite nth_error_app1 in E2; auto. rewrite firstn_length. lia.
  - intros i j l H1 H2 E1 E2. destruct (X _ _ H1) as (C1 & G1 & K1). destruct (X _ _ H2) as (C2 & G2 & K2).
    apply (l_inj0 i j l); auto; [rewrite K1 | rewrite K2]; auto.
Qed.
End Tr.
