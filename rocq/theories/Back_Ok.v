(** The code for a term fits the stack if that of the continuation does. *)
From Verif Require Import Base Opcodes Back_Model Back_Spec Back_Rel.
From Verif Require Import Back_Sim Back_Goal Back_Main.

Section Ok.
Variable P : list instr.
Variable K : list instr.
Variable fv : list Z.
Variable shc : nat -> option lam.
Variable nf : lam -> Prop.
Variable F : Z -> option fundef.
Variable R : list value.
Variable x t : Z.
Notation cmp := (cmp P K fv shc nf).
Notation cmp_rl := (cmp_rl P K fv shc nf).
Notation cmp_lr := (cmp_lr P K fv shc nf).
Notation cmp_let := (cmp_let P K fv shc nf).
Notation cmp_init := (cmp_init P K fv shc nf).
Notation cmp_args := (cmp_args P K fv shc nf).
Notation cmp_test2 := (cmp_test2 P K fv shc nf).
Notation okC := (okC R x t).

Lemma okC_lab C l C1 sz : lab P K C l C1 -> 0 <= sz -> okC sz C -> okC sz C1.
Proof. intros H Hs HO. inversion H; subst; auto. now apply okC_label. Qed.
Fixpoint okc_cmp sf sz vs e C O (H : cmp sf sz vs e C O) {struct H} : 0 <= snd sf <= sz -> t <= sz + zlen R -> okC sz C -> okC sz O
with okc_rl sf sz vs es C O (H : cmp_rl sf sz vs es C O) {struct H} : 0 <= snd sf <= sz -> t <= sz + zlen R ->
  (es = [] -> okC sz C) -> (es <> [] -> okC (sz + zlen es - 1) C) -> okC sz O
with okc_lr sf sz vs es C O (H : cmp_lr sf sz vs es C O) {struct H} : 0 <= snd sf <= sz -> t <= sz + zlen R -> okC sz C -> okC sz O
with okc_let sf na sz vs args b C O (H : cmp_let sf na sz vs args b C O) {struct H} : 0 <= snd sf <= sz -> t <= sz + zlen R ->
  0 <= na -> 0 <= sz + zlen args - na -> okC (sz + zlen args - na) C -> okC sz O
with okc_init sf na sz vs l args b C O (H : cmp_init sf na sz vs l args b C O) {struct H} : 0 <= snd sf <= sz -> t <= sz + zlen R ->
  0 <= na -> 0 <= sz + zlen l - na -> okC (sz + zlen l - na) C -> okC sz O
with okc_args sf na sz vs i args b C O (H : cmp_args sf na sz vs i args b C O) {struct H} : 0 <= snd sf <= sz -> t <= sz + zlen R ->
  0 <= na -> 0 <= sz - na -> okC (sz - na) C -> okC sz O
with okc_test2 sf sz vs c a b C O (H : cmp_test2 sf sz vs c a b C O) {struct H} : 0 <= snd sf <= sz -> t <= sz + zlen R -> okC sz O.
Proof.
  - destruct H; intros Hsf Ht HO; pose proof (zlen_ge0 vs); try assumption; try (apply okC_plain; [assumption | exact I]; fail);
    try (match goal with H : cmp _ _ _ _ _ O |- _ => refine (okc_cmp _ _ _ _ _ _ H Hsf Ht _); apply okC_plain; [assumption | exact I] end; fail);
    try (match goal with H : cmp _ _ _ _ C O |- _ => exact (okc_cmp _ _ _ _ _ _ H Hsf Ht HO) end; fail);
    try (match goal with H : cmp_rl _ _ _ _ _ O |- _ => refine (okc_rl _ _ _ _ _ _ H Hsf Ht _ _); intros; apply okC_plain; try exact I; try lia end;
         match goal with H : ?es <> [] |- _ => destruct es; [easy|]; rewrite zlen_cons; pose proof (zlen_ge0 es); lia end; fail);
    try (match goal with H : cmp_lr _ _ _ _ _ O |- _ => refine (okc_lr _ _ _ _ _ _ H Hsf Ht _); (assumption || (apply okC_plain; [assumption | exact I])) end; fail).
    + refine (okc_let _ _ _ _ _ _ _ _ H Hsf Ht (zlen_ge0 _) _ _); [lia|]. now replace (sz + zlen args - zlen args) with sz by lia.
    + refine (okc_rl _ _ _ _ _ _ H1 Hsf Ht _ _); [discriminate|]. intros _. apply okC_plain; [|exact I]. rewrite zlen_cons. pose proof (zlen_ge0 rest). lia.
    + refine (okc_init _ _ _ _ _ _ _ _ _ H0 Hsf Ht (zlen_ge0 _) _ _); [lia|]. now replace (sz + zlen args - zlen args) with sz by lia.
    + destruct (okC_mbr P K R x t _ _ _ sz H) as (O1 & O2); auto; [lia|]. refine (okc_cmp _ _ _ _ _ _ H2 _ Ht (O2 _)). cbn [snd]. lia.
    + split; auto. pose proof (addPop_okP F R x t (sz - snd sf) (snd sf) (Kbranch (fst sf) :: D)) as A.
      replace (snd sf + (sz - snd sf)) with sz in A by lia. apply A; try lia. exact I.
    + exact (okc_test2 _ _ _ _ _ _ _ _ H Hsf Ht).
    + exact (okc_cmp _ _ _ _ _ _ H0 Hsf Ht (okc_cmp _ _ _ _ _ _ H Hsf Ht HO)).
    + refine (okc_cmp _ _ _ _ _ _ H3 Hsf Ht _). inversion H2; subst. match goal with H : cmp_dec _ _ _ _ _ _ _ _ _ _ _ _ |- _ => inversion H; subst end; (apply okC_plain; [assumption | exact I]).
    + refine (okc_cmp _ _ _ _ _ _ H3 Hsf Ht _). inversion H2; subst; (apply okC_plain; [assumption | exact I]).
    + exact (okc_test2 _ _ _ _ _ _ _ _ H Hsf Ht).
    + exact (okc_test2 _ _ _ _ _ _ _ _ H Hsf Ht).
    + exact (okc_test2 _ _ _ _ _ _ _ _ H Hsf Ht).
    + exact (okc_test2 _ _ _ _ _ _ _ _ H Hsf Ht).
    + eapply okC_lab; [exact H1 | lia | exact (okc_cmp _ _ _ _ _ _ H0 Hsf Ht HO)].
  - destruct H as [? ? ? ? | ? ? ? ? ? ? H | ? ? ? e r ? C1 ? NE H1 H2]; intros Hsf Ht HO HO'.
    + now apply HO.
    + refine (okc_cmp _ _ _ _ _ _ H Hsf Ht _). specialize (HO' ltac:(discriminate)). change (zlen [e]) with 1 in HO'. now replace (sz + 1 - 1) with sz in HO' by lia.
    + refine (okc_rl _ _ _ _ _ _ H2 Hsf Ht _ _). { easy. } intros _. apply okC_plain; [|exact I]. destruct r; [easy|]. rewrite zlen_cons. pose proof (zlen_ge0 r). lia.
  - destruct H as [? ? ? ? | ? ? ? ? ? ? H | ? ? ? e r ? C1 ? NE H1 H2]; intros Hsf Ht HO.
    + exact HO.
    + exact (okc_cmp _ _ _ _ _ _ H Hsf Ht HO).
    + refine (okc_cmp _ _ _ _ _ _ H2 Hsf Ht _). apply okC_plain; [assumption|exact I].
  - destruct H as [? ? ? ? ? ? ? H | ? ? ? ? e r ? ? ? ? H1 H2]; intros Hsf Ht Hn Hs HO.
    + refine (okc_cmp _ _ _ _ _ _ H Hsf Ht _). rewrite zlen_nil, Z.add_0_r in *. pose proof (addPop_ok F R x t na _ _ Hn Hs HO) as A. now replace (sz - na + na) with sz in A by lia.
    + refine (okc_cmp _ _ _ _ _ _ H2 Hsf Ht _). apply okC_plain; [assumption|exact I].
  - destruct H as [? ? ? ? ? ? ? ? H | ]; intros Hsf Ht Hn Hs HO.
    + rewrite zlen_nil, Z.add_0_r in *. exact (okc_args _ _ _ _ _ _ _ _ _ H Hsf Ht Hn Hs HO).
    + apply okC_plain; [assumption|exact I].
  - destruct H as [? ? ? ? ? ? ? ? H | ? ? ? ? ? ? ? ? ? ? ? ? ? H1 H2]; intros Hsf Ht Hn Hs HO.
    + refine (okc_cmp _ _ _ _ _ _ H Hsf Ht _). pose proof (addPop_ok F R x t na _ _ Hn Hs HO) as A. now replace (sz - na + na) with sz in A by lia.
    + refine (okc_cmp _ _ _ _ _ _ H2 Hsf Ht _). apply okC_plain; [assumption|exact I].
  - destruct H as [? ? ? ? ? ? ? ? ? H1 H2 | ? ? ? ? ? ? ? ? ? H1 H2 | ]; intros Hsf Ht.
    + refine (okc_cmp _ _ _ _ _ _ H2 Hsf Ht _). apply okC_plain; [assumption|exact I].
    + refine (okc_cmp _ _ _ _ _ _ H2 Hsf Ht _). apply okC_plain; [assumption|exact I].
    + match goal with H : cmp _ _ _ _ (Kbranchifnot _ :: _) _ |- _ => refine (okc_cmp _ _ _ _ _ _ H Hsf Ht _) end. apply okC_plain; [assumption|exact I].
Qed.
End Ok.
