(** A minor collection keeps the invariant. *)
From Coq Require Import Sorting.Sorted.
From Verif Require Import Base ArrayLib Gc_Model Gc_Spec Gc_Heap Gc_Dark Gc_Inv Gc_Minor.

(** ** More fuel gives the same answer *)
Section Fuel.
Variables young_start young_end : Z.
Variable alloc_at : st -> Z -> option (Z * list (Z * Z) * list Z).
Notation oldify := (oldify young_start young_end alloc_at).
Notation alloc_shr := (alloc_shr alloc_at).

Lemma bind_mono (A B : Type) (m m' : outcome A) (k k' : A -> outcome B) :
  (m <> Diverge -> m' = m) -> (forall x, m = Ret x -> k x <> Diverge -> k' x = k x) -> bind m k <> Diverge -> bind m' k' = bind m k.
Proof.
  intros H K N. destruct m as [x| | |] eqn:E; cbn in *.
  - rewrite H by discriminate. cbn. auto.
  - rewrite H by discriminate. reflexivity.
  - rewrite H by discriminate. reflexivity.
  - congruence.
Qed.

Lemma fields_loop_mono (o o' : loc -> Z -> st -> outcome st) : (forall p v s, o p v s <> Diverge -> o' p v s = o p v s) ->
  forall v r n i s, fields_loop o v r n i s <> Diverge -> fields_loop o' v r n i s = fields_loop o v r n i s.
Proof.
  intros O v r. induction n as [|n IH]; intros i s; cbn [fields_loop]; [reflexivity|].
  apply bind_mono; [reflexivity|]. intros x _. apply bind_mono; auto.
Qed.

Lemma oldify_mono : forall fuel p v s, oldify fuel p v s <> Diverge -> oldify (S fuel) p v s = oldify fuel p v s.
Proof.
  induction fuel as [|fuel IH]; intros p v s N; [now elim N|]. remember (S fuel) as k eqn:K. rewrite K in N |- * at 2. revert N.
  cbn [Gc_Model.oldify]. destruct (is_block v && is_young young_start young_end v); [|reflexivity].
  destruct (hget (hp s) v) as [b|]; [|reflexivity]. destruct (color_eqb (col b) Blue); [reflexivity|]. destruct (No_scan_tag <=? tag b); [reflexivity|].
  apply bind_mono; [reflexivity|]. intros f0 _. apply bind_mono; [reflexivity|]. intros [r s1] _. apply bind_mono; [reflexivity|]. intros s2 _.
  apply bind_mono; [reflexivity|]. intros s3 _. subst k. destruct (zlen (fs b) =? 1); [apply IH|].
  apply bind_mono; [apply IH|]. intros s4 _. apply bind_mono; [apply fields_loop_mono; apply IH|]. intros s5 _.
  apply bind_mono; [reflexivity|]. intros x _. apply IH.
Qed.
Lemma oldify_roots_mono fuel : forall n i s, oldify_roots young_start young_end alloc_at fuel n i s <> Diverge ->
  oldify_roots young_start young_end alloc_at (S fuel) n i s = oldify_roots young_start young_end alloc_at fuel n i s.
Proof.
  induction n as [|n IH]; intros i s; cbn [oldify_roots]; [reflexivity|]. apply bind_mono; [reflexivity|]. intros v _.
  apply bind_mono; [apply oldify_mono|]. intros s1 _. apply IH.
Qed.
Lemma oldify_refs_mono fuel : forall l s, oldify_refs young_start young_end alloc_at fuel l s <> Diverge ->
  oldify_refs young_start young_end alloc_at (S fuel) l s = oldify_refs young_start young_end alloc_at fuel l s.
Proof.
  induction l as [|[a i] l IH]; intros s; cbn [oldify_refs]; [reflexivity|]. apply bind_mono; [reflexivity|]. intros v _.
  apply bind_mono; [apply oldify_mono|]. intros s1 _. apply IH.
Qed.
Lemma minor_mono fuel s : minor_collection young_start young_end alloc_at fuel s <> Diverge ->
  forall k, minor_collection young_start young_end alloc_at (k + fuel) s = minor_collection young_start young_end alloc_at fuel s.
Proof.
  intros N. induction k as [|k IH]; [reflexivity|]. rewrite <- IH in *. unfold minor_collection. revert N. unfold minor_collection.
  apply bind_mono; [apply oldify_roots_mono|]. intros s1 _. apply bind_mono; [apply oldify_refs_mono|]. reflexivity.
Qed.
End Fuel.

Section Minor2.
Variables young_start young_end : Z.
Variable alloc_at : st -> Z -> option (Z * list (Z * Z) * list Z).
Variable grow_ok : st -> bool.
Variable outside : Z -> Prop.
Notation is_young := (is_young young_start young_end).
Notation layout := (layout young_start young_end outside).
Notation stack_ok := (stack_ok young_start young_end).
Notation pure_ok := (pure_ok young_start young_end).
Notation known := (known outside).
Notation sv := (sv young_start young_end).
Notation good := (good young_start young_end outside).
Notation some_block := (some_block outside).
Notation wf := (wf young_start young_end outside).
Notation yb := (Gc_Inv.yb young_start young_end).
Notation rtok := (rtok young_start young_end).
Notation closed := (closed young_start young_end outside).
Notation wprot := (wprot young_start young_end).
Notation prot := (prot young_start young_end).
Notation weak_list := (weak_list young_start young_end).
Notation marking := (marking young_start young_end).
Notation resting := (resting young_start young_end).
Notation core := (core young_start young_end outside).
Notation inv := (inv young_start young_end outside).
Notation minor_result := (minor_result young_start young_end outside).
Notation moved := (moved young_start young_end).
Notation copied := (copied young_start young_end).
Hypothesis AL : allocator young_start young_end alloc_at outside.
Hypothesis ZO : zone young_start young_end outside.

Lemma minor_ret s : inv s -> (forall fuel, (unfw young_start young_end s < fuel)%nat ->
    minor_collection young_start young_end alloc_at fuel s = Raise FailExn \/
    exists s' f, minor_collection young_start young_end alloc_at fuel s = Ret s' /\ minor_result s s' f) /\
  (forall fuel s', minor_collection young_start young_end alloc_at fuel s = Ret s' -> exists f, minor_result s s' f).
Proof.
  intros [[W CL _ _] R].
  assert (forall fuel, (unfw young_start young_end s < fuel)%nat ->
    minor_collection young_start young_end alloc_at fuel s = Raise FailExn \/
    exists s' f, minor_collection young_start young_end alloc_at fuel s = Ret s' /\ minor_result s s' f) as K.
  { intros fuel. apply (minor_ok young_start young_end alloc_at outside AL s).
    - intros a b A Y. destruct (w_young _ _ _ _ W a b A Y) as (Q1 & Q2 & Q3 & Q4 & _). auto.
    - intros a b v A Y T I Q. apply (some_yb _ _ _ ZO s v); [|exact Q]. apply (good_some young_start young_end).
      apply (cl_fields _ _ _ _ CL a b v); auto. exists b. split; [exact A|now left].
    - intros v I Q. apply (some_yb _ _ _ ZO s v); [|exact Q]. apply (good_some young_start young_end). now apply (cl_roots _ _ _ _ CL).
    - intros a i I. destruct (r_in _ _ _ R a i I) as (Y & b & x & A & T & X). split; [exact Y|]. exists b, x. split; [exact A|]. split; [exact T|].
      split; [exact X|]. intros Q. now destruct (r_all _ _ _ R a b i x Y A T X Q).
    - apply W.
    - intros a b i x Y A T X Q. now destruct (r_all _ _ _ R a b i x Y A T X Q). }
  split; [exact K|]. intros fuel s' E. pose proof (minor_mono young_start young_end alloc_at fuel s ltac:(congruence) (S (unfw young_start young_end s))) as M.
  rewrite E in M. destruct (K (S (unfw young_start young_end s) + fuel)%nat ltac:(lia)) as [Q|(s2 & f & Q & MR)].
  - congruence.
  - assert (s2 = s') as -> by congruence. eauto.
Qed.

Section Result.
Variables (s s' : st) (f : Z -> Z).
Hypothesis IV : inv s.
Hypothesis M : minor_result s s' f.

Lemma mr_even a b : hget (hp s) a = Some b -> Z.even a = true.
Proof. intros A. apply (alloc_even _ _ outside ZO s a b); auto. apply IV. Qed.
Lemma mr_yb a b : hget (hp s) a = Some b -> yb a = is_young a.
Proof. intros A. unfold Gc_Inv.yb, is_block. now rewrite (mr_even a b A). Qed.
Lemma mr_col r : alloc_color (gc s) r <> Blue /\ alloc_color (gc s) r <> Gray /\
  (phase (gc s) = Phase_mark -> alloc_color (gc s) r = Black) /\
  (phase (gc s) <> Phase_mark -> alloc_color (gc s) r = if r - 8 >=? sweep_hp (gc s) then Black else White).
Proof. unfold alloc_color. destruct (phase (gc s)); destruct (_ >=? _); repeat split; congruence. Qed.

(** what a block of the new state was *)
Lemma mr_cases a b' : hget (hp s') a = Some b' -> is_young a = false /\
  ((exists b, hget (hp s) a = Some b /\ col b' = col b /\ tag b' = tag b /\ fs b' = (if tag b <=? Weak_tag then map f (fs b) else fs b)) \/
   (exists v b, hget (hp s) a = None /\ is_young v = true /\ f v = a /\ copied s s' f v b b')).
Proof.
  intros A. assert (is_young a = false) as Y by (destruct (is_young a) eqn:Y; [|reflexivity]; rewrite (mr_none _ _ _ _ _ _ M a Y) in A; discriminate).
  split; [exact Y|]. destruct (hget (hp s) a) as [b|] eqn:B.
  - left. exists b. rewrite (mr_old _ _ _ _ _ _ M a b Y B) in A. injection A as <-. auto.
  - right. destruct (mr_new _ _ _ _ _ _ M a b' A B) as (v & b & Q1 & Q2 & Q3). exists v, b. auto.
Qed.
Lemma mr_sv_old a b : hget (hp s) a = Some b -> is_young a = false -> (sv s' a <-> sv s a).
Proof.
  intros A Y. pose proof (mr_old _ _ _ _ _ _ M a b Y A) as A'. unfold Gc_Inv.sv. rewrite (mr_gc _ _ _ _ _ _ M).
  split; intros (c & C & K).
  - exists b. split; [exact A|]. rewrite A' in C. injection C as <-. exact K.
  - eexists. split; [exact A'|]. assert (c = b) as -> by congruence. exact K.
Qed.
Lemma mr_some v : some_block s v -> moved s s' f v -> some_block s' (f v).
Proof.
  intros G MV. destruct (yb v) eqn:Y.
  - destruct (MV Y) as (b & b' & C1 & C2 & _). right. right. eauto.
  - rewrite (mr_id _ _ _ _ _ _ M v Y). destruct G as [Q|[Q|(b & B)]]; [now left|right; now left|]. right. right.
    rewrite (mr_yb v b B) in Y. rewrite (mr_old _ _ _ _ _ _ M v b Y B). eauto.
Qed.
Lemma mr_good v : good s v -> moved s s' f v -> good s' (f v).
Proof.
  intros G MV. destruct (yb v) eqn:Y.
  - destruct (MV Y) as (b & b' & C1 & C2 & C3 & C4 & C5 & C6 & C7). right. right. exists b'. split; [exact C2|]. right. rewrite (mr_gc _ _ _ _ _ _ M).
    unfold alloc_color in C6. destruct (phase (gc s)); [now left| |]; right; destruct (Z.geb_spec (f v - 8) (sweep_hp (gc s))); auto.
  - rewrite (mr_id _ _ _ _ _ _ M v Y). destruct G as [Q|[Q|Q]]; [now left|right; now left|]. right. right. destruct Q as (b & B & K).
    rewrite (mr_yb v b B) in Y. apply (mr_sv_old v b B Y). exists b. auto.
Qed.
Lemma mr_out v : moved s s' f v -> yb (f v) = false.
Proof.
  intros MV. destruct (yb v) eqn:Y.
  - destruct (MV Y) as (b & b' & C1 & C2 & C3 & _). unfold Gc_Inv.yb. rewrite C3. apply andb_false_r.
  - now rewrite (mr_id _ _ _ _ _ _ M v Y).
Qed.
Lemma mr_glob : f (globals s) = globals s /\ moved s s' f (globals s).
Proof.
  assert (yb (globals s) = false) as Y by (unfold Gc_Inv.yb; rewrite (w_glob _ _ _ _ (c_wf _ _ _ _ (i_core _ _ _ _ IV))); apply andb_false_r).
  split; [apply (mr_id _ _ _ _ _ _ M _ Y)|]. intros Q. change (yb (globals s) = true) in Q. congruence.
Qed.
Lemma mr_wprot v : wprot s v -> wprot s' (f v).
Proof.
  intros P. induction P as [a b v Y A T I C|a b v Y A T I C W IH].
  - pose proof (mr_old _ _ _ _ _ _ M a b Y A) as A'. apply (wprot_gray _ _ s' a _ (f v) Y A'); auto. cbn [fs].
    replace (tag b <=? Weak_tag) with true by (unfold Weak_tag, No_scan_tag in *; lia). now apply in_map.
  - pose proof (mr_old _ _ _ _ _ _ M a b Y A) as A'. rewrite (mr_id _ _ _ _ _ _ M a) in IH by (change (yb a = false); now rewrite (mr_yb a b A)).
    apply (wprot_white _ _ s' a _ (f v) Y A'); auto. cbn [fs].
    replace (tag b <=? Weak_tag) with true by (unfold Weak_tag, No_scan_tag in *; lia). now apply in_map.
Qed.
Lemma mr_prot v : phase (gc s) = Phase_mark -> prot s v -> moved s s' f v -> prot s' (f v).
Proof.
  intros PM P MV Y' b' B' C'. destruct (mr_col (f v)) as (_ & _ & PB & _). destruct (yb v) eqn:Y.
  - destruct (MV Y) as (b & b2 & C1 & C2 & C3 & C4 & C5 & C6 & C7). assert (b2 = b') as -> by congruence. rewrite (PB PM) in C6. congruence.
  - apply mr_wprot. rewrite (mr_id _ _ _ _ _ _ M v Y) in *. destruct (mr_cases v b' B') as (_ & [(b & B & CB & _)|(w & b & _ & Yw & FW & C1 & C2 & C3 & C4 & C5 & C6 & C7)]).
    + apply (P Y' b B). congruence.
    + rewrite FW in C6. rewrite (PB PM) in C6. congruence.
Qed.

Lemma mr_fields_old a b b' v : is_young a = false -> hget (hp s) a = Some b -> hget (hp s') a = Some b' -> tag b <= Weak_tag -> In v (fs b') ->
  exists w, v = f w /\ In w (fs b) /\ moved s s' f w.
Proof.
  intros Y A A' T I. rewrite (mr_old _ _ _ _ _ _ M a b Y A) in A'. injection A' as <-. cbn [fs] in I. replace (tag b <=? Weak_tag) with true in I by lia.
  apply in_map_iff in I as (w & <- & I). exists w. split; [reflexivity|]. split; [exact I|]. exact (mr_moved_old _ _ _ _ _ _ M a b w Y A T I).
Qed.
Lemma mr_fields_new a b b' v : is_young a = true -> copied s s' f a b b' -> tag b < No_scan_tag -> In v (fs b') ->
  exists w, v = f w /\ In w (fs b) /\ moved s s' f w.
Proof.
  intros Y C T I. pose proof C as (C1 & C2 & C3 & C4 & C5 & C6 & C7). rewrite C7 in I. replace (tag b <? No_scan_tag) with true in I by lia.
  apply in_map_iff in I as (w & <- & I). exists w. split; [reflexivity|]. split; [exact I|]. exact (mr_moved_new _ _ _ _ _ _ M a b b' w Y C T I).
Qed.

Lemma minor_wf : wf s'.
Proof.
  pose proof (c_wf _ _ _ _ (i_core _ _ _ _ IV)) as W. destruct W. constructor.
  - apply M.
  - intros a b A Y. rewrite (mr_none _ _ _ _ _ _ M a Y) in A. discriminate.
  - rewrite (mr_ptr _ _ _ _ _ _ M). destruct ZO as (Q1 & Q2 & _). split; [lia|exact Q2].
  - intros a b' A Y. destruct (mr_cases a b' A) as (_ & [(b & B & CB & _)|(w & b & _ & Yw & FW & C1 & C2 & C3 & C4 & C5 & C6 & C7)]).
    + rewrite CB. eauto.
    + rewrite C6. apply mr_col.
  - intros a b' A T. destruct (mr_cases a b' A) as (_ & [(b & B & CB & TB & FB)|(w & b & _ & Yw & FW & C1 & C2 & C3 & C4 & C5 & C6 & C7)]).
    + rewrite FB. replace (zlen (if tag b <=? Weak_tag then map f (fs b) else fs b)) with (zlen (fs b)).
      * apply (w_wlen a b B). congruence.
      * destruct (_ <=? _); [|reflexivity]. unfold zlen. now rewrite map_length.
    + destruct (w_young w b C1 Yw) as (_ & _ & _ & NW & _). congruence.
  - intros E. pose proof (mr_chunks _ _ _ _ _ _ M) as I. rewrite E in I. destruct (chunks s) as [|c l]; [now apply w_chunks|]. destruct (I c). now left.
  - now rewrite (mr_globals _ _ _ _ _ _ M).
Qed.

Lemma minor_closed : closed s'.
Proof.
  pose proof (c_closed _ _ _ _ (i_core _ _ _ _ IV)) as CL. pose proof (c_wf _ _ _ _ (i_core _ _ _ _ IV)) as W. destruct CL. constructor.
  - rewrite (mr_roots _ _ _ _ _ _ M). intros v I. apply in_map_iff in I as (w & <- & I). apply mr_good; auto. now apply (mr_moved_roots _ _ _ _ _ _ M).
  - rewrite (mr_globals _ _ _ _ _ _ M). destruct mr_glob as [G1 G2]. rewrite <- G1. now apply mr_good.
  - intros a b' v S A T I. destruct (mr_cases a b' A) as (Y & [(b & B & CB & TB & FB)|(w & b & N & Yw & FW & C)]).
    + destruct (mr_fields_old a b b' v Y B A ltac:(unfold No_scan_tag, Weak_tag in *; lia) I) as (w & -> & I' & MV). apply mr_good; auto.
      apply (cl_fields a b w); auto; [|lia]. now apply (mr_sv_old a b).
    + pose proof C as (C1 & C2 & C3 & C4 & C5 & C6 & C7). destruct (mr_fields_new w b b' v Yw C ltac:(lia) I) as (x & -> & I' & MV). apply mr_good; auto.
      apply (cl_fields w b x); auto; [|lia]. exists b. auto.
  - intros a b' v S A T I. rewrite (mr_gc _ _ _ _ _ _ M). destruct (mr_cases a b' A) as (Y & [(b & B & CB & TB & FB)|(w & b & N & Yw & FW & C)]).
    + destruct (mr_fields_old a b b' v Y B A ltac:(lia) I) as (w & -> & I' & MV).
      destruct (cl_weak a b w) as [Q|(Q1 & Q2 & Q3)]; auto; [now apply (mr_sv_old a b)|congruence|left; now apply mr_good|].
      right. split; [exact Q1|]. split; [exact Q2|]. now apply mr_some.
    + destruct C as (C1 & _ & _ & _ & C5 & _). destruct (w_young _ _ _ _ W w b C1 Yw) as (_ & _ & _ & NW & _). congruence.
Qed.

Lemma minor_weak_list : weak_list s -> weak_list s'.
Proof.
  intros WL a. rewrite (mr_gc _ _ _ _ _ _ M). intros I. destruct (WL a I) as (Y & b & B & T & C). split; [exact Y|].
  eexists. split; [apply (mr_old _ _ _ _ _ _ M a b Y B)|]. auto.
Qed.

Lemma minor_core : core s'.
Proof.
  pose proof IV as [[W CL MK RS] RT]. constructor; [apply minor_wf|apply minor_closed| |].
  - rewrite (mr_gc _ _ _ _ _ _ M). intros PM. specialize (MK PM). destruct MK. constructor; rewrite ?(mr_gc _ _ _ _ _ _ M).
    + destruct mk_stack. constructor; rewrite ?(mr_gc _ _ _ _ _ _ M); auto. intros v I. destruct (so_gray v I) as (Y & b & B & C). split; [exact Y|].
      eexists. split; [apply (mr_old _ _ _ _ _ _ M v b Y B)|exact C].
    + intros P a b' Y A C. rewrite (mr_gc _ _ _ _ _ _ M) in *. destruct (mr_cases a b' A) as (_ & [(b & B & CB & TB & FB)|(w & b & N & Yw & FW & C1 & C2 & C3 & C4 & C5 & C6 & C7)]).
      * apply (mk_pure P a b Y B). congruence.
      * destruct (mr_col (f w)) as (_ & NG & _). congruence.
    + intros Q. destruct (mk_walk Q) as (n & Q1 & Q2 & Q3). exists n. split; [|auto]. now apply (mr_chunks _ _ _ _ _ _ M).
    + now apply minor_weak_list.
    + rewrite (mr_roots _ _ _ _ _ _ M). intros v I. apply in_map_iff in I as (w & <- & I). apply mr_prot; auto. now apply (mr_moved_roots _ _ _ _ _ _ M).
    + rewrite (mr_globals _ _ _ _ _ _ M). destruct mr_glob as [G1 G2]. rewrite <- G1. now apply mr_prot.
    + intros a b v Y A. rewrite (mr_none _ _ _ _ _ _ M a Y) in A. discriminate.
    + intros a b' v Y A C T I. destruct (mr_cases a b' A) as (_ & [(b & B & CB & TB & FB)|(w & b & N & Yw & FW & CC)]).
      * destruct (mr_fields_old a b b' v Y B A ltac:(unfold No_scan_tag, Weak_tag in *; lia) I) as (w & -> & I' & MV). apply mr_prot; auto.
        apply (mk_black a b w); auto; [congruence|lia].
      * pose proof CC as (C1 & C2 & C3 & C4 & C5 & C6 & C7). destruct (mr_fields_new w b b' v Yw CC ltac:(lia) I) as (x & -> & I' & MV). apply mr_prot; auto.
        apply (mk_young w b x); auto. lia.
    + intros a b' v Y A C T NI I. destruct (mr_cases a b' A) as (_ & [(b & B & CB & TB & FB)|(w & b & N & Yw & FW & CC)]).
      * destruct (mr_fields_old a b b' v Y B A ltac:(lia) I) as (w & -> & I' & MV). apply mr_prot; auto.
        apply (mk_bweak a b w); auto; congruence.
      * destruct CC as (C1 & _ & _ & _ & C5 & _). destruct (w_young _ _ _ _ W w b C1 Yw) as (_ & _ & _ & NW & _). congruence.
  - rewrite (mr_gc _ _ _ _ _ _ M). intros PM. specialize (RS PM). destruct RS. constructor; rewrite ?(mr_gc _ _ _ _ _ _ M); auto.
    + destruct rs_walk as (n & Q1 & Q2 & Q3). exists n. split; [|auto]. now apply (mr_chunks _ _ _ _ _ _ M).
    + intros a b' Y A. destruct (mr_cases a b' A) as (_ & [(b & B & CB & TB & FB)|(w & b & N & Yw & FW & C1 & C2 & C3 & C4 & C5 & C6 & C7)]).
      * rewrite CB. eauto.
      * rewrite C6. apply mr_col.
    + intros a b' Y A BL. destruct (mr_cases a b' A) as (_ & [(b & B & CB & TB & FB)|(w & b & N & Yw & FW & C1 & C2 & C3 & C4 & C5 & C6 & C7)]).
      * rewrite CB. eauto.
      * rewrite C6. destruct (mr_col (f w)) as (_ & _ & _ & Q). rewrite (Q PM). rewrite FW. destruct (Z.geb_spec (a - 8) (sweep_hp (gc s))); [lia|reflexivity].
    + now apply minor_weak_list.
Qed.

Lemma minor_inv : inv s'.
Proof.
  constructor; [apply minor_core|]. pose proof IV as [_ RT]. destruct RT. constructor; rewrite ?(mr_tab _ _ _ _ _ _ M).
  - intros a i [].
  - intros a b' i x Y A T X YX. exfalso. pose proof (zget_In _ _ _ X) as I.
    destruct (mr_cases a b' A) as (_ & [(b & B & CB & TB & FB)|(w & b & N & Yw & FW & CC)]).
    + destruct (mr_fields_old a b b' x Y B A ltac:(lia) I) as (w & -> & I' & MV). rewrite (mr_out w MV) in YX. discriminate.
    + pose proof CC as (C1 & C2 & C3 & C4 & C5 & C6 & C7). destruct (w_young _ _ _ _ (c_wf _ _ _ _ (i_core _ _ _ _ IV)) w b C1 Yw) as (_ & _ & _ & NW & _).
      destruct (mr_fields_new w b b' x Yw CC ltac:(unfold Weak_tag, No_scan_tag in *; lia) I) as (y & -> & I' & MV). rewrite (mr_out y MV) in YX. discriminate.
  - destruct r_cap as (Q1 & Q2 & Q3 & Q4). unfold rtcap. cbn [rt rt_size rt_reserve rt_limit]. change (@zlen (Z * Z) []) with 0. auto.
  - reflexivity.
Qed.
End Result.
End Minor2.
