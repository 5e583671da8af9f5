(** Proofs about paths. *)
From Verif Require Import Base Path_Model Path_Spec.

Lemma eqs_spec a b : eqs a b = true <-> a = b.
Proof. unfold eqs. destruct (list_eq_dec Z.eq_dec a b); split; congruence. Qed.
Lemma eqs_dec a b : {a = b /\ eqs a b = true} + {a <> b /\ eqs a b = false}.
Proof. unfold eqs. destruct (list_eq_dec Z.eq_dec a b); auto. Qed.
Lemma isslash_spec c : isslash c = true <-> c = 47.
Proof. unfold isslash. lia. Qed.
(** *** Joining and splitting into arcs *)
Definition tails (ar : list (list Z)) : list Z := List.concat (List.map (fun a => 47 :: a) ar).
Lemma join_cons a ar : join (a :: ar) = a ++ tails ar.
Proof. revert a. induction ar as [|b ar IH]; intros a; [cbn; now rewrite app_nil_r|]. change (join (a :: b :: ar)) with (a ++ 47 :: join (b :: ar)). now rewrite IH. Qed.
Lemma h_slash_ok ar : forall res, List.concat (rev (h_slash ar res)) = List.concat (rev res) ++ tails ar.
Proof.
  induction ar as [|a ar IH]; intros res; cbn [h_slash]; [cbn; now rewrite app_nil_r|]. rewrite IH. cbn [rev]. rewrite !concat_app. cbn [List.concat slash]. rewrite !app_nil_r, <- !app_assoc. reflexivity.
Qed.
Lemma toString_rel a ar : a <> [] -> toString (false, [], a :: ar) = Ret (join (a :: ar)).
Proof.
  intros H. cbn [toString]. change (validVolume false []) with true. cbn match. destruct a as [|c a]; [congruence|]. change (List.concat ([] :: rev (h_slash ar [c :: a]))) with (List.concat (rev (h_slash ar [c :: a]))). rewrite h_slash_ok, join_cons. cbn [rev app List.concat]. now rewrite app_nil_r.
Qed.
Lemma toString_abs a ar : toString (true, [], a :: ar) = Ret (47 :: join (a :: ar)).
Proof. cbn [toString]. change (validVolume true []) with true. cbn match. rewrite h_slash_ok, join_cons. cbn [rev app List.concat volslash]. now rewrite app_nil_r. Qed.
Lemma fields_cons s : exists f fs, fields s = f :: fs.
Proof. destruct s as [|c s]; cbn [fields]; [eauto|]. destruct (isslash c); [eauto|]. destruct (fields s); eauto. Qed.
Lemma fields_no_slash s : Forall no_slash (fields s).
Proof.
  induction s as [|c s IH]; cbn [fields]; [constructor; [intros []|constructor]|]. destruct (isslash c) eqn:E; [constructor; [intros []|exact IH]|].
  destruct (fields_cons s) as (f & fs & Ef). rewrite Ef in *. apply Forall_cons_iff in IH as (H & IH). constructor; [|exact IH]. intros [->|Hin]; [discriminate|now apply H].
Qed.
Lemma join_fields s : join (fields s) = s.
Proof.
  induction s as [|c s IH]; cbn [fields]; [reflexivity|]. destruct (fields_cons s) as (f & fs & Ef). rewrite Ef in *. destruct (isslash c) eqn:E.
  - apply isslash_spec in E as ->. change (join ([] :: f :: fs)) with ([] ++ 47 :: join (f :: fs)). now rewrite IH.
  - rewrite join_cons in *. cbn [app]. now rewrite IH.
Qed.
Lemma fields_word a : no_slash a -> fields a = [a].
Proof.
  induction a as [|c a IH]; intros H; [reflexivity|]. cbn [fields]. destruct (isslash c) eqn:E; [apply isslash_spec in E as ->; destruct H; now left|].
  rewrite IH; [reflexivity|]. intros Hin. apply H. now right.
Qed.
Lemma fields_app s t : fields (s ++ 47 :: t) = fields s ++ fields t.
Proof.
  induction s as [|c s IH]; [reflexivity|]. cbn [app fields]. destruct (isslash c); [now rewrite IH|]. rewrite IH. destruct (fields_cons s) as (f & fs & ->). reflexivity.
Qed.
Lemma fields_join arcs : arcs <> [] -> Forall no_slash arcs -> fields (join arcs) = arcs.
Proof.
  induction arcs as [|a ar IH]; intros N F; [congruence|]. apply Forall_cons_iff in F as (Fa & F). destruct ar as [|b ar]; [now apply fields_word|].
  change (join (a :: b :: ar)) with (a ++ 47 :: join (b :: ar)). rewrite fields_app, fields_word, IH; auto. discriminate.
Qed.
Lemma fields_inj s t : fields s = fields t -> s = t.
Proof. intros E. now rewrite <- (join_fields s), <- (join_fields t), E. Qed.
(** fromString computes the parts *)
Lemma fromString_abs r : fromString (47 :: r) = (true, [], fields r).
Proof. reflexivity. Qed.
Lemma fromString_rel c r : c <> 47 -> fromString (c :: r) = (false, [], fields (c :: r)).
Proof. intros H. unfold fromString, splitabsvolrest. destruct (isslash c) eqn:E; [apply isslash_spec in E; congruence|reflexivity]. Qed.
Lemma fields_rel c r : c <> 47 -> exists f fs, fields (c :: r) = (c :: f) :: fs.
Proof. intros H. cbn [fields]. destruct (isslash c) eqn:E; [apply isslash_spec in E; congruence|]. destruct (fields_cons r) as (f & fs & ->). eauto. Qed.
Lemma parts_fromString p : exists abs arcs, fromString p = (abs, [], arcs) /\ parts abs arcs p.
Proof.
  destruct p as [|c r]; [exists false, []; split; [reflexivity|]; split; [constructor|split; [reflexivity|discriminate]]|].
  destruct (Z.eq_dec c 47) as [->|N].
  - exists true, (fields r). split; [reflexivity|]. split; [apply fields_no_slash|]. rewrite join_fields. split; [reflexivity|]. destruct (fields_cons r) as (f & fs & ->). discriminate.
  - exists false, (fields (c :: r)). split; [now apply fromString_rel|]. split; [apply fields_no_slash|]. rewrite join_fields. split; [reflexivity|]. destruct (fields_rel c r N) as (f & fs & ->). discriminate.
Qed.
Lemma fromString_parts abs arcs p : parts abs arcs p -> fromString p = (abs, [], arcs).
Proof.
  intros (F & -> & N). destruct abs; cbn [app].
  - rewrite fromString_abs. now rewrite fields_join.
  - destruct arcs as [|a ar]; [reflexivity|]. destruct a as [|c a]; [destruct (N ar eq_refl)|].
    assert (Hc : c <> 47) by (apply Forall_cons_iff in F as (F & _); intros ->; apply F; now left).
    rewrite join_cons. cbn [app]. rewrite fromString_rel by exact Hc. change (c :: a ++ tails ar) with ((c :: a) ++ tails ar). rewrite <- join_cons. now rewrite fields_join.
Qed.
Lemma parts_unique p abs arcs abs' arcs' : parts abs arcs p -> parts abs' arcs' p -> abs = abs' /\ arcs = arcs'.
Proof. intros H H'. apply fromString_parts in H, H'. rewrite H in H'. injection H' as -> ->. now split. Qed.
Lemma toString_parts abs arcs p : parts abs arcs p -> toString (abs, [], arcs) = Ret p.
Proof.
  intros (F & -> & N). destruct abs.
  - destruct arcs as [|a ar]; [congruence|]. now rewrite toString_abs.
  - destruct arcs as [|a ar]; [reflexivity|]. apply toString_rel. intros ->. now apply (N ar).
Qed.
Lemma isAbsolute_spec p : isAbsolute p = true <-> absolute p.
Proof.
  unfold isAbsolute, splitabsvolrest, absolute. destruct p as [|c r]; [split; [discriminate|intros (r & H); discriminate]|].
  destruct (isslash c) eqn:E; split; try discriminate; intros H; [apply isslash_spec in E as ->; eauto|reflexivity|destruct H as (r' & H); injection H as -> ->; discriminate].
Qed.
Lemma isAbsolute_parts abs arcs p : parts abs arcs p -> isAbsolute p = abs.
Proof. intros H. apply fromString_parts in H. unfold fromString, isAbsolute in *. destruct (splitabsvolrest p) as [[a v] r]. destruct a, r; injection H; auto. Qed.
(** *** Walking *)
Lemma walk_app a b st : walk (a ++ b) st = walk b (walk a st).
Proof. apply fold_left_app. Qed.
Lemma step_proper st a : proper a -> arc_step st a = a :: st.
Proof. intros (_ & N1 & N2 & N3). unfold arc_step. repeat destruct (list_eq_dec _ _ _); congruence. Qed.
Lemma walk_names names st : Forall proper names -> walk names st = rev names ++ st.
Proof.
  revert st. induction names as [|a names IH]; intros st F; [reflexivity|]. apply Forall_cons_iff in F as (Fa & F). change (walk (a :: names) st) with (walk names (arc_step st a)).
  rewrite step_proper, IH by assumption. cbn [rev]. now rewrite <- app_assoc.
Qed.
Lemma walk_ups n st : walk (repeat parentArc n) st = skipn n st.
Proof. revert st. induction n as [|n IH]; intros st; [reflexivity|]. cbn [repeat]. change (walk (parentArc :: repeat parentArc n) st) with (walk (repeat parentArc n) (tl st)). rewrite IH. destruct st; [now rewrite !skipn_nil|reflexivity]. Qed.
Lemma leads_det p from : exists to, leads p from to /\ forall to', leads p from to' -> to' = to.
Proof.
  destruct (parts_fromString p) as (abs & arcs & _ & P). exists (walk arcs (if abs then [] else from)). split; [exists abs, arcs; now split|].
  intros to (abs' & arcs' & P' & ->). now destruct (parts_unique _ _ _ _ _ P P') as (<- & <-).
Qed.
Lemma leads_parts abs arcs p from to : parts abs arcs p -> (leads p from to <-> to = walk arcs (if abs then [] else from)).
Proof.
  intros P. split; [|intros ->; exists abs, arcs; now split]. intros (abs' & arcs' & P' & ->). now destruct (parts_unique _ _ _ _ _ P P') as (<- & <-).
Qed.
(** *** Canonical paths *)
Lemma parent_no_slash : no_slash [46; 46]. Proof. intros H. cbn in H. lia. Qed.
Lemma cpath_parts abs ups names : Forall proper names -> (abs = true -> ups = O) ->
  parts abs (match ups, names with O, [] => if abs then [[]] else [currentArc] | _, _ => repeat parentArc ups ++ names end) (cpath abs ups names).
Proof.
  intros F U. unfold cpath. destruct ups as [|ups]; [destruct names as [|a names]|].
  - destruct abs; (split; [constructor; [intros H; cbn in H; lia|constructor]|split; [reflexivity|]]); [discriminate|intros r; discriminate].
  - cbn [repeat app]. split; [eapply Forall_impl; [|exact F]; intros b (H & _); exact H|]. split; [reflexivity|]. destruct abs; [discriminate|]. intros r [= -> _]. apply Forall_cons_iff in F as ((_ & H & _) & _). congruence.
  - destruct abs; [discriminate (U eq_refl)|]. split; [|split; [reflexivity|discriminate]]. apply Forall_app. split; [|eapply Forall_impl; [|exact F]; intros b (H & _); exact H].
    apply Forall_forall. intros x H. apply repeat_spec in H as ->. apply parent_no_slash.
Qed.
Lemma cpath_walk abs ups names : Forall proper names -> (abs = true -> ups = O) -> forall from,
  walk (match ups, names with O, [] => if abs then [[]] else [currentArc] | _, _ => repeat parentArc ups ++ names end) (if abs then [] else from)
  = rev names ++ skipn ups (if abs then [] else from).
Proof.
  intros F U from. destruct ups as [|ups]; [destruct names as [|a names]; [destruct abs; reflexivity|]|]; rewrite walk_app, walk_ups, walk_names by assumption; reflexivity.
Qed.
Lemma cpath_leads abs ups names from to : Forall proper names -> (abs = true -> ups = O) ->
  leads (cpath abs ups names) from to <-> to = rev names ++ skipn ups (if abs then [] else from).
Proof. intros F U. rewrite (leads_parts _ _ _ from to (cpath_parts abs ups names F U)). now rewrite cpath_walk. Qed.
Lemma canonical_unique p q : canonical p -> canonical q -> same_place p q -> p = q.
Proof.
  intros (abs & ups & names & F & U & ->) (abs' & ups' & names' & F' & U' & ->) S.
  assert (E : forall from, rev names ++ skipn ups (if abs then [] else from) = rev names' ++ skipn ups' (if abs' then [] else from)).
  { intros from. apply (proj1 (cpath_leads abs' ups' names' from _ F' U')). apply S. now apply cpath_leads. }
  assert (En : names = names').
  { specialize (E []). assert (Hn : forall n b, skipn n (if b : bool then [] else []) = @nil (list Z)) by (intros n []; apply skipn_nil). rewrite !Hn, !app_nil_r in E. now rewrite <- (rev_involutive names), E, rev_involutive. }
  subst names'. assert (E' : forall from, skipn ups (if abs then [] else from) = skipn ups' (if abs' then [] else from)) by (intros from; exact (app_inv_head _ _ _ (E from))).
  pose proof (f_equal (@length _) (E' (repeat [] (ups + ups' + 1)))) as L. rewrite !skipn_length in L.
  destruct abs, abs'; rewrite ?(U eq_refl), ?(U' eq_refl) in *; rewrite ?repeat_length in L; cbn [length] in L; try lia; [reflexivity|].
  assert (ups = ups') as -> by lia. reflexivity.
Qed.
(** the reduction stack *)
Definition stack (abs : bool) (res : list (list Z)) : Prop := exists ups names, res = names ++ repeat parentArc ups /\ Forall proper names /\ (abs = true -> ups = O).
Lemma reduce_ok abs arcs : Forall no_slash arcs -> forall res, stack abs res ->
  exists ups names, Forall proper names /\ (abs = true -> ups = O) /\
    rev (reduce_h abs arcs res) = (match ups, names with O, [] => if abs then [[]] else [currentArc] | _, _ => repeat parentArc ups ++ names end) /\
    forall from, walk arcs (walk (rev res) (if abs then [] else from)) = rev names ++ skipn ups (if abs then [] else from).
Proof.
  induction arcs as [|a arcs IH]; intros NS res St; cbn [reduce_h].
  - destruct St as (ups & names & -> & F & U). exists ups, (rev names). split; [now apply Forall_rev|]. split; [exact U|].
    assert (R : rev (names ++ repeat parentArc ups) = repeat parentArc ups ++ rev names).
    { rewrite rev_app_distr. f_equal. clear. induction ups as [|n IH]; [reflexivity|]. cbn [repeat rev]. rewrite IH. clear. induction n as [|n IH]; [reflexivity|]. cbn [repeat app]. now rewrite IH. }
    split.
    + destruct (names ++ repeat parentArc ups) as [|x l] eqn:E.
      * apply app_eq_nil in E as (-> & E). destruct ups; [|discriminate]. destruct abs; reflexivity.
      * rewrite R. destruct ups; [|reflexivity]. destruct names as [|y names]; [discriminate|]. cbn [rev]. destruct (rev names); reflexivity.
    + intros from. change (walk [] (walk (rev (names ++ repeat parentArc ups)) (if abs then [] else from))) with (walk (rev (names ++ repeat parentArc ups)) (if abs then [] else from)). rewrite R, walk_app, walk_ups, walk_names by (now apply Forall_rev). reflexivity.
  - apply Forall_cons_iff in NS as (Na & NS).
    assert (Step : forall from, walk (a :: arcs) (walk (rev res) (if abs then [] else from)) = walk arcs (arc_step (walk (rev res) (if abs then [] else from)) a)) by reflexivity.
    destruct (eqs_dec a []) as [(-> & ->)|(N1 & ->)]; [apply (IH NS res St)|].
    destruct (eqs_dec a currentArc) as [(-> & ->)|(N2 & ->)]; [apply (IH NS res St)|].
    destruct (eqs_dec a parentArc) as [(-> & ->)|(N3 & ->)].
    + assert (B : stack abs (backup abs res) /\ forall from, walk (rev (backup abs res)) (if abs then [] else from) = tl (walk (rev res) (if abs then [] else from))).
      { destruct St as (ups & names & -> & F & U). unfold backup. destruct names as [|x names]; cbn [app].
        - destruct ups as [|ups]; cbn [repeat].
          + destruct abs; [split; [exists O, []; auto|reflexivity]|split; [exists 1%nat, []; repeat split; auto; discriminate|reflexivity]].
          + rewrite (proj2 (eqs_spec parentArc parentArc) eq_refl). split; [exists (S (S ups)), []; split; [reflexivity|split; [constructor|intros E; discriminate (U E)]]|].
            intros from. set (r := parentArc :: repeat parentArc ups). change (rev (parentArc :: r)) with (rev r ++ [parentArc]). rewrite walk_app. reflexivity.
        - apply Forall_cons_iff in F as (Fx & F). pose proof Fx as (_ & _ & _ & Nx). destruct (eqs_dec x parentArc) as [(E & _)|(_ & ->)]; [destruct (Nx E)|].
          split; [exists ups, names; auto|]. intros from. cbn [rev]. rewrite walk_app. cbn [walk fold_left]. now rewrite step_proper. }
      destruct B as (B1 & B2). destruct (IH NS _ B1) as (ups & names & F & U & R & W). exists ups, names. split; [exact F|]. split; [exact U|]. split; [exact R|].
      intros from. rewrite <- W, B2. reflexivity.
    + assert (Pa : proper a) by (repeat split; assumption).
      assert (B : stack abs (a :: res)) by (destruct St as (ups & names & -> & F & U); exists ups, (a :: names); repeat split; auto).
      destruct (IH NS _ B) as (ups & names & F & U & R & W). exists ups, names. split; [exact F|]. split; [exact U|]. split; [exact R|].
      intros from. rewrite <- W, Step, step_proper by exact Pa. cbn [rev]. rewrite walk_app. cbn [walk fold_left]. now rewrite step_proper.
Qed.
Lemma mkCanonical_ok p : exists c, mkCanonical p = Ret c /\ canonical c /\ (absolute c <-> absolute p) /\ same_place p c.
Proof.
  destruct (parts_fromString p) as (abs & arcs & E & P). unfold mkCanonical. rewrite E.
  destruct (reduce_ok abs arcs (proj1 P) []) as (ups & names & F & U & -> & W); [exists O, []; auto|]. pose proof (cpath_parts abs ups names F U) as C.
  exists (cpath abs ups names). split; [now apply toString_parts|]. split; [exists abs, ups, names; auto|]. split.
  - rewrite <- !isAbsolute_spec, (isAbsolute_parts _ _ _ P), (isAbsolute_parts _ _ _ C). reflexivity.
  - intros from to. rewrite (leads_parts _ _ _ from to P), cpath_leads by assumption. specialize (W from). cbn [rev walk fold_left] in W. unfold walk in *. now rewrite W.
Qed.
Lemma same_place_sym p q : same_place p q -> same_place q p.
Proof. intros H from to. symmetry. apply H. Qed.
Lemma same_place_trans p q r : same_place p q -> same_place q r -> same_place p r.
Proof. intros H H' from to. now rewrite (H from to). Qed.
Lemma mkCanonical_id c : canonical c -> mkCanonical c = Ret c.
Proof. intros C. destruct (mkCanonical_ok c) as (d & E & D & _ & S). rewrite E. now rewrite (canonical_unique c d C D S). Qed.
(** *** Concatenation *)
Lemma last_slash (s : list Z) : s = [] \/ (exists a, s = a ++ [47]) \/ (exists a c, s = a ++ [c] /\ c <> 47).
Proof. destruct s as [|z s _] using rev_ind; [now left|]. destruct (Z.eq_dec z 47) as [->|N]; [right; left|right; right]; eauto. Qed.
Lemma stripslash_ok s : s <> [] -> exists s', stripslash s = Ret s' /\ (s = s' ++ [47] \/ (s = s' /\ forall a, s <> a ++ [47])).
Proof.
  intros N. unfold stripslash. destruct (last_slash s) as [->|[(a & ->)|(a & c & -> & Hc)]]; [congruence| |]; rewrite rev_app_distr; cbn [rev app].
  - exists a. change (isslash 47) with true. cbn match. rewrite rev_involutive. split; [reflexivity|now left].
  - destruct (isslash c) eqn:E; [apply isslash_spec in E; congruence|]. exists (a ++ [c]). split; [reflexivity|]. right. split; [reflexivity|]. intros b H. apply app_inj_tail in H as (_ & H). congruence.
Qed.
Lemma isAbs_cons c r : isAbsolute (c :: r) = isslash c.
Proof. unfold isAbsolute, splitabsvolrest. now destruct (isslash c). Qed.
(** the concatenation of two paths, literally *)
Lemma concat_ok d f : isAbsolute f = false ->
  (d = [] -> concat d f = Ret f) /\ (forall a, d = a ++ [47] -> concat d f = Ret (a ++ 47 :: f)) /\
  (d <> [] -> (forall a, d <> a ++ [47]) -> concat d f = Ret (d ++ 47 :: f)).
Proof.
  intros Hf. unfold concat. rewrite Hf. split; [now intros ->|].
  assert (G : forall s, d <> [] -> d <> [47] -> (s = d \/ d = 47 :: s /\ s <> []) -> True) by auto. clear G.
  destruct d as [|c r]; [split; [intros a E; destruct a; discriminate|congruence]|]. unfold splitabsvolrest. destruct (isslash c) eqn:Ec.
  - apply isslash_spec in Ec as ->. destruct r as [|c2 r].
    + split.
      * intros a E. destruct a as [|x a]; [reflexivity|]. destruct a; discriminate.
      * intros _ N. destruct (N [] eq_refl).
    + destruct (stripslash_ok (c2 :: r)) as (s' & -> & Q); [discriminate|]. cbn [bind volslash slash app]. split.
      * intros a E. destruct Q as [Q|(_ & Q)].
        -- f_equal. rewrite Q in E. change (47 :: s' ++ [47]) with ((47 :: s') ++ [47]) in E. apply app_inj_tail in E as (<- & _). reflexivity.
        -- destruct a as [|x a]; [discriminate|]. injection E as _ E. destruct (Q a E).
      * intros _ N. destruct Q as [Q|(<- & _)]; [|reflexivity]. destruct (N (47 :: s')). now rewrite Q.
  - destruct (stripslash_ok (c :: r)) as (s' & -> & Q); [discriminate|]. cbn [bind slash app]. split.
    + intros a E. destruct Q as [Q|(_ & Q)]; [|destruct (Q a E)]. rewrite Q in E. apply app_inj_tail in E as (<- & _). reflexivity.
    + intros _ N. destruct Q as [Q|(<- & _)]; [|reflexivity]. destruct (N s' Q).
Qed.
(** arcs as a walk sees them *)
Definition dest (p : list Z) (from : list (list Z)) : list (list Z) := let '(abs, _, arcs) := fromString p in walk arcs (if abs then [] else from).
Lemma leads_dest p from to : leads p from to <-> to = dest p from.
Proof. destruct (parts_fromString p) as (abs & arcs & E & P). unfold dest. rewrite E. now apply leads_parts. Qed.
Lemma dest_rel p from : isAbsolute p = false -> dest p from = walk (fields p) from.
Proof. intros H. unfold dest. destruct p as [|c r]; [reflexivity|]. rewrite isAbs_cons in H. rewrite fromString_rel; [reflexivity|]. intros ->. discriminate. Qed.
Lemma dest_abs r from : dest (47 :: r) from = walk (fields r) [].
Proof. reflexivity. Qed.
Lemma walk_nil_arc a st : walk (a ++ [[]]) st = walk a st.
Proof. now rewrite walk_app. Qed.
Lemma dest_concat d f p : isAbsolute f = false -> concat d f = Ret p -> isAbsolute p = isAbsolute d /\ forall from, dest p from = dest f (dest d from).
Proof.
  intros Hf E. destruct (concat_ok d f Hf) as (C1 & C2 & C3).
  assert (K : forall a, (d = a ++ [47] \/ d = a /\ d <> []) -> isAbsolute (a ++ 47 :: f) = isAbsolute d /\ forall from, dest (a ++ 47 :: f) from = dest f (dest d from)).
  { intros a [->|(-> & N)].
    - destruct a as [|c a].
      + split; [reflexivity|]. intros from. cbn [app]. rewrite !dest_abs, dest_rel by exact Hf. reflexivity.
      + cbn [app]. rewrite !isAbs_cons. split; [reflexivity|]. intros from. rewrite (dest_rel f) by exact Hf. destruct (Z.eq_dec c 47) as [->|Nc].
        * rewrite !dest_abs, !fields_app, walk_app. now rewrite walk_nil_arc.
        * assert (isslash c = false) by (unfold isslash; lia). rewrite !dest_rel by (now rewrite isAbs_cons). change (c :: a ++ 47 :: f) with ((c :: a) ++ 47 :: f). change (c :: a ++ [47]) with ((c :: a) ++ [47]). rewrite !fields_app, walk_app. now rewrite walk_nil_arc.
    - destruct a as [|c a]; [congruence|]. cbn [app]. rewrite !isAbs_cons. split; [reflexivity|]. intros from. rewrite (dest_rel f) by exact Hf. destruct (Z.eq_dec c 47) as [->|Nc].
      * rewrite !dest_abs, !fields_app, walk_app. reflexivity.
      * assert (isslash c = false) by (unfold isslash; lia). rewrite !dest_rel by (now rewrite isAbs_cons). change (c :: a ++ 47 :: f) with ((c :: a) ++ 47 :: f). rewrite !fields_app, walk_app. reflexivity. }
  destruct (last_slash d) as [->|[(a & ->)|(a & c & -> & Hc)]].
  - rewrite C1 in E by reflexivity. injection E as <-. rewrite Hf. split; [reflexivity|]. intros from. reflexivity.
  - rewrite (C2 a eq_refl) in E. injection E as <-. apply K. now left.
  - assert (N : a ++ [c] <> []) by (destruct a; discriminate). rewrite C3 in E; [|exact N|intros b H; apply app_inj_tail in H as (_ & H); congruence]. injection E as <-. apply K. now right.
Qed.
Lemma concat_ret d f : isAbsolute f = false -> exists p, concat d f = Ret p.
Proof.
  intros Hf. destruct (concat_ok d f Hf) as (C1 & C2 & C3). destruct (last_slash d) as [->|[(a & ->)|(a & c & -> & Hc)]].
  - eauto.
  - eauto.
  - eexists. apply C3; [destruct a; discriminate|]. intros b H. apply app_inj_tail in H as (_ & H). congruence.
Qed.
(** *** Directory and file *)
Lemma last_arc p : (no_slash p) \/ exists a f, p = a ++ 47 :: f /\ no_slash f.
Proof.
  induction p as [|c p IH]; [left; intros []|]. destruct IH as [IH|(a & f & -> & F)].
  - destruct (Z.eq_dec c 47) as [->|N]; [right; now exists [], p|left]. intros [H|H]; [congruence|now apply IH].
  - right. now exists (c :: a), f.
Qed.
Lemma split_word p : no_slash p -> splitDirFile p = Ret ([], p).
Proof.
  intros H. unfold splitDirFile. destruct p as [|c p]; [reflexivity|]. rewrite fromString_rel by (intros ->; apply H; now left). rewrite fields_word by exact H. reflexivity.
Qed.
Lemma split_slash a f : no_slash f -> splitDirFile (a ++ 47 :: f) = Ret (match a with [] => [47] | _ => a end, f).
Proof.
  intros H. unfold splitDirFile. destruct a as [|c a].
  - cbn [app]. rewrite fromString_abs, fields_word by exact H. reflexivity.
  - cbn [app]. destruct (Z.eq_dec c 47) as [->|N].
    + rewrite fromString_abs, fields_app, (fields_word f H), rev_app_distr. cbn [rev app]. rewrite rev_involutive. destruct (fields_cons a) as (g & gs & Eg). rewrite Eg, toString_abs, <- Eg, join_fields. reflexivity.
    + rewrite fromString_rel by exact N. change (c :: a ++ 47 :: f) with ((c :: a) ++ 47 :: f). rewrite fields_app, (fields_word f H), rev_app_distr. cbn [rev app]. rewrite rev_involutive.
      destruct (fields_rel c a N) as (g & gs & Eg). rewrite Eg, toString_rel by discriminate. rewrite <- Eg, join_fields. reflexivity.
Qed.
Lemma no_slash_rel f : no_slash f -> isAbsolute f = false.
Proof. intros H. destruct f as [|c f]; [reflexivity|]. rewrite isAbs_cons. destruct (isslash c) eqn:E; [|reflexivity]. apply isslash_spec in E as ->. destruct H. now left. Qed.
(** *** Extensions *)
Lemma splitr_dot_ok s : forall a b, splitr_dot s = (a, b) -> s = a ++ b /\ ~ In 46 b /\ (a = [] \/ exists a', a = a' ++ [46]).
Proof.
  induction s as [|c s IH]; intros a b E; cbn [splitr_dot] in E; [injection E as <- <-; repeat split; [intros []|now left]|].
  destruct (splitr_dot s) as [a' b'] eqn:Es. destruct (IH _ _ eq_refl) as (-> & Nb & Ha). destruct a' as [|x a'].
  - destruct (Z.eqb_spec c 46) as [->|N]; injection E as <- <-; (split; [reflexivity|]).
    + split; [exact Nb|]. right. now exists [].
    + split; [intros [H|H]; [congruence|now apply Nb]|now left].
  - injection E as <- <-. split; [reflexivity|]. split; [exact Nb|]. right. destruct Ha as [Ha|(a2 & Ha)]; [discriminate|]. exists (c :: a2). now rewrite Ha.
Qed.
(** *** Relative paths *)
Lemma parentize_repeat ar : parentize ar = repeat parentArc (length ar).
Proof. induction ar as [|a ar IH]; cbn; congruence. Qed.
Lemma walk_parentize names st : Forall proper names -> walk (parentize names) (walk names st) = st.
Proof.
  intros F. rewrite parentize_repeat, walk_ups, walk_names by exact F. replace (length names) with (length (rev names)) by apply rev_length. rewrite skipn_app, skipn_all, Nat.sub_diag. reflexivity.
Qed.
Lemma rel_h_ok arcs1 : forall a2, Forall proper a2 -> forall a1, (arcs1 = [[]] -> a1 = [[]]) -> forall st, walk (rel_h arcs1 a1 a2) (walk a2 st) = walk a1 st.
Proof.
  induction a2 as [|b a2 IH]; intros F a1 H st.
  - destruct a1; reflexivity.
  - destruct a1 as [|a a1]; cbn [rel_h]; [now apply walk_parentize|]. pose proof F as F0. apply Forall_cons_iff in F as (Fb & F). destruct (eqs_dec a b) as [(-> & ->)|(N & ->)].
    + change (walk (b :: a2) st) with (walk a2 (arc_step st b)). change (walk (b :: a1) st) with (walk a1 (arc_step st b)). apply IH; [exact F|]. intros E. specialize (H E). injection H as -> _. destruct Fb as (_ & Fb & _). congruence.
    + rewrite walk_app, walk_parentize by exact F0. destruct (list_eq_dec _ arcs1 [[]]) as [E|E]; [|reflexivity]. now rewrite (H E).
Qed.
Lemma rel_h_no_slash arcs1 : forall a2 a1, Forall no_slash a1 -> Forall no_slash (rel_h arcs1 a1 a2) /\ rel_h arcs1 a1 a2 <> [].
Proof.
  induction a2 as [|b a2 IH]; intros a1 F.
  - destruct a1; cbn [rel_h]; split; try discriminate; auto. constructor; [intros H; cbn in H; lia|constructor].
  - assert (P : forall l, Forall no_slash (parentize l)) by (induction l; cbn [parentize]; constructor; auto using parent_no_slash).
    destruct a1 as [|a a1]; cbn [rel_h]; [split; [apply P|discriminate]|]. destruct (eqs a b); [apply IH; now apply Forall_cons_iff in F|].
    split; [apply Forall_app; split; [apply P|]|discriminate]. destruct (list_eq_dec _ _ _); [constructor|exact F].
Qed.
Lemma canonical_abs c : canonical c -> isAbsolute c = true -> exists names, Forall proper names /\ fromString c = (true, [], match names with [] => [[]] | _ => names end) /\ c = cpath true 0 names.
Proof.
  intros (abs & ups & names & F & U & ->) A. pose proof (cpath_parts abs ups names F U) as P. rewrite (isAbsolute_parts _ _ _ P) in A. subst abs. rewrite (U eq_refl) in *.
  exists names. split; [exact F|]. split; [|reflexivity]. rewrite (fromString_parts _ _ _ P). destruct names; reflexivity.
Qed.
(** what mkRelative returns, for two absolute paths *)
Lemma mkRelative_ok p1 p2 : isAbsolute p1 = true -> isAbsolute p2 = true ->
  mkRelative p1 p2 = Raise PathExn \/ exists r, mkRelative p1 p2 = Ret r /\ isAbsolute r = false /\ forall from, dest r (dest p2 from) = dest p1 from.
Proof.
  intros A1 A2. unfold mkRelative. destruct (mkCanonical_ok p2) as (c2 & -> & C2 & Ab & S2). cbn [bind].
  assert (Ac : isAbsolute c2 = true) by (apply isAbsolute_spec, Ab, isAbsolute_spec; exact A2). destruct (canonical_abs c2 C2 Ac) as (names & F & E2 & _). rewrite E2.
  assert (D2 : forall from, dest p2 from = walk (match names with [] => [[]] | _ => names end) []).
  { intros from. assert (L : leads c2 from (dest p2 from)) by (apply S2, leads_dest; reflexivity). apply leads_dest in L. rewrite L. unfold dest. now rewrite E2. }
  destruct (parts_fromString p1) as (abs & arcs1 & E1 & P1). rewrite (isAbsolute_parts _ _ _ P1) in A1. subst abs. rewrite E1. change (eqs [] []) with true. cbn [negb].
  pose proof P1 as (NS & _ & Ne). destruct (rel_h_no_slash arcs1 (match names with [] => [[]] | _ => names end) arcs1 NS) as (NR & NE).
  assert (W : walk (rel_h arcs1 arcs1 (match names with [] => [[]] | _ => names end)) (walk (match names with [] => [[]] | _ => names end) []) = walk arcs1 []).
  { destruct names as [|n names]; [|now apply rel_h_ok].
    destruct arcs1 as [|a arcs1]; [congruence|]. cbn [rel_h]. destruct (eqs_dec a []) as [(-> & ->)|(N & ->)].
    - destruct arcs1; reflexivity.
    - destruct (list_eq_dec _ (a :: arcs1) [[]]) as [E|E]; [congruence|reflexivity]. }
  set (r := rel_h arcs1 arcs1 _) in *. clearbody r. destruct r as [|x r]; [congruence|]. destruct x as [|z x].
  - left. reflexivity.
  - right. exists (join ((z :: x) :: r)). split; [apply toString_rel; discriminate|].
    assert (Pr : parts false ((z :: x) :: r) (join ((z :: x) :: r))) by (split; [exact NR|split; [reflexivity|intros q; discriminate]]).
    split; [now apply (isAbsolute_parts _ _ _ Pr)|]. intros from. rewrite D2. unfold dest. rewrite (fromString_parts _ _ _ Pr), E1. exact W.
Qed.
(** for canonical paths *)
Lemma rel_h_canonical arcs1 : forall a2 a1, Forall proper a2 -> Forall proper a1 -> arcs1 <> [[]] ->
  rel_h arcs1 a1 a2 = [currentArc] \/ exists ups names, rel_h arcs1 a1 a2 = repeat parentArc ups ++ names /\ Forall proper names /\ (ups <> O \/ names <> []).
Proof.
  induction a2 as [|b a2 IH]; intros a1 F2 F1 N.
  - destruct a1 as [|a a1]; cbn [rel_h]; [now left|right]. exists O, (a :: a1). repeat split; auto. right; discriminate.
  - pose proof F2 as F0. apply Forall_cons_iff in F2 as (Fb & F2). destruct a1 as [|a a1]; cbn [rel_h].
    + right. exists (S (length a2)), []. rewrite parentize_repeat, app_nil_r. repeat split; auto.
    + destruct (eqs a b); [apply IH; auto; now apply Forall_cons_iff in F1|]. right. exists (S (length a2)), (a :: a1). rewrite parentize_repeat. destruct (list_eq_dec _ arcs1 [[]]) as [E|_]; [congruence|]. repeat split; auto.
Qed.
Lemma mkRelative_canonical p1 p2 : canonical p1 -> isAbsolute p1 = true -> isAbsolute p2 = true -> exists r, mkRelative p1 p2 = Ret r /\ canonical r.
Proof.
  intros C1 A1 A2. unfold mkRelative. destruct (mkCanonical_ok p2) as (c2 & -> & C2 & Ab & _). cbn [bind].
  assert (Ac : isAbsolute c2 = true) by (apply isAbsolute_spec, Ab, isAbsolute_spec; exact A2). destruct (canonical_abs c2 C2 Ac) as (names & F & -> & _). destruct (canonical_abs p1 C1 A1) as (names1 & F1 & -> & _).
  change (eqs [] []) with true. cbn [negb].
  assert (Fin : forall l, l = [currentArc] \/ (exists ups names, l = repeat parentArc ups ++ names /\ Forall proper names /\ (ups <> O \/ names <> [])) -> exists r, toString (false, [], l) = Ret r /\ canonical r).
  { intros l [->|(ups & ns & -> & Fn & Hn)].
    - exists [46]. split; [reflexivity|]. exists false, O, []. split; [constructor|]. split; [discriminate|reflexivity].
    - exists (cpath false ups ns). split; [|exists false, ups, ns; split; [exact Fn|split; [discriminate|reflexivity]]].
      pose proof (cpath_parts false ups ns Fn ltac:(discriminate)) as P. apply toString_parts in P. destruct ups as [|ups]; [destruct ns as [|n ns]; [destruct Hn; congruence|]|]; exact P. }
  apply Fin. destruct names1 as [|n1 names1].
  - destruct names as [|n names]; [now left|]. cbn [rel_h]. destruct (eqs_dec [] n) as [(<- & _)|(N & ->)]; [apply Forall_cons_iff in F as ((_ & Q & _) & _); congruence|].
    right. exists (S (length names)), []. rewrite parentize_repeat. repeat split; auto.
  - assert (N1 : n1 :: names1 <> [[]]) by (intros [= -> ->]; apply Forall_cons_iff in F1 as ((_ & Q & _) & _); congruence).
    destruct names as [|n names].
    + cbn [rel_h]. destruct (eqs_dec n1 []) as [(-> & _)|(N & ->)]; [apply Forall_cons_iff in F1 as ((_ & Q & _) & _); congruence|].
      destruct (list_eq_dec _ (n1 :: names1) [[]]) as [E|_]; [congruence|]. right. exists 1%nat, (n1 :: names1). repeat split; auto.
    + now apply rel_h_canonical.
Qed.
