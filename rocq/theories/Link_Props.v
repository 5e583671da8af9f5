(** C50: the linker. *)
From Verif Require Import Base ArrayLib Mem Link_Model Link_Spec Link_Proofs.

(** The first pass chooses the units of the program: all units given and, with
    automatic linking, those that these mention, each once, after the units it
    mentions and with the signatures it was compiled against. *)
Theorem C50_units files autolink reserved fuel units st :
  check_files files autolink reserved fuel units ([], []) = Ret st ->
  consistent files reserved (rev (snd st)) /\
  incl units (map fst (rev (snd st))) /\
  (autolink = false -> incl (map fst (rev (snd st))) units) /\
  (forall u, In u (map fst (rev (snd st))) -> In u units \/ exists w t, In (w, t) (rev (snd st)) /\ In u (map fst (mentions t))).
Proof.
  intros E. destruct (check_files_ok files autolink reserved fuel units ([], []) st eq_refl Logic.I E) as (new & A1 & A2 & A3 & A4 & A5 & A6).
  cbn [snd] in A1. rewrite app_nil_r in A1. subst new. split; [now apply ok_consistent|]. rewrite map_rev.
  split; [intros u H; apply -> in_rev; auto|]. split; [intros H u Hu; apply in_rev in Hu; auto|].
  intros u Hu. apply in_rev in Hu. destruct (A6 _ Hu) as [H|(w & t & H1 & H2)]; [now left|]. right. exists w, t. split; [now apply -> in_rev|exact H2].
Qed.

(** It stops: a unit that depends on itself is found. *)
Theorem C50_stops files autolink reserved fuel units :
  (length files < fuel)%nat ->
  match check_files files autolink reserved fuel units ([], []) with
  | Ret _ => True
  | Raise x => x = FailExn
  | UB | Diverge => False
  end.
Proof.
  intros L. assert (F := check_files_fails files autolink reserved fuel units ([], [])).
  assert (S := check_files_stops files autolink reserved fuel L units ([], [])).
  destruct (check_files files autolink reserved fuel units ([], [])); try exact F. congruence.
Qed.

(** It does not fail if there is such a program; without automatic linking, if
    the units are given in such an order, and then it keeps the order. *)
Theorem C50_succeeds files reserved fuel units us :
  (length files < fuel)%nat -> consistent files reserved us -> incl units (map fst us) ->
  exists st, check_files files true reserved fuel units ([], []) = Ret st.
Proof.
  intros L C I. apply check_files_succeed with (us := us); auto.
  - assert (ND : NoDup (map fst us)) by apply C.
    assert (IN : incl (map fst us) (map fst files)).
    { intros u H. apply in_map_iff in H. destruct H as ([v t] & <- & H). cbn. destruct C as (_ & C2 & _). destruct (C2 _ _ H) as [F _]. apply findZ_in in F.
      apply in_map_iff. now exists (v, t). }
    apply (NoDup_incl_length ND) in IN. rewrite !map_length in IN. lia.
  - split; [reflexivity|exact Logic.I].
Qed.
Theorem C50_keeps_order files autolink reserved fuel us :
  (2 <= fuel)%nat -> consistent files reserved us ->
  exists dog, check_files files autolink reserved fuel (map fst us) ([], []) = Ret (dog, rev us).
Proof. intros L C. eexists. exact (check_files_given files autolink reserved fuel us L C us [] eq_refl). Qed.

(** The second and third pass: if they succeed, the code and the table of
    globals are the program, linked; if not, some phrase of the program uses a
    name without definition or a primitive that does not exist, or a unit
    exports an identifier that it does not define. *)
Theorem C50_link predef prims us :
  zlen prims <= 65536 -> Forall unit_ok us ->
  match (do (css, t) <- link_objects (set_c_primitives prims) (snd (scan_files (rev us))) (reset_linker_tables predef);
         do data <- emit_data t; Ret (css, data)) with
  | Ret (css, data) => zlen data <= 2 ^ 32 -> linked predef prims us (concat css) data
  | Raise _ => undefined prims 0 us (start predef)
  | UB | Diverge => False
  end.
Proof.
  intros L O. destruct (link_units_spec predef prims us L O) as [(css & t & data & E & Ed & H)|[(x & E) H]]; rewrite E; cbn [bind].
  - rewrite Ed. cbn [bind]. exact H.
  - exact H.
Qed.

(** All of it: mosmllink. *)
Theorem C50_program files autolink reserved fuel predef prims units :
  zlen prims <= 65536 -> Forall unit_ok files -> (length files < fuel)%nat ->
  match link fuel files autolink reserved predef prims units with
  | Ret (css, data) =>
      exists us, consistent files reserved us /\ incl units (map fst us) /\ (autolink = false -> incl (map fst us) units) /\
        (zlen data <= 2 ^ 32 -> linked predef prims us (concat css) data)
  | Raise _ =>
      (autolink = true -> ~ exists us, consistent files reserved us /\ incl units (map fst us)) \/
      exists us, consistent files reserved us /\ incl units (map fst us) /\ undefined prims 0 us (start predef)
  | UB | Diverge => False
  end.
Proof.
  intros LP Ok L. unfold link. assert (S := C50_stops files autolink reserved fuel units L).
  destruct (check_files files autolink reserved fuel units ([], [])) as [st|x| |] eqn:E; cbn [bind]; try exact S.
  - destruct (C50_units _ _ _ _ _ _ E) as (C & I1 & I2 & _).
    assert (OK : Forall unit_ok (rev (snd st))).
    { apply Forall_forall. intros [u t] H. rewrite Forall_forall in Ok. apply Ok. destruct C as (_ & C2 & _). destruct (C2 _ _ H) as [F _]. now apply findZ_in. }
    assert (K := C50_link predef prims (rev (snd st)) LP OK). rewrite rev_involutive in K.
    destruct (scan_files (snd st)) as [m tolink]. cbn [snd] in K.
    destruct (do (css, t) <- link_objects (set_c_primitives prims) tolink (reset_linker_tables predef); do data <- emit_data t; Ret (css, data)) as [[css data]|x| |]; try exact K.
    + exists (rev (snd st)). auto.
    + right. exists (rev (snd st)). auto.
  - left. intros -> (us & C & I). destruct (C50_succeeds files reserved fuel units us L C I) as (st & E'). congruence.
Qed.

(** Unit 1 defines x (id 7, stamp 1) from the predefined variable (0, 9), redefines
    it (stamp 2) from the old one, and has a pure phrase that defines something
    unused; unit 2 uses 1.x, primitive 31 and a constant. *)
Definition ex_unit1 : tables :=
  mkTab [mkPhr [10; 0; 0; 0; 0] [] [(Reloc_setglobal (1, 8, 3), 1)] true;
         mkPhr [12; 0; 0; 0; 0; 13; 0; 0; 0; 0] [] [(Reloc_getglobal (1, 7, 1), 1); (Reloc_setglobal (1, 7, 2), 6)] true;
         mkPhr [12; 0; 0; 0; 0; 13; 0; 0; 0; 0] [] [(Reloc_getglobal (0, 9, 0), 1); (Reloc_setglobal (1, 7, 1), 6)] true]
        [(7, 2); (8, 3)] 100 [].
Definition ex_unit2 : tables :=
  mkTab [mkPhr [12; 0; 0; 0; 0; 14; 0; 0; 15; 0; 0; 0; 0] [(555, [9])] [(Reloc_getglobal (1, 7, 0), 1); (Reloc_primitive 31, 6)] false]
        [] 200 [(1, 100)].
Definition ex_files := [(2, ex_unit2); (1, ex_unit1)].
Example C50_example_link : link 3 ex_files true [] [(0, 9)] [30; 31] [2]
  = Ret ([[[12; 0; 0; 0; 0; 13; 1; 0; 0; 0]; [12; 1; 0; 0; 0; 13; 2; 0; 0; 0]]; [[12; 2; 0; 0; 0; 14; 1; 0; 15; 3; 0; 0; 0]]],
         [None; None; None; Some 555]).
Proof. vm_compute. reflexivity. Qed.
Lemma nodup_check (l : list Z) : forallb (fun b => b) (map (fun i => Nat.eqb (count_occ Z.eq_dec l i) 1) l) = true -> NoDup l.
Proof.
  intros H. apply (NoDup_count_occ Z.eq_dec). intros x. destruct (in_dec Z.eq_dec x l) as [I|I].
  - rewrite forallb_forall in H. assert (E : Nat.eqb (count_occ Z.eq_dec l x) 1 = true) by (apply H, in_map_iff; now exists x).
    apply Nat.eqb_eq in E. lia.
  - apply (count_occ_not_In Z.eq_dec) in I. lia.
Qed.
Lemma range_check (l : list Z) n : forallb (fun i => (0 <=? i) && (i <? n)) l = true -> Forall (fun i => 0 <= i < n) l.
Proof. rewrite forallb_forall. intros H. apply Forall_forall. intros i I. apply H in I. apply andb_prop in I. lia. Qed.
Example C50_example_ok : Forall unit_ok ex_files.
Proof.
  constructor; [|constructor; [|constructor]]; (split; [apply nodup_check; reflexivity|]);
    repeat (apply Forall_cons || apply Forall_nil); split; (apply nodup_check; vm_compute; reflexivity) || (apply range_check; vm_compute; reflexivity).
Qed.
Example C50_example_cycle : link 3 [(1, mkTab [] [] 100 [(2, 200)]); (2, mkTab [] [] 200 [(1, 100)])] true [] [] [] [1] = Raise FailExn.
Proof. reflexivity. Qed.
Example C50_example_stamp : link 3 [(1, ex_unit1); (2, mkTab [] [] 200 [(1, 101)])] true [] [(0, 9)] [] [2] = Raise FailExn.
Proof. reflexivity. Qed.
Example C50_example_undefined : link 3 ex_files true [] [] [30; 31] [2] = Raise NotFound.
Proof. reflexivity. Qed.

Print Assumptions C50_units.
Print Assumptions C50_stops.
Print Assumptions C50_succeeds.
Print Assumptions C50_keeps_order.
Print Assumptions C50_link.
Print Assumptions C50_program.
