(** Values, types and pattern matching as in the Definition of Standard ML: the reference for C39. *)
From Verif Require Import Base Match_Model.

(** values; a value of a data type has the number of its constructor *)
Inductive value :=
| VConst (c : scon)
| VTuple (l : list value)
| VVector (l : list value)
| VRef (v : value)
| VCon (tag : Z) (arg : option value)
| VExn (name : Z) (arg : option value).

(** types; [TData d ts]: the data type [d] applied to types *)
Inductive ty := TInt | TWord | TChar | TString | TTuple (l : list ty) | TVector (t : ty) | TRef (t : ty) | TData (d : Z) (l : list ty) | TExn.
(** a constructor: the type of its argument, and whether that type was written as a record type at the declaration *)
Definition constructor := (option ty * bool)%type.
Record types := TE {
  constructors : Z -> list ty -> list constructor;         (* of a data type *)
  exn_arg : Z -> option ty }.                              (* the argument of an exception, by its name *)

(** an argument type written as a record type is a tuple type *)
Definition types_ok (E : types) : Prop :=
  forall d ts n t, nth_error (constructors E d ts) n = Some (Some t, true) -> exists l, t = TTuple l.

Section Typing.
Variable E : types.
Inductive has_type : ty -> value -> Prop :=
| ht_int i : has_type TInt (VConst (INTscon i))
| ht_word w : has_type TWord (VConst (WORDscon w))
| ht_char c : 0 <= c < 256 -> has_type TChar (VConst (CHARscon c))
| ht_string s : has_type TString (VConst (STRINGscon s))
| ht_tuple ts vs : Forall2 has_type ts vs -> has_type (TTuple ts) (VTuple vs)
| ht_vector t vs : Forall (has_type t) vs -> has_type (TVector t) (VVector vs)
| ht_ref t v : has_type t v -> has_type (TRef t) (VRef v)
| ht_con0 d ts n b : nth_error (constructors E d ts) n = Some (None, b) -> has_type (TData d ts) (VCon (Z.of_nat n) None)
| ht_con1 d ts n t b v : nth_error (constructors E d ts) n = Some (Some t, b) -> has_type t v ->
    has_type (TData d ts) (VCon (Z.of_nat n) (Some v))
| ht_exn0 n : exn_arg E n = None -> has_type TExn (VExn n None)
| ht_exn1 n t v : exn_arg E n = Some t -> has_type t v -> has_type TExn (VExn n (Some v)).

(** Elab.sml 1796-1798: the fields of a record type argument are stored in the block of the constructor, unless it is
    the only constructor *)
Definition greedy (d : Z) (ts : list ty) (b : bool) : bool := b && negb (Z.of_nat (length (constructors E d ts)) =? 1).
(** what stands before "as": a variable, perhaps with a type *)
Inductive variable : pat -> Prop := v_var x : variable (VARpat x) | v_typed p : variable p -> variable (TYPEDpat p).
(** the patterns of a type; constructors carry their number, the number of constructors, and greedy *)
Variable exname : Z -> Z.
Inductive pat_type : ty -> pat -> Prop :=
| pt_int i : pat_type TInt (SCONpat (INTscon i))
| pt_word w : pat_type TWord (SCONpat (WORDscon w))
| pt_char c : 0 <= c < 256 -> pat_type TChar (SCONpat (CHARscon c))
| pt_string s : pat_type TString (SCONpat (STRINGscon s))
| pt_var t x : pat_type t (VARpat x)
| pt_wild t : pat_type t WILDCARDpat
| pt_nil d ts n b : nth_error (constructors E d ts) n = Some (None, b) ->
    pat_type (TData d ts) (NILpat (CI (Z.of_nat n) (Z.of_nat (length (constructors E d ts))) false))
| pt_cons d ts n t b p : nth_error (constructors E d ts) n = Some (Some t, b) -> pat_type t p ->
    pat_type (TData d ts) (CONSpat (CI (Z.of_nat n) (Z.of_nat (length (constructors E d ts))) (greedy d ts b)) p)
| pt_exnil e : exn_arg E (exname e) = None -> pat_type TExn (EXNILpat e)
| pt_excons e t p : exn_arg E (exname e) = Some t -> pat_type t p -> pat_type TExn (EXCONSpat e p)
| pt_ref t p : pat_type t p -> pat_type (TRef t) (REFpat p)
| pt_rec ts ps : Forall2 pat_type ts ps -> pat_type (TTuple ts) (RECpat ps)
| pt_vec t ps : Forall (pat_type t) ps -> pat_type (TVector t) (VECpat ps)
| pt_par t p : pat_type t p -> pat_type t (PARpat p)
| pt_typed t p : pat_type t p -> pat_type t (TYPEDpat p)
| pt_layered t p q : variable p -> pat_type t q -> pat_type t (LAYEREDpat p q).

(** matching, as in the Definition *)
Inductive matches : pat -> value -> Prop :=
| m_const c : matches (SCONpat c) (VConst c)
| m_var x v : matches (VARpat x) v
| m_wild v : matches WILDCARDpat v
| m_nil ci : matches (NILpat ci) (VCon (conTag ci) None)
| m_cons ci p v : matches p v -> matches (CONSpat ci p) (VCon (conTag ci) (Some v))
| m_exnil e : matches (EXNILpat e) (VExn (exname e) None)
| m_excons e p v : matches p v -> matches (EXCONSpat e p) (VExn (exname e) (Some v))
| m_ref p v : matches p v -> matches (REFpat p) (VRef v)
| m_rec ps vs : Forall2 matches ps vs -> matches (RECpat ps) (VTuple vs)
| m_vec ps vs : Forall2 matches ps vs -> matches (VECpat ps) (VVector vs)
| m_par p v : matches p v -> matches (PARpat p) v
| m_typed p v : matches p v -> matches (TYPEDpat p) v
| m_layered p q v : matches p v -> matches q v -> matches (LAYEREDpat p q) v.

(** the first row whose patterns all match *)
Definition row_matches (row : list pat) (vs : list value) : Prop := Forall2 matches row vs.
Definition first_match (rows : list (list pat)) (vs : list value) (i : nat) : Prop :=
  (exists row, nth_error rows i = Some row /\ row_matches row vs) /\
  forall j row, (j < i)%nat -> nth_error rows j = Some row -> ~ row_matches row vs.
Definition no_match (rows : list (list pat)) (vs : list value) : Prop := forall row, In row rows -> ~ row_matches row vs.

(** representation of values at run time (see Match_Model) *)
Inductive represents : ty -> value -> rval -> Prop :=
| rp_const t c : represents t (VConst c) (RConst c)
| rp_tuple ts vs rs : rep_list ts vs rs -> represents (TTuple ts) (VTuple vs) (RBlock 0 rs)
| rp_vector t vs rs : rep_list (repeat t (length vs)) vs rs -> represents (TVector t) (VVector vs) (RBlock 0 rs)
| rp_ref t v r tag : represents t v r -> represents (TRef t) (VRef v) (RBlock tag [r])
| rp_con0 d ts n : represents (TData d ts) (VCon n None) (RBlock n [])
| rp_con1 d ts n t b v r : nth_error (constructors E d ts) n = Some (Some t, b) -> represents t v r ->
    represents (TData d ts) (VCon (Z.of_nat n) (Some v))
      (if Z.of_nat (length (constructors E d ts)) =? 1 then r
       else if b then match r with RBlock _ fs => RBlock (Z.of_nat n) fs | r => RBlock (Z.of_nat n) [r] end
       else RBlock (Z.of_nat n) [r])
| rp_exn0 n u : represents TExn (VExn n None) (RBlock 0 [RName n; u])
| rp_exn1 n t v r : exn_arg E n = Some t -> represents t v r -> represents TExn (VExn n (Some v)) (RBlock 0 [RName n; r])
with rep_list : list ty -> list value -> list rval -> Prop :=
| rl_nil : rep_list [] [] []
| rl_cons t v r ts vs rs : represents t v r -> rep_list ts vs rs -> rep_list (t :: ts) (v :: vs) (r :: rs).
End Typing.
