-Q theories Verif
theories/Base.v
theories/Arith_Model.v
theories/Arith_Proofs.v
theories/Arith_WordProofs.v
theories/Arith_Props.v
theories/OrderSpec.v
theories/Listsort_Model.v
theories/Listsort_Proofs.v
theories/Listsort_Props.v
theories/FinMap.v
theories/MapSpec.v
theories/Redblackmap_Model.v
theories/Redblackmap_Proofs.v
theories/Redblackmap_Props.v
theories/SetSpec.v
theories/Rbset_Model.v
theories/Rbset_Proofs.v
theories/Rbset_Props.v
theories/Wbtree_Model.v
theories/Wbtree_Proofs.v
theories/Binarymap_Model.v
theories/Binarymap_Proofs.v
theories/Binarymap_Props.v
theories/Binaryset_Model.v
theories/Binaryset_Proofs.v
theories/Binaryset_Props.v
theories/Splaytree_Model.v
theories/Splaytree_Proofs.v
theories/Splaymap_Model.v
theories/Splaymap_Proofs.v
theories/Splaymap_Props.v
theories/Splayset_Model.v
theories/Splayset_Proofs.v
theories/Splayset_Props.v
theories/Intmap_Model.v
theories/Intmap_Proofs.v
theories/Intmap_Props.v
theories/Intset_Model.v
theories/Intset_Proofs.v
theories/Intset_Props.v
theories/ArrayLib.v
theories/Arraysort_Model.v
theories/Arraysort_Proofs.v
theories/Arraysort_Props.v
theories/Hash_Model.v
theories/Polyhash_Model.v
theories/Hashset_Model.v
theories/Hash_Proofs.v
theories/Polyhash_Proofs.v
theories/Hashset_Proofs.v
theories/Polyhash_Props.v
theories/Hashset_Props.v
theories/Copy_Model.v
theories/Copy_Proofs.v
theories/Copy_Props.v
theories/Buffer_Model.v
theories/Buffer_Props.v
theories/Dynarray_Model.v
theories/Dynarray_Props.v
theories/Freelist_Model.v
theories/Freelist_Proofs.v
theories/Freelist_Alloc.v
theories/Freelist_Inv.v
theories/Freelist_Steps.v
theories/Freelist_Props.v
theories/Scan_Model.v
theories/Scan_Spec.v
theories/Scan_Proofs.v
theories/Scan_Proofs2.v
theories/Scan_Proofs3.v
theories/Scan_Proofs4.v
theories/Scan_Props.v
theories/Substring_Model.v
theories/Substring_Spec.v
theories/Substring_Proofs.v
theories/Substring_Proofs2.v
theories/Substring_Props.v
theories/Escape_Model.v
theories/Escape_Spec.v
theories/Escape_Proofs.v
theories/Escape_Proofs2.v
theories/Escape_Props.v
theories/Path_Model.v
theories/Path_Spec.v
theories/Path_Proofs.v
theories/Path_Props.v
theories/Date_Model.v
theories/Date_Spec.v
theories/Date_Proofs.v
theories/Date_Proofs2.v
theories/Date_Props.v
theories/Str_Model.v
theories/Str_Proofs.v
theories/Str_Props.v
theories/Value_Model.v
theories/Value_Spec.v
theories/Value_Proofs.v
theories/Value_Props.v
theories/Warshall_Model.v
theories/Warshall_Props.v
theories/Infix_Model.v
theories/Infix_Props.v
theories/Opcodes.v
theories/Emit_Model.v
theories/Emit_Proofs.v
theories/Emit_Props.v
theories/Real_Model.v
theories/Real_Props.v
theories/Pagetable_Model.v
theories/Pagetable_Props.v
theories/Gc_Model.v
theories/Gc_Spec.v
theories/Gc_Heap.v
theories/Gc_Minor.v
theories/Gc_Dark.v
theories/Gc_Inv.v
theories/Gc_Store.v
theories/Gc_Minor2.v
theories/Gc_Major.v
theories/Gc_Sweep.v
theories/Gc_Run.v
theories/Gc_Full.v
theories/Gc_Weak.v
theories/Gc_Oracle.v
theories/Gc_Props.v
theories/Md5_Model.v
theories/Md5_Spec.v
theories/Md5_Proofs.v
theories/Md5_Proofs2.v
theories/Md5_Table.v
theories/Md5_Props.v
theories/Mem.v
theories/Io_Model.v
theories/Io_Spec.v
theories/Io_Out.v
theories/Io_In.v
theories/Io_Props.v
theories/Extern_Model.v
theories/Extern_Spec.v
theories/Extern_Tab.v
theories/Extern_Proofs.v
theories/Extern_In.v
theories/Extern_Props.v
theories/Compact_Model.v
theories/Compact_Spec.v
theories/Compact_Bytes.v
theories/Compact_Proofs.v
theories/Compact_Props.v
theories/Match_Model.v
theories/Match_Spec.v
theories/Match_Proofs.v
theories/Match_Dag.v
theories/Match_Code.v
theories/Match_Core.v
theories/Match_Top.v
theories/Match_Props.v
theories/Lex_Model.v
theories/Lex_Spec.v
theories/Lex_Proofs.v
theories/Lex_Encode.v
theories/Lex_Dfa.v
theories/Lex_Run.v
theories/Lex_Props.v
theories/Zam_Model.v
theories/Back_Model.v
theories/Back_Spec.v
theories/Back_Rel.v
theories/Back_Sim.v
theories/Back_Goal.v
theories/Back_Tree.v
theories/Back_Main.v
theories/Back_Lists.v
theories/Back_Terms.v
theories/Back_Defs.v
theories/Back_Prims.v
theories/Back_Ok.v
theories/Back_Head.v
theories/Back_Ctl.v
theories/Back_Case.v
theories/Back_All.v
theories/Back_Frame.v
theories/Back_Comp.v
theories/Back_Gen.v
theories/Back_Prog.v
theories/Back_Lift.v
theories/Lam_Spec.v
theories/Stack_Model.v
theories/Stack_Spec.v
theories/Stack_Proofs.v
theories/Stack_Props.v
theories/Back_Props.v
theories/Lift_Rel.v
theories/Lift_Prim.v
theories/Lift_Sim.v
theories/Lift_Main.v
theories/Lift_Undb.v
theories/Lift_Lft.v
theories/Lift_Cap.v
theories/Lift_Quiet.v
theories/Lift_Props.v
theories/Unify_Model.v
theories/Unify_Spec.v
theories/Unify_Base.v
theories/Unify_Sol.v
theories/Unify_Norm.v
theories/Unify_Meas.v
theories/Unify_Free.v
theories/Unify_Attr.v
theories/Unify_Link.v
theories/Unify_Rows.v
theories/Unify_Proof.v
theories/Unify_Term.v
theories/Unify_Props.v
theories/Lexbuf_Model.v
theories/Lexbuf_Spec.v
theories/Lexbuf_Proofs.v
theories/Lexbuf_Props.v
theories/Textio_Model.v
theories/Textio_Spec.v
theories/Textio_Proofs.v
theories/Textio_Props.v
theories/Link_Model.v
theories/Link_Spec.v
theories/Link_Proofs.v
theories/Link_Props.v
theories/Token_Model.v
theories/Token_Spec.v
theories/Token_Proofs.v
theories/Token_String.v
theories/Token_Scan.v
theories/Token_Comment.v
theories/Token_Token.v
theories/Token_Number_Spec.v
theories/Token_Number.v
theories/Token_Props.v
theories/Token_Ident.v
theories/Poly_Model.v
theories/Poly_Spec.v
theories/Poly_Copy.v
theories/Poly_Gen.v
theories/Poly_Props.v
theories/Word8_Model.v
theories/Word8_Scan.v
theories/Word8_Props.v
theories/Cgi_Model.v
theories/Cgi_Spec.v
theories/Cgi_Proofs.v
theories/Cgi_Props.v
theories/List_Model.v
theories/List_Props.v
theories/ListPair_Props.v
theories/Vector_Model.v
theories/Vector_Props.v
theories/VectorSlice_Model.v
theories/VectorSlice_Props.v
theories/Tables_Props.v
theories/ArrayIter_Model.v
theories/ArrayIter_Props.v
theories/Susp_Model.v
theories/Susp_Props.v
