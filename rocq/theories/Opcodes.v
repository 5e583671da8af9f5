(** The opcodes: runtime/instruct.h 7-215 (enum instructions, numbered from 0);
    compiler/Opcodes.sml is generated from it by tools/mksmlopc. *)
From Coq Require Import ZArith.
Open Scope Z_scope.

Definition CONSTBYTE : Z := 0.
Definition CONSTSHORT : Z := 1.
Definition SWITCH : Z := 2.
Definition BRANCH : Z := 3.
Definition BRANCHIF : Z := 4.
Definition BRANCHIFNOT : Z := 5.
Definition POPBRANCHIFNOT : Z := 6.
Definition BRANCHIFNEQTAG : Z := 7.
Definition BRANCHIFEQ : Z := 8.
Definition BRANCHIFNEQ : Z := 9.
Definition BRANCHIFLT : Z := 10.
Definition BRANCHIFGT : Z := 11.
Definition BRANCHIFLE : Z := 12.
Definition BRANCHIFGE : Z := 13.
Definition BRANCHINTERVAL : Z := 14.
Definition C_CALL1 : Z := 15.
Definition C_CALL2 : Z := 16.
Definition C_CALL3 : Z := 17.
Definition C_CALL4 : Z := 18.
Definition C_CALL5 : Z := 19.
Definition C_CALLN : Z := 20.
Definition MAKEBLOCK : Z := 21.
Definition MAKEBLOCK1 : Z := 22.
Definition MAKEBLOCK2 : Z := 23.
Definition MAKEBLOCK3 : Z := 24.
Definition MAKEBLOCK4 : Z := 25.
Definition TAGOF : Z := 26.
Definition ACCESS : Z := 27.
Definition ACC0 : Z := 28.
Definition ACC1 : Z := 29.
Definition ACC2 : Z := 30.
Definition ACC3 : Z := 31.
Definition ACC4 : Z := 32.
Definition ACC5 : Z := 33.
Definition ACC6 : Z := 34.
Definition ACC7 : Z := 35.
Definition PUSHACC : Z := 36.
Definition PUSHACC0 : Z := 37.
Definition PUSHACC1 : Z := 38.
Definition PUSHACC2 : Z := 39.
Definition PUSHACC3 : Z := 40.
Definition PUSHACC4 : Z := 41.
Definition PUSHACC5 : Z := 42.
Definition PUSHACC6 : Z := 43.
Definition PUSHACC7 : Z := 44.
Definition ENVACC : Z := 45.
Definition ENV1 : Z := 46.
Definition ENV2 : Z := 47.
Definition ENV3 : Z := 48.
Definition ENV4 : Z := 49.
Definition ENV5 : Z := 50.
Definition ENV6 : Z := 51.
Definition ENV7 : Z := 52.
Definition PUSHENVACC : Z := 53.
Definition PUSHENV1 : Z := 54.
Definition PUSHENV2 : Z := 55.
Definition PUSHENV3 : Z := 56.
Definition PUSHENV4 : Z := 57.
Definition PUSHENV5 : Z := 58.
Definition PUSHENV6 : Z := 59.
Definition PUSHENV7 : Z := 60.
Definition PUSH_ENV1_APPLY1 : Z := 61.
Definition PUSH_ENV1_APPLY2 : Z := 62.
Definition PUSH_ENV1_APPLY3 : Z := 63.
Definition PUSH_ENV1_APPLY4 : Z := 64.
Definition PUSH_ENV1_APPTERM1 : Z := 65.
Definition PUSH_ENV1_APPTERM2 : Z := 66.
Definition PUSH_ENV1_APPTERM3 : Z := 67.
Definition PUSH_ENV1_APPTERM4 : Z := 68.
Definition PUSHATOM : Z := 69.
Definition ATOM : Z := 70.
Definition PUSHATOM0 : Z := 71.
Definition ATOM0 : Z := 72.
Definition ATOM1 : Z := 73.
Definition ATOM2 : Z := 74.
Definition ATOM3 : Z := 75.
Definition ATOM4 : Z := 76.
Definition ATOM5 : Z := 77.
Definition ATOM6 : Z := 78.
Definition ATOM7 : Z := 79.
Definition ATOM8 : Z := 80.
Definition ATOM9 : Z := 81.
Definition CONSTINT : Z := 82.
Definition PUSHCONSTINT : Z := 83.
Definition CONST0 : Z := 84.
Definition CONST1 : Z := 85.
Definition CONST2 : Z := 86.
Definition CONST3 : Z := 87.
Definition PUSHCONST0 : Z := 88.
Definition PUSHCONST1 : Z := 89.
Definition PUSHCONST2 : Z := 90.
Definition PUSHCONST3 : Z := 91.
Definition GETFIELD : Z := 92.
Definition GETFIELD0 : Z := 93.
Definition GETFIELD1 : Z := 94.
Definition GETFIELD2 : Z := 95.
Definition GETFIELD3 : Z := 96.
Definition GETFIELD0_0 : Z := 97.
Definition GETFIELD0_1 : Z := 98.
Definition GETFIELD1_0 : Z := 99.
Definition GETFIELD1_1 : Z := 100.
Definition SETFIELD : Z := 101.
Definition SETFIELD0 : Z := 102.
Definition SETFIELD1 : Z := 103.
Definition SETFIELD2 : Z := 104.
Definition SETFIELD3 : Z := 105.
Definition GETGLOBAL : Z := 106.
Definition PUSH_GETGLOBAL : Z := 107.
Definition PUSH_GETGLOBAL_APPLY1 : Z := 108.
Definition PUSH_GETGLOBAL_APPLY2 : Z := 109.
Definition PUSH_GETGLOBAL_APPLY3 : Z := 110.
Definition PUSH_GETGLOBAL_APPLY4 : Z := 111.
Definition PUSH_GETGLOBAL_APPTERM1 : Z := 112.
Definition PUSH_GETGLOBAL_APPTERM2 : Z := 113.
Definition PUSH_GETGLOBAL_APPTERM3 : Z := 114.
Definition PUSH_GETGLOBAL_APPTERM4 : Z := 115.
Definition SETGLOBAL : Z := 116.
Definition PUSH_RETADDR : Z := 117.
Definition APPLY : Z := 118.
Definition APPLY1 : Z := 119.
Definition APPLY2 : Z := 120.
Definition APPLY3 : Z := 121.
Definition APPLY4 : Z := 122.
Definition APPTERM : Z := 123.
Definition APPTERM1 : Z := 124.
Definition APPTERM2 : Z := 125.
Definition APPTERM3 : Z := 126.
Definition APPTERM4 : Z := 127.
Definition RESTART : Z := 128.
Definition GRAB : Z := 129.
Definition RETURN1 : Z := 130.
Definition RETURN2 : Z := 131.
Definition RETURN : Z := 132.
Definition CLOSURE : Z := 133.
Definition CLOSREC : Z := 134.
Definition DUMMY : Z := 135.
Definition UPDATE : Z := 136.
Definition PUSHTRAP : Z := 137.
Definition RAISE : Z := 138.
Definition POPTRAP : Z := 139.
Definition SWAP : Z := 140.
Definition PUSH : Z := 141.
Definition POP : Z := 142.
Definition ASSIGN : Z := 143.
Definition BOOLNOT : Z := 144.
Definition ADDINT : Z := 145.
Definition SUBINT : Z := 146.
Definition MULINT : Z := 147.
Definition DIVINT : Z := 148.
Definition MODINT : Z := 149.
Definition ANDINT : Z := 150.
Definition ORINT : Z := 151.
Definition XORINT : Z := 152.
Definition SHIFTLEFTINT : Z := 153.
Definition SHIFTRIGHTINTSIGNED : Z := 154.
Definition SHIFTRIGHTINTUNSIGNED : Z := 155.
Definition EQ : Z := 156.
Definition NEQ : Z := 157.
Definition LTINT : Z := 158.
Definition GTINT : Z := 159.
Definition LEINT : Z := 160.
Definition GEINT : Z := 161.
Definition FLOATOFINT : Z := 162.
Definition SMLNEGFLOAT : Z := 163.
Definition SMLADDFLOAT : Z := 164.
Definition SMLSUBFLOAT : Z := 165.
Definition SMLMULFLOAT : Z := 166.
Definition SMLDIVFLOAT : Z := 167.
Definition INTOFFLOAT : Z := 168.
Definition EQFLOAT : Z := 169.
Definition NEQFLOAT : Z := 170.
Definition LTFLOAT : Z := 171.
Definition GTFLOAT : Z := 172.
Definition LEFLOAT : Z := 173.
Definition GEFLOAT : Z := 174.
Definition STRINGLENGTH : Z := 175.
Definition GETSTRINGCHAR : Z := 176.
Definition SETSTRINGCHAR : Z := 177.
Definition EQSTRING : Z := 178.
Definition NEQSTRING : Z := 179.
Definition LTSTRING : Z := 180.
Definition GTSTRING : Z := 181.
Definition LESTRING : Z := 182.
Definition GESTRING : Z := 183.
Definition MAKEVECTOR : Z := 184.
Definition VECTLENGTH : Z := 185.
Definition GETVECTITEM : Z := 186.
Definition SETVECTITEM : Z := 187.
Definition SMLNEGINT : Z := 188.
Definition SMLSUCCINT : Z := 189.
Definition SMLPREDINT : Z := 190.
Definition SMLADDINT : Z := 191.
Definition SMLSUBINT : Z := 192.
Definition SMLMULINT : Z := 193.
Definition SMLDIVINT : Z := 194.
Definition SMLMODINT : Z := 195.
Definition MAKEREFVECTOR : Z := 196.
Definition SMLQUOTINT : Z := 197.
Definition SMLREMINT : Z := 198.
Definition CHECK_SIGNALS : Z := 199.
Definition STOP : Z := 200.
Definition EQUNSIGN : Z := 201.
Definition NEQUNSIGN : Z := 202.
Definition LTUNSIGN : Z := 203.
Definition GTUNSIGN : Z := 204.
Definition LEUNSIGN : Z := 205.
Definition GEUNSIGN : Z := 206.
