(** Generated by tools/lritems.py: an unambiguous refinement of the grammar of build/parse.y, and for each state of the
    automaton of LRTables.v the items of that grammar that may be current there.  Checked in LRComplete.v. *)
From Verif Require Import LRTables.
From Coq Require Import ZArith List.
Import ListNotations.
Local Open Scope Z_scope.

(** Nonterminals (negative numbers).  A Boolean tells "ends with a lambda" for expressions and clauses, "ends with a
    one-line suite" for statements. *)
Definition G_level (n : nat) (opn : bool) : Z := - (2 * Z.of_nat n + (if opn then 2 else 1)).
Definition G_Test : Z := -27.
Definition G_Item : Z := -28.
Definition G_Prim : Z := -29.
Definition G_PrimN : Z := -30.
Definition G_Num : Z := -31.
Definition G_IntN : Z := -32.
Definition G_Str : Z := -33.
Definition G_Id : Z := -34.
Definition G_Expr : Z := -35.
Definition G_LBody : Z := -36.
Definition G_ExprO : Z := -37.
Definition G_TestO : Z := -38.
Definition G_Tests : Z := -39.
Definition G_TestsO : Z := -40.
Definition G_CommaO : Z := -41.
Definition G_Commas : Z := -42.
Definition G_CommasO : Z := -43.
Definition G_KV : Z := -44.
Definition G_KVN : Z := -45.
Definition G_KVS : Z := -46.
Definition G_Vars : Z := -47.
Definition G_Args : Z := -48.
Definition G_ArgsO : Z := -49.
Definition G_Arg : Z := -50.
Definition G_LArgs : Z := -51.
Definition G_LArg : Z := -52.
Definition G_ParamsO : Z := -53.
Definition G_TParamsO : Z := -54.
Definition G_Params : Z := -55.
Definition G_TParams : Z := -56.
Definition G_Param : Z := -57.
Definition G_TParam : Z := -58.
Definition G_Small : Z := -65.
Definition G_Cont : Z := -66.
Definition G_SemiO : Z := -67.
Definition G_Simple : Z := -68.
Definition G_DefH : Z := -69.
Definition G_DefT : Z := -70.
Definition G_Elif : Z := -71.
Definition G_StmtL : Z := -72.
Definition G_Comms : Z := -73.
Definition G_LBr : Z := -74.
Definition G_Start : Z := -87.
Definition G_ForC (k : bool) : Z := if k then -60 else -59.
Definition G_FI (k : bool) : Z := if k then -62 else -61.
Definition G_FC (k : bool) : Z := if k then -64 else -63.
Definition G_Stmts (k : bool) : Z := if k then -81 else -75.
Definition G_StmtB (k : bool) : Z := if k then -82 else -76.
Definition G_Block (k : bool) : Z := if k then -83 else -77.
Definition G_IfC (k : bool) : Z := if k then -84 else -78.
Definition G_IfE (k : bool) : Z := if k then -85 else -79.
Definition G_Suite (k : bool) : Z := if k then -86 else -80.
(** The symbol of build/parse.y that each of them stands for. *)
Definition erased : list Z :=
  [0; N_test; N_test; N_test; N_test; N_test; N_test; N_test; N_test; N_test; N_test; N_test; N_test; N_test; N_test; N_test; N_test; N_test; N_test; N_test; N_test; N_test; N_test; N_test; N_test; N_test; N_test; N_test; N_test; N_primary_expr; N_primary_expr; N_number; N_number; N_string; N_ident; N_expr; N_expr; N_expr_opt; N_test_opt; N_tests; N_tests_opt; N_comma_opt; N_commas; N_commas_opt; N_keyvalue; N_keyvalues_no_comma; N_keyvalues; N_loop_vars; N_arguments; N_arguments_opt; N_argument; N_load_arguments; N_load_argument; N_parameters_opt; N_parameters_type_opt; N_parameters; N_parameters_type; N_parameter; N_parameter_type; N_for_clause; N_for_clause; N_for_clause_with_if_clauses_opt; N_for_clause_with_if_clauses_opt; N_for_clauses_with_if_clauses_opt; N_for_clauses_with_if_clauses_opt; N_small_stmt; N_small_stmts_continuation; N_semi_opt; N_simple_stmt; N_def_header; N_def_header_type_opt; N_elif; N_stmt; N_comments; N_linebreaks_opt; N_stmts; N_stmt; N_block_stmt; N_if_chain; N_if_else_block; N_suite; N_stmts; N_stmt; N_block_stmt; N_if_chain; N_if_else_block; N_suite; N_file].
(** Productions: left side, right side, and the rule of build/parse.y.  Those without a rule do nothing in the automaton. *)
Definition prods : list (Z * list Z * option Z) :=
  [((G_level 3 false), [(G_level 3 false); T_OR; (G_level 4 false)], Some 109);
   ((G_level 3 true), [(G_level 3 false); T_OR; (G_level 4 true)], Some 109);
   ((G_level 4 false), [(G_level 4 false); T_AND; (G_level 5 false)], Some 110);
   ((G_level 4 true), [(G_level 4 false); T_AND; (G_level 5 true)], Some 110);
   ((G_level 5 false), [(G_level 5 false); t_lt; (G_level 6 false)], Some 101);
   ((G_level 5 true), [(G_level 5 false); t_lt; (G_level 6 true)], Some 101);
   ((G_level 5 false), [(G_level 5 false); t_gt; (G_level 6 false)], Some 102);
   ((G_level 5 true), [(G_level 5 false); t_gt; (G_level 6 true)], Some 102);
   ((G_level 5 false), [(G_level 5 false); T_EQ; (G_level 6 false)], Some 103);
   ((G_level 5 true), [(G_level 5 false); T_EQ; (G_level 6 true)], Some 103);
   ((G_level 5 false), [(G_level 5 false); T_LE; (G_level 6 false)], Some 104);
   ((G_level 5 true), [(G_level 5 false); T_LE; (G_level 6 true)], Some 104);
   ((G_level 5 false), [(G_level 5 false); T_NE; (G_level 6 false)], Some 105);
   ((G_level 5 true), [(G_level 5 false); T_NE; (G_level 6 true)], Some 105);
   ((G_level 5 false), [(G_level 5 false); T_GE; (G_level 6 false)], Some 106);
   ((G_level 5 true), [(G_level 5 false); T_GE; (G_level 6 true)], Some 106);
   ((G_level 5 false), [(G_level 5 false); T_IN; (G_level 6 false)], Some 107);
   ((G_level 5 true), [(G_level 5 false); T_IN; (G_level 6 true)], Some 107);
   ((G_level 5 false), [(G_level 5 false); T_NOT; T_IN; (G_level 6 false)], Some 108);
   ((G_level 5 true), [(G_level 5 false); T_NOT; T_IN; (G_level 6 true)], Some 108);
   ((G_level 6 false), [(G_level 6 false); t_bar; (G_level 7 false)], Some 111);
   ((G_level 6 true), [(G_level 6 false); t_bar; (G_level 7 true)], Some 111);
   ((G_level 7 false), [(G_level 7 false); t_caret; (G_level 8 false)], Some 113);
   ((G_level 7 true), [(G_level 7 false); t_caret; (G_level 8 true)], Some 113);
   ((G_level 8 false), [(G_level 8 false); t_amp; (G_level 9 false)], Some 112);
   ((G_level 8 true), [(G_level 8 false); t_amp; (G_level 9 true)], Some 112);
   ((G_level 9 false), [(G_level 9 false); T_BIT_LSH; (G_level 10 false)], Some 114);
   ((G_level 9 true), [(G_level 9 false); T_BIT_LSH; (G_level 10 true)], Some 114);
   ((G_level 9 false), [(G_level 9 false); T_BIT_RSH; (G_level 10 false)], Some 115);
   ((G_level 9 true), [(G_level 9 false); T_BIT_RSH; (G_level 10 true)], Some 115);
   ((G_level 10 false), [(G_level 10 false); t_plus; (G_level 11 false)], Some 99);
   ((G_level 10 true), [(G_level 10 false); t_plus; (G_level 11 true)], Some 99);
   ((G_level 10 false), [(G_level 10 false); t_minus; (G_level 11 false)], Some 100);
   ((G_level 10 true), [(G_level 10 false); t_minus; (G_level 11 true)], Some 100);
   ((G_level 11 false), [(G_level 11 false); t_star; (G_level 12 false)], Some 95);
   ((G_level 11 true), [(G_level 11 false); t_star; (G_level 12 true)], Some 95);
   ((G_level 11 false), [(G_level 11 false); t_percent; (G_level 12 false)], Some 96);
   ((G_level 11 true), [(G_level 11 false); t_percent; (G_level 12 true)], Some 96);
   ((G_level 11 false), [(G_level 11 false); t_slash; (G_level 12 false)], Some 97);
   ((G_level 11 true), [(G_level 11 false); t_slash; (G_level 12 true)], Some 97);
   ((G_level 11 false), [(G_level 11 false); T_INT_DIV; (G_level 12 false)], Some 98);
   ((G_level 11 true), [(G_level 11 false); T_INT_DIV; (G_level 12 true)], Some 98);
   ((G_level 2 false), [(G_level 2 false); T_IS; (G_level 3 false)], Some 116);
   ((G_level 2 true), [(G_level 2 false); T_IS; (G_level 3 true)], Some 116);
   ((G_level 0 false), [(G_level 1 false)], None);
   ((G_level 0 true), [(G_level 1 true)], None);
   ((G_level 1 false), [(G_level 2 false)], None);
   ((G_level 1 true), [(G_level 2 true)], None);
   ((G_level 2 false), [(G_level 3 false)], None);
   ((G_level 2 true), [(G_level 3 true)], None);
   ((G_level 3 false), [(G_level 4 false)], None);
   ((G_level 3 true), [(G_level 4 true)], None);
   ((G_level 4 false), [(G_level 5 false)], None);
   ((G_level 4 true), [(G_level 5 true)], None);
   ((G_level 5 false), [(G_level 6 false)], None);
   ((G_level 5 true), [(G_level 6 true)], None);
   ((G_level 6 false), [(G_level 7 false)], None);
   ((G_level 6 true), [(G_level 7 true)], None);
   ((G_level 7 false), [(G_level 8 false)], None);
   ((G_level 7 true), [(G_level 8 true)], None);
   ((G_level 8 false), [(G_level 9 false)], None);
   ((G_level 8 true), [(G_level 9 true)], None);
   ((G_level 9 false), [(G_level 10 false)], None);
   ((G_level 9 true), [(G_level 10 true)], None);
   ((G_level 10 false), [(G_level 11 false)], None);
   ((G_level 10 true), [(G_level 11 true)], None);
   ((G_level 11 false), [(G_level 12 false)], None);
   ((G_level 11 true), [(G_level 12 true)], None);
   ((G_level 1 false), [(G_level 1 false); T_IF; G_Test; T_ELSE; (G_level 2 false)], Some 117);
   ((G_level 12 false), [T_NOT; (G_level 12 false)], Some 91);
   ((G_level 12 false), [t_minus; (G_level 12 false)], Some 92);
   ((G_level 12 false), [t_plus; (G_level 12 false)], Some 93);
   ((G_level 12 false), [t_tilde; (G_level 12 false)], Some 94);
   (G_Test, [(G_level 0 false)], None);
   (G_Item, [(G_level 2 false)], None);
   ((G_level 1 true), [(G_level 1 false); T_IF; G_Test; T_ELSE; (G_level 2 true)], Some 117);
   ((G_level 12 true), [T_NOT; (G_level 12 true)], Some 91);
   ((G_level 12 true), [t_minus; (G_level 12 true)], Some 92);
   ((G_level 12 true), [t_plus; (G_level 12 true)], Some 93);
   ((G_level 12 true), [t_tilde; (G_level 12 true)], Some 94);
   (G_Test, [(G_level 0 true)], None);
   (G_Item, [(G_level 2 true)], None);
   ((G_level 12 false), [G_Prim], Some 89);
   ((G_level 12 true), [T_LAMBDA; G_ParamsO; t_colon; G_LBody], Some 90);
   (G_LBody, [G_Test], Some 85);
   (G_Prim, [G_PrimN], None);
   (G_Prim, [G_IntN], Some 41);
   (G_PrimN, [G_Id], Some 40);
   (G_PrimN, [G_Num], Some 41);
   (G_PrimN, [G_Str], Some 42);
   (G_PrimN, [G_PrimN; t_dot; T_IDENT], Some 43);
   (G_PrimN, [T_LOAD; t_lparen; G_CommasO; G_Str; G_Commas; G_LArgs; G_CommasO; t_rparen], Some 44);
   (G_PrimN, [G_Prim; t_lparen; G_ArgsO; t_rparen], Some 45);
   (G_PrimN, [G_Prim; t_lbrack; G_Expr; t_rbrack], Some 46);
   (G_PrimN, [G_Prim; t_lbrack; G_ExprO; t_colon; G_TestO; t_rbrack], Some 47);
   (G_PrimN, [G_Prim; t_lbrack; G_ExprO; t_colon; G_TestO; t_colon; G_TestO; t_rbrack], Some 48);
   (G_PrimN, [t_lbrack; G_TestsO; t_rbrack], Some 49);
   (G_PrimN, [t_lbrack; G_Test; (G_FC false); t_rbrack], Some 50);
   (G_PrimN, [t_lbrace; G_KV; (G_FC false); t_rbrace], Some 51);
   (G_PrimN, [t_lbrack; G_Test; (G_FC true); t_rbrack], Some 50);
   (G_PrimN, [t_lbrace; G_KV; (G_FC true); t_rbrace], Some 51);
   (G_PrimN, [t_lbrace; G_KVS; t_rbrace], Some 52);
   (G_PrimN, [t_lbrace; G_Tests; G_CommaO; t_rbrace], Some 53);
   (G_PrimN, [t_lparen; G_TestsO; t_rparen], Some 54);
   (G_ArgsO, [], Some 55);
   (G_ArgsO, [G_Args; G_CommasO], Some 56);
   (G_Args, [G_CommasO; G_Arg], Some 57);
   (G_Args, [G_Args; G_Commas; G_Arg], Some 58);
   (G_Arg, [G_Test], Some 59);
   (G_Arg, [G_Id; t_assign; G_Test], Some 60);
   (G_Arg, [t_star; G_Test], Some 61);
   (G_Arg, [T_STAR_STAR; G_Test], Some 62);
   (G_LArgs, [G_LArg], Some 63);
   (G_LArgs, [G_LArgs; t_comma; G_LArg], Some 64);
   (G_LArg, [G_Str], Some 65);
   (G_LArg, [G_Id; t_assign; G_Str], Some 66);
   (G_ParamsO, [], Some 67);
   (G_ParamsO, [G_Params; G_CommaO], Some 68);
   (G_TParamsO, [], Some 69);
   (G_TParamsO, [G_TParams; G_CommaO], Some 70);
   (G_Params, [G_Param], Some 71);
   (G_Params, [G_Params; t_comma; G_Param], Some 72);
   (G_TParams, [G_TParam], Some 73);
   (G_TParams, [G_TParams; t_comma; G_TParam], Some 74);
   (G_Param, [G_Id], Some 75);
   (G_Param, [G_Id; t_assign; G_Test], Some 76);
   (G_Param, [t_star; G_Id], Some 77);
   (G_Param, [t_star], Some 78);
   (G_Param, [T_STAR_STAR; G_Id], Some 79);
   (G_TParam, [G_Param], Some 80);
   (G_TParam, [G_Id; t_colon; G_Test], Some 81);
   (G_TParam, [G_Id; t_colon; G_Test; t_assign; G_Test], Some 82);
   (G_TParam, [t_star; G_Id; t_colon; G_Test], Some 83);
   (G_TParam, [T_STAR_STAR; G_Id; t_colon; G_Test], Some 84);
   (G_Expr, [G_Test], Some 85);
   (G_Expr, [G_Expr; t_comma; G_Item], Some 86);
   (G_ExprO, [], Some 87);
   (G_ExprO, [G_Expr], Some 88);
   (G_Tests, [G_Test], Some 118);
   (G_Tests, [G_Tests; G_Commas; G_Test], Some 119);
   (G_TestO, [], Some 120);
   (G_TestO, [G_Test], Some 121);
   (G_TestsO, [], Some 122);
   (G_TestsO, [G_Tests; G_CommasO], Some 123);
   (G_CommaO, [], Some 124);
   (G_CommaO, [t_comma], Some 125);
   (G_Commas, [t_comma], Some 126);
   (G_Commas, [G_Commas; t_comma], Some 127);
   (G_CommasO, [], Some 128);
   (G_CommasO, [G_Commas], Some 129);
   (G_KV, [G_Test; t_colon; G_Test], Some 130);
   (G_KVN, [G_KV], Some 131);
   (G_KVN, [G_KVN; G_Commas; G_KV], Some 132);
   (G_KVS, [], Some 133);
   (G_KVS, [G_KVN], Some 134);
   (G_KVS, [G_KVN; G_Commas], Some 135);
   (G_Vars, [G_Prim], Some 136);
   (G_Vars, [G_Vars; t_comma; G_Prim], Some 137);
   (G_Str, [T_STRING], Some 138);
   (G_Id, [T_IDENT], Some 139);
   (G_Num, [T_INT; t_dot; T_INT], Some 140);
   (G_Num, [T_INT; t_dot], Some 141);
   (G_Num, [t_dot; T_INT], Some 142);
   (G_IntN, [T_INT], Some 143);
   ((G_ForC false), [T_FOR; G_Vars; T_IN; (G_level 2 false)], Some 144);
   ((G_FI false), [(G_ForC false)], Some 145);
   ((G_FI false), [(G_FI false); T_IF; (G_level 2 false)], Some 146);
   ((G_FC false), [(G_FI false)], Some 147);
   ((G_FC false), [(G_FC false); (G_FI false)], Some 148);
   ((G_FC false), [(G_FC true); (G_FI false)], Some 148);
   ((G_ForC true), [T_FOR; G_Vars; T_IN; (G_level 2 true)], Some 144);
   ((G_FI true), [(G_ForC true)], Some 145);
   ((G_FI true), [(G_FI false); T_IF; (G_level 2 true)], Some 146);
   ((G_FC true), [(G_FI true)], Some 147);
   ((G_FC true), [(G_FC false); (G_FI true)], Some 148);
   ((G_FC true), [(G_FC true); (G_FI true)], Some 148);
   (G_Start, [(G_Stmts false); T_EOF], Some 1);
   (G_Start, [(G_Stmts true); T_EOF], Some 1);
   ((G_Stmts false), [], Some 9);
   ((G_Stmts false), [(G_Stmts false); t_newline], Some 11);
   ((G_Stmts false), [(G_Stmts false); T_COMMENT; t_newline], Some 12);
   ((G_Stmts false), [(G_Stmts false); G_StmtL], Some 10);
   ((G_Stmts false), [(G_Stmts false); (G_StmtB false)], Some 10);
   ((G_Stmts true), [(G_Stmts false); (G_StmtB true)], Some 10);
   ((G_Stmts false), [(G_Stmts true); T_COMMENT; t_newline], Some 12);
   ((G_Stmts false), [(G_Stmts true); G_StmtL], Some 10);
   ((G_Stmts false), [(G_Stmts true); (G_StmtB false)], Some 10);
   ((G_Stmts true), [(G_Stmts true); (G_StmtB true)], Some 10);
   (G_StmtL, [G_Simple], Some 13);
   ((G_StmtB false), [(G_Block false)], Some 14);
   ((G_Block false), [G_DefT; t_colon; (G_Suite false)], Some 18);
   ((G_Block false), [T_FOR; G_Vars; T_IN; G_Expr; t_colon; (G_Suite false)], Some 19);
   ((G_Block false), [(G_IfE false)], Some 20);
   ((G_IfC false), [T_IF; G_Expr; t_colon; (G_Suite false)], Some 21);
   ((G_IfE false), [(G_IfC false)], Some 23);
   ((G_IfC false), [(G_IfC false); G_Elif; G_Expr; t_colon; (G_Suite false)], Some 22);
   ((G_IfE false), [(G_IfC false); T_ELSE; t_colon; (G_Suite false)], Some 24);
   ((G_IfC false), [(G_IfC true); G_Elif; G_Expr; t_colon; (G_Suite false)], Some 22);
   ((G_IfE false), [(G_IfC true); T_ELSE; t_colon; (G_Suite false)], Some 24);
   ((G_Suite false), [t_newline; G_Comms; T_INDENT; (G_Stmts false); T_UNINDENT], Some 2);
   ((G_StmtB true), [(G_Block true)], Some 14);
   ((G_Block true), [G_DefT; t_colon; (G_Suite true)], Some 18);
   ((G_Block true), [T_FOR; G_Vars; T_IN; G_Expr; t_colon; (G_Suite true)], Some 19);
   ((G_Block true), [(G_IfE true)], Some 20);
   ((G_IfC true), [T_IF; G_Expr; t_colon; (G_Suite true)], Some 21);
   ((G_IfE true), [(G_IfC true)], Some 23);
   ((G_IfC true), [(G_IfC false); G_Elif; G_Expr; t_colon; (G_Suite true)], Some 22);
   ((G_IfE true), [(G_IfC false); T_ELSE; t_colon; (G_Suite true)], Some 24);
   ((G_IfC true), [(G_IfC true); G_Elif; G_Expr; t_colon; (G_Suite true)], Some 22);
   ((G_IfE true), [(G_IfC true); T_ELSE; t_colon; (G_Suite true)], Some 24);
   ((G_Suite false), [t_newline; G_Comms; T_INDENT; (G_Stmts true); T_UNINDENT], Some 2);
   ((G_Suite true), [G_Simple; G_LBr], Some 3);
   (G_LBr, [], Some 4);
   (G_LBr, [G_LBr; t_newline], Some 5);
   (G_Comms, [], Some 6);
   (G_Comms, [G_Comms; T_COMMENT; t_newline], Some 7);
   (G_Comms, [G_Comms; t_newline], Some 8);
   (G_DefH, [T_DEF; T_IDENT; t_lparen; G_TParamsO; t_rparen], Some 15);
   (G_DefT, [G_DefH], Some 16);
   (G_DefT, [G_DefH; T_ARROW; G_Test], Some 17);
   (G_Elif, [T_ELSE; T_IF], Some 25);
   (G_Elif, [T_ELIF], Some 26);
   (G_Simple, [G_Small; G_Cont; G_SemiO; t_newline], Some 27);
   (G_Cont, [], Some 28);
   (G_Cont, [G_Cont; t_semi; G_Small], Some 29);
   (G_Small, [G_Expr], Some 30);
   (G_Small, [T_RETURN; G_Expr], Some 31);
   (G_Small, [T_RETURN], Some 32);
   (G_Small, [G_Expr; t_assign; G_Expr], Some 33);
   (G_Small, [G_Expr; T_AUGM; G_Expr], Some 34);
   (G_Small, [T_PASS], Some 35);
   (G_Small, [T_BREAK], Some 36);
   (G_Small, [T_CONTINUE], Some 37);
   (G_SemiO, [], Some 38);
   (G_SemiO, [t_semi], Some 39)].
(** Sets of terminals, as bit masks. *)
Definition masks : list Z :=
  [0x40; 0x240; 0x2000; 0x2200; 0x2240; 0x8240; 0x40040; 0x40200; 0x40240; 0x42000; 0x42200; 0x100000; 0x100200; 0x102200; 0x140240; 0x10000000; 0x40040000; 0x40040200; 0x40100000; 0x40100200; 0x40140000; 0x400000240; 0x400002000; 0x400002240; 0x400008240; 0x400042000; 0x400102200; 0x400140240; 0x440040200; 0x440100200; 0x440140000; 0x800000000; 0xc00000000; 0x2000000200; 0x2000020a20; 0x4400000240; 0x4400002000; 0x4400002240; 0x4400008240; 0x4400042000; 0x4400102200; 0x4400140240; 0x4440040200; 0x4440100200; 0x4440140000; 0x4c00000000; 0x800000002000; 0x2004400000240; 0x2004400002000; 0x2004400002240; 0x2004400008240; 0x2004400042000; 0x2004400102200; 0x2004400140240; 0x2004404000240; 0x2004404002000; 0x2004404002240; 0x2004404008240; 0x2004404042000; 0x2004404102200; 0x2004404140240; 0x2004440040200; 0x2004440100200; 0x2004440140000; 0x2004444040200; 0x2004444100200; 0x2004444140000; 0x2004c00000000; 0x2004c04000000; 0x30664a4014240; 0x30664a4016000; 0x30664a4016240; 0x30664a401c240; 0x30664a4056000; 0x30664a4116200; 0x30664a4154240; 0x30664a4214240; 0x30664a4216000; 0x30664a4216240; 0x30664a421c240; 0x30664a4256000; 0x30664a4316200; 0x30664a4354240; 0x30664a4a14240; 0x30664a4a16000; 0x30664a4a16240; 0x30664a4a1c240; 0x30664a4a56000; 0x30664a4b16200; 0x30664a4b54240; 0x30664a4e14240; 0x30664a4e16000; 0x30664a4e16240; 0x30664a4e1c240; 0x30664a4e56000; 0x30664a4f16200; 0x30664a4f54240; 0x30664e4054200; 0x30664e4114200; 0x30664e4154000; 0x30664e4254200; 0x30664e4314200; 0x30664e4354000; 0x30664e4a54200; 0x30664e4b14200; 0x30664e4b54000; 0x30664e4e54200; 0x30664e4f14200; 0x30664e4f54000; 0x3066ca4014000; 0x3066ca4214000; 0x3066ca4a14000; 0x3066ca4e14000; 0x36664a4e14240; 0x36664a4e14740; 0x36664a4e16000; 0x36664a4e16240; 0x36664a4e16500; 0x36664a4e16740; 0x36664a4e1c240; 0x36664a4e1c740; 0x36664a4e56000; 0x36664a4e56500; 0x36664a4f16200; 0x36664a4f16700; 0x36664a4f54240; 0x36664a4f54740; 0x36664e4e54200; 0x36664e4e54700; 0x36664e4f14200; 0x36664e4f14700; 0x36664e4f54000; 0x36664e4f54500; 0x3666ca4e14000; 0x3666ca4e14500; 0x37664a4e157d0; 0x37664a4e17590; 0x37664a4e177d0; 0x37664a4e1d7d0; 0x37664a4e35ff0; 0x37664a4e57590; 0x37664a4f17790; 0x37664a4f557d0; 0x37664e4e55790; 0x37664e4f15790; 0x37664e4f55590; 0x3766ca4e15590; 0x4000100000200; 0x50183010a0d20; 0x50183010a0f20; 0x50183010e0f60; 0x50183011a0f20; 0x50983010a0de0; 0x50983010a0fe0; 0x50983011e0fe0; 0xfd0187590a0d20; 0x2fd0187490a0d20; 0x2fd0187590a0d20; 0x2fd019f590a0d20; 0x800000000000000; 0x8fd0187590a0d20; 0x900000008000000; 0xafd0187490a0d20; 0xafd0187590a0d20; 0xafd019f590a0d20; 0x4800000000000000; 0x4800000000000200; 0x4800000002008200; 0x480000000204a200; 0x480000084214a240; 0x4800000c4214a240; 0x480000400204a200; 0x4800004c4214a240; 0x480200400204a200; 0x480200400604a200; 0x4802004c4214a240; 0x4802004c4614a240; 0x48030660a605e200; 0x48030660a625e200; 0x48030660a6a5e200; 0x48030660a6e5e200; 0x4803066ce615e240; 0x4803066ce635e240; 0x4803066ce6b5e240; 0x4803066ce6f5e240; 0x48036660a6e5e200; 0x48036660a6e5e700; 0x4803666ce6f5e240; 0x4803666ce6f5e740; 0x48037660a6e5f790; 0x4803766ce6f5f7d0; 0x4803766ce6f7f7f0; 0x4803766ce6f7fff0].
(** For each state: production, position in its right side, and what may follow it (an index in [masks]). *)
Definition kernels : list (list (Z * Z * Z)) :=
  [[(176, 0, 15); (177, 0, 15)];
   [];
   [(176, 1, 15); (177, 1, 15); (179, 1, 160); (180, 1, 160); (181, 1, 160); (182, 1, 160); (183, 1, 155); (184, 1, 160); (185, 1, 160); (186, 1, 160); (187, 1, 155)];
   [(176, 2, 15); (177, 2, 15)];
   [(181, 2, 163); (182, 2, 163); (183, 2, 157); (185, 2, 163); (186, 2, 163); (187, 2, 157)];
   [(179, 2, 163)];
   [(180, 2, 163); (184, 2, 163)];
   [(188, 1, 163)];
   [(189, 1, 163); (200, 1, 157)];
   [(222, 1, 164)];
   [(190, 1, 163); (201, 1, 157)];
   [(191, 1, 163); (202, 1, 157)];
   [(192, 1, 163); (203, 1, 157)];
   [(135, 1, 167); (225, 1, 165); (228, 1, 165); (229, 1, 165)];
   [(226, 1, 165); (227, 1, 165)];
   [(230, 1, 165)];
   [(231, 1, 165)];
   [(232, 1, 165)];
   [(218, 1, 2); (219, 1, 2)];
   [(194, 1, 163); (195, 1, 164); (196, 1, 163); (197, 1, 164); (198, 1, 163); (205, 1, 157); (206, 1, 158); (207, 1, 157); (208, 1, 158); (209, 1, 157)];
   [(0, 1, 175); (1, 1, 169); (2, 1, 176); (3, 1, 169); (4, 1, 181); (5, 1, 169); (6, 1, 181); (7, 1, 169); (8, 1, 181); (9, 1, 169); (10, 1, 181); (11, 1, 169); (12, 1, 181); (13, 1, 169); (14, 1, 181); (15, 1, 169); (16, 1, 181); (17, 1, 169); (18, 1, 181); (19, 1, 169); (20, 1, 182); (21, 1, 169); (22, 1, 183); (23, 1, 169); (24, 1, 184); (25, 1, 169); (26, 1, 187); (27, 1, 169); (28, 1, 187); (29, 1, 169); (30, 1, 188); (31, 1, 169); (32, 1, 188); (33, 1, 169); (34, 1, 190); (35, 1, 169); (36, 1, 190); (37, 1, 169); (38, 1, 190); (39, 1, 169); (40, 1, 190); (41, 1, 169); (42, 1, 172); (43, 1, 169); (68, 1, 170); (75, 1, 169); (84, 1, 169); (134, 1, 168)];
   [(217, 1, 46)];
   [(193, 1, 164); (204, 1, 158)];
   [(82, 1, 190); (90, 1, 192); (92, 1, 192); (93, 1, 192); (94, 1, 192); (95, 1, 192)];
   [(83, 1, 169)];
   [(69, 1, 190); (76, 1, 169)];
   [(70, 1, 190); (77, 1, 169)];
   [(71, 1, 190); (78, 1, 169)];
   [(72, 1, 190); (79, 1, 169)];
   [(87, 1, 192)];
   [(86, 1, 191); (88, 1, 192)];
   [(89, 1, 192)];
   [(91, 1, 192)];
   [(96, 1, 192); (97, 1, 192); (99, 1, 192)];
   [(98, 1, 192); (100, 1, 192); (101, 1, 192); (102, 1, 192)];
   [(103, 1, 192)];
   [(159, 1, 192)];
   [(160, 1, 192); (161, 1, 192); (163, 1, 191)];
   [(162, 1, 192)];
   [(158, 1, 192)];
   [(180, 3, 163); (184, 3, 163)];
   [(222, 2, 164); (224, 1, 165)];
   [(190, 2, 163); (201, 2, 157)];
   [(157, 1, 33); (191, 2, 163); (202, 2, 157)];
   [(90, 1, 34); (92, 1, 34); (93, 1, 34); (94, 1, 34); (95, 1, 34); (156, 1, 33)];
   [(228, 2, 165)];
   [(229, 2, 165)];
   [(135, 2, 168)];
   [(135, 1, 166); (226, 2, 165)];
   [(219, 2, 2)];
   [(195, 2, 164); (197, 2, 164); (206, 2, 158); (208, 2, 158)];
   [(196, 2, 163); (198, 2, 163); (207, 2, 157); (209, 2, 157); (220, 1, 148)];
   [(221, 1, 148)];
   [(34, 2, 190); (35, 2, 169)];
   [(36, 2, 190); (37, 2, 169)];
   [(38, 2, 190); (39, 2, 169)];
   [(40, 2, 190); (41, 2, 169)];
   [(30, 2, 188); (31, 2, 169)];
   [(32, 2, 188); (33, 2, 169)];
   [(4, 2, 181); (5, 2, 169)];
   [(6, 2, 181); (7, 2, 169)];
   [(8, 2, 181); (9, 2, 169)];
   [(10, 2, 181); (11, 2, 169)];
   [(12, 2, 181); (13, 2, 169)];
   [(14, 2, 181); (15, 2, 169)];
   [(16, 2, 181); (17, 2, 169)];
   [(18, 2, 181); (19, 2, 169)];
   [(0, 2, 175); (1, 2, 169)];
   [(2, 2, 176); (3, 2, 169)];
   [(20, 2, 182); (21, 2, 169)];
   [(24, 2, 184); (25, 2, 169)];
   [(22, 2, 183); (23, 2, 169)];
   [(26, 2, 187); (27, 2, 169)];
   [(28, 2, 187); (29, 2, 169)];
   [(42, 2, 172); (43, 2, 169)];
   [(68, 2, 170); (75, 2, 169)];
   [(217, 2, 46)];
   [(135, 1, 3); (193, 2, 164); (204, 2, 158)];
   [(90, 2, 192)];
   [(92, 2, 192)];
   [(93, 2, 192); (94, 2, 192); (95, 2, 192)];
   [(83, 2, 169)];
   [(117, 1, 2); (121, 1, 3)];
   [(120, 1, 3)];
   [(124, 1, 3); (125, 1, 3)];
   [(126, 1, 3); (127, 1, 3)];
   [(128, 1, 3)];
   [(69, 2, 190); (76, 2, 169)];
   [(70, 2, 190); (77, 2, 169)];
   [(71, 2, 190); (78, 2, 169)];
   [(72, 2, 190); (79, 2, 169)];
   [(91, 2, 192)];
   [(96, 2, 192)];
   [(0, 1, 61); (1, 1, 17); (2, 1, 64); (3, 1, 17); (4, 1, 97); (5, 1, 17); (6, 1, 97); (7, 1, 17); (8, 1, 97); (9, 1, 17); (10, 1, 97); (11, 1, 17); (12, 1, 97); (13, 1, 17); (14, 1, 97); (15, 1, 17); (16, 1, 97); (17, 1, 17); (18, 1, 97); (19, 1, 17); (20, 1, 100); (21, 1, 17); (22, 1, 103); (23, 1, 17); (24, 1, 106); (25, 1, 17); (26, 1, 127); (27, 1, 17); (28, 1, 127); (29, 1, 17); (30, 1, 128); (31, 1, 17); (32, 1, 128); (33, 1, 17); (34, 1, 143); (35, 1, 17); (36, 1, 143); (37, 1, 17); (38, 1, 143); (39, 1, 17); (40, 1, 143); (41, 1, 17); (42, 1, 42); (43, 1, 17); (68, 1, 28); (75, 1, 17); (97, 2, 192); (99, 2, 192); (138, 1, 7)];
   [(139, 1, 8); (143, 1, 6)];
   [(98, 2, 192); (100, 2, 192); (151, 1, 12)];
   [(101, 2, 192)];
   [(102, 2, 192); (139, 1, 12)];
   [(0, 1, 52); (1, 1, 13); (2, 1, 59); (3, 1, 13); (4, 1, 74); (5, 1, 13); (6, 1, 74); (7, 1, 13); (8, 1, 74); (9, 1, 13); (10, 1, 74); (11, 1, 13); (12, 1, 74); (13, 1, 13); (14, 1, 74); (15, 1, 13); (16, 1, 74); (17, 1, 13); (18, 1, 74); (19, 1, 13); (20, 1, 81); (21, 1, 13); (22, 1, 88); (23, 1, 13); (24, 1, 95); (25, 1, 13); (26, 1, 123); (27, 1, 13); (28, 1, 123); (29, 1, 13); (30, 1, 124); (31, 1, 13); (32, 1, 124); (33, 1, 13); (34, 1, 141); (35, 1, 13); (36, 1, 141); (37, 1, 13); (38, 1, 141); (39, 1, 13); (40, 1, 141); (41, 1, 13); (42, 1, 40); (43, 1, 13); (68, 1, 26); (75, 1, 13); (138, 1, 12); (150, 1, 19)];
   [(152, 1, 12); (154, 1, 11); (155, 1, 11)];
   [(103, 2, 192)];
   [(0, 1, 47); (1, 1, 1); (2, 1, 54); (3, 1, 1); (4, 1, 69); (5, 1, 1); (6, 1, 69); (7, 1, 1); (8, 1, 69); (9, 1, 1); (10, 1, 69); (11, 1, 1); (12, 1, 69); (13, 1, 1); (14, 1, 69); (15, 1, 1); (16, 1, 69); (17, 1, 1); (18, 1, 69); (19, 1, 1); (20, 1, 76); (21, 1, 1); (22, 1, 83); (23, 1, 1); (24, 1, 90); (25, 1, 1); (26, 1, 113); (27, 1, 1); (28, 1, 113); (29, 1, 1); (30, 1, 114); (31, 1, 1); (32, 1, 114); (33, 1, 1); (34, 1, 135); (35, 1, 1); (36, 1, 135); (37, 1, 1); (38, 1, 135); (39, 1, 1); (40, 1, 135); (41, 1, 1); (42, 1, 35); (43, 1, 1); (68, 1, 21); (75, 1, 1); (138, 1, 1)];
   [(160, 2, 192); (161, 2, 192)];
   [(162, 2, 192)];
   [(222, 3, 164)];
   [(224, 2, 165); (234, 1, 159)];
   [(190, 3, 163); (201, 3, 157)];
   [(199, 1, 164); (210, 1, 164)];
   [(211, 1, 158)];
   [(191, 3, 163); (202, 3, 157)];
   [(157, 2, 33)];
   [(135, 1, 166); (228, 3, 165)];
   [(135, 1, 166); (229, 3, 165)];
   [(0, 1, 173); (1, 1, 168); (2, 1, 174); (3, 1, 168); (4, 1, 177); (5, 1, 168); (6, 1, 177); (7, 1, 168); (8, 1, 177); (9, 1, 168); (10, 1, 177); (11, 1, 168); (12, 1, 177); (13, 1, 168); (14, 1, 177); (15, 1, 168); (16, 1, 177); (17, 1, 168); (18, 1, 177); (19, 1, 168); (20, 1, 178); (21, 1, 168); (22, 1, 179); (23, 1, 168); (24, 1, 180); (25, 1, 168); (26, 1, 185); (27, 1, 168); (28, 1, 185); (29, 1, 168); (30, 1, 186); (31, 1, 168); (32, 1, 186); (33, 1, 168); (34, 1, 189); (35, 1, 168); (36, 1, 189); (37, 1, 168); (38, 1, 189); (39, 1, 168); (40, 1, 189); (41, 1, 168); (42, 1, 171); (43, 1, 168); (135, 3, 168)];
   [(0, 1, 48); (1, 1, 2); (2, 1, 55); (3, 1, 2); (4, 1, 70); (5, 1, 2); (6, 1, 70); (7, 1, 2); (8, 1, 70); (9, 1, 2); (10, 1, 70); (11, 1, 2); (12, 1, 70); (13, 1, 2); (14, 1, 70); (15, 1, 2); (16, 1, 70); (17, 1, 2); (18, 1, 70); (19, 1, 2); (20, 1, 77); (21, 1, 2); (22, 1, 84); (23, 1, 2); (24, 1, 91); (25, 1, 2); (26, 1, 115); (27, 1, 2); (28, 1, 115); (29, 1, 2); (30, 1, 117); (31, 1, 2); (32, 1, 117); (33, 1, 2); (34, 1, 136); (35, 1, 2); (36, 1, 136); (37, 1, 2); (38, 1, 136); (39, 1, 2); (40, 1, 136); (41, 1, 2); (42, 1, 36); (43, 1, 2); (68, 1, 22); (75, 1, 2); (219, 3, 2)];
   [(135, 1, 3); (195, 3, 164); (197, 3, 164); (206, 3, 158); (208, 3, 158)];
   [(196, 3, 163); (198, 3, 163); (207, 3, 157); (209, 3, 157)];
   [(220, 2, 148)];
   [(34, 3, 190); (35, 3, 169)];
   [(36, 3, 190); (37, 3, 169)];
   [(38, 3, 190); (39, 3, 169)];
   [(40, 3, 190); (41, 3, 169)];
   [(30, 3, 188); (31, 3, 169); (34, 1, 190); (35, 1, 169); (36, 1, 190); (37, 1, 169); (38, 1, 190); (39, 1, 169); (40, 1, 190); (41, 1, 169)];
   [(32, 3, 188); (33, 3, 169); (34, 1, 190); (35, 1, 169); (36, 1, 190); (37, 1, 169); (38, 1, 190); (39, 1, 169); (40, 1, 190); (41, 1, 169)];
   [(4, 3, 181); (5, 3, 169); (20, 1, 182); (21, 1, 169); (22, 1, 183); (23, 1, 169); (24, 1, 184); (25, 1, 169); (26, 1, 187); (27, 1, 169); (28, 1, 187); (29, 1, 169); (30, 1, 188); (31, 1, 169); (32, 1, 188); (33, 1, 169); (34, 1, 190); (35, 1, 169); (36, 1, 190); (37, 1, 169); (38, 1, 190); (39, 1, 169); (40, 1, 190); (41, 1, 169)];
   [(6, 3, 181); (7, 3, 169); (20, 1, 182); (21, 1, 169); (22, 1, 183); (23, 1, 169); (24, 1, 184); (25, 1, 169); (26, 1, 187); (27, 1, 169); (28, 1, 187); (29, 1, 169); (30, 1, 188); (31, 1, 169); (32, 1, 188); (33, 1, 169); (34, 1, 190); (35, 1, 169); (36, 1, 190); (37, 1, 169); (38, 1, 190); (39, 1, 169); (40, 1, 190); (41, 1, 169)];
   [(8, 3, 181); (9, 3, 169); (20, 1, 182); (21, 1, 169); (22, 1, 183); (23, 1, 169); (24, 1, 184); (25, 1, 169); (26, 1, 187); (27, 1, 169); (28, 1, 187); (29, 1, 169); (30, 1, 188); (31, 1, 169); (32, 1, 188); (33, 1, 169); (34, 1, 190); (35, 1, 169); (36, 1, 190); (37, 1, 169); (38, 1, 190); (39, 1, 169); (40, 1, 190); (41, 1, 169)];
   [(10, 3, 181); (11, 3, 169); (20, 1, 182); (21, 1, 169); (22, 1, 183); (23, 1, 169); (24, 1, 184); (25, 1, 169); (26, 1, 187); (27, 1, 169); (28, 1, 187); (29, 1, 169); (30, 1, 188); (31, 1, 169); (32, 1, 188); (33, 1, 169); (34, 1, 190); (35, 1, 169); (36, 1, 190); (37, 1, 169); (38, 1, 190); (39, 1, 169); (40, 1, 190); (41, 1, 169)];
   [(12, 3, 181); (13, 3, 169); (20, 1, 182); (21, 1, 169); (22, 1, 183); (23, 1, 169); (24, 1, 184); (25, 1, 169); (26, 1, 187); (27, 1, 169); (28, 1, 187); (29, 1, 169); (30, 1, 188); (31, 1, 169); (32, 1, 188); (33, 1, 169); (34, 1, 190); (35, 1, 169); (36, 1, 190); (37, 1, 169); (38, 1, 190); (39, 1, 169); (40, 1, 190); (41, 1, 169)];
   [(14, 3, 181); (15, 3, 169); (20, 1, 182); (21, 1, 169); (22, 1, 183); (23, 1, 169); (24, 1, 184); (25, 1, 169); (26, 1, 187); (27, 1, 169); (28, 1, 187); (29, 1, 169); (30, 1, 188); (31, 1, 169); (32, 1, 188); (33, 1, 169); (34, 1, 190); (35, 1, 169); (36, 1, 190); (37, 1, 169); (38, 1, 190); (39, 1, 169); (40, 1, 190); (41, 1, 169)];
   [(16, 3, 181); (17, 3, 169); (20, 1, 182); (21, 1, 169); (22, 1, 183); (23, 1, 169); (24, 1, 184); (25, 1, 169); (26, 1, 187); (27, 1, 169); (28, 1, 187); (29, 1, 169); (30, 1, 188); (31, 1, 169); (32, 1, 188); (33, 1, 169); (34, 1, 190); (35, 1, 169); (36, 1, 190); (37, 1, 169); (38, 1, 190); (39, 1, 169); (40, 1, 190); (41, 1, 169)];
   [(18, 3, 181); (19, 3, 169)];
   [(0, 3, 175); (1, 3, 169); (2, 1, 176); (3, 1, 169); (4, 1, 181); (5, 1, 169); (6, 1, 181); (7, 1, 169); (8, 1, 181); (9, 1, 169); (10, 1, 181); (11, 1, 169); (12, 1, 181); (13, 1, 169); (14, 1, 181); (15, 1, 169); (16, 1, 181); (17, 1, 169); (18, 1, 181); (19, 1, 169); (20, 1, 182); (21, 1, 169); (22, 1, 183); (23, 1, 169); (24, 1, 184); (25, 1, 169); (26, 1, 187); (27, 1, 169); (28, 1, 187); (29, 1, 169); (30, 1, 188); (31, 1, 169); (32, 1, 188); (33, 1, 169); (34, 1, 190); (35, 1, 169); (36, 1, 190); (37, 1, 169); (38, 1, 190); (39, 1, 169); (40, 1, 190); (41, 1, 169)];
   [(2, 3, 176); (3, 3, 169); (4, 1, 181); (5, 1, 169); (6, 1, 181); (7, 1, 169); (8, 1, 181); (9, 1, 169); (10, 1, 181); (11, 1, 169); (12, 1, 181); (13, 1, 169); (14, 1, 181); (15, 1, 169); (16, 1, 181); (17, 1, 169); (18, 1, 181); (19, 1, 169); (20, 1, 182); (21, 1, 169); (22, 1, 183); (23, 1, 169); (24, 1, 184); (25, 1, 169); (26, 1, 187); (27, 1, 169); (28, 1, 187); (29, 1, 169); (30, 1, 188); (31, 1, 169); (32, 1, 188); (33, 1, 169); (34, 1, 190); (35, 1, 169); (36, 1, 190); (37, 1, 169); (38, 1, 190); (39, 1, 169); (40, 1, 190); (41, 1, 169)];
   [(20, 3, 182); (21, 3, 169); (22, 1, 183); (23, 1, 169); (24, 1, 184); (25, 1, 169); (26, 1, 187); (27, 1, 169); (28, 1, 187); (29, 1, 169); (30, 1, 188); (31, 1, 169); (32, 1, 188); (33, 1, 169); (34, 1, 190); (35, 1, 169); (36, 1, 190); (37, 1, 169); (38, 1, 190); (39, 1, 169); (40, 1, 190); (41, 1, 169)];
   [(24, 3, 184); (25, 3, 169); (26, 1, 187); (27, 1, 169); (28, 1, 187); (29, 1, 169); (30, 1, 188); (31, 1, 169); (32, 1, 188); (33, 1, 169); (34, 1, 190); (35, 1, 169); (36, 1, 190); (37, 1, 169); (38, 1, 190); (39, 1, 169); (40, 1, 190); (41, 1, 169)];
   [(22, 3, 183); (23, 3, 169); (24, 1, 184); (25, 1, 169); (26, 1, 187); (27, 1, 169); (28, 1, 187); (29, 1, 169); (30, 1, 188); (31, 1, 169); (32, 1, 188); (33, 1, 169); (34, 1, 190); (35, 1, 169); (36, 1, 190); (37, 1, 169); (38, 1, 190); (39, 1, 169); (40, 1, 190); (41, 1, 169)];
   [(26, 3, 187); (27, 3, 169); (30, 1, 188); (31, 1, 169); (32, 1, 188); (33, 1, 169); (34, 1, 190); (35, 1, 169); (36, 1, 190); (37, 1, 169); (38, 1, 190); (39, 1, 169); (40, 1, 190); (41, 1, 169)];
   [(28, 3, 187); (29, 3, 169); (30, 1, 188); (31, 1, 169); (32, 1, 188); (33, 1, 169); (34, 1, 190); (35, 1, 169); (36, 1, 190); (37, 1, 169); (38, 1, 190); (39, 1, 169); (40, 1, 190); (41, 1, 169)];
   [(0, 1, 175); (1, 1, 169); (2, 1, 176); (3, 1, 169); (4, 1, 181); (5, 1, 169); (6, 1, 181); (7, 1, 169); (8, 1, 181); (9, 1, 169); (10, 1, 181); (11, 1, 169); (12, 1, 181); (13, 1, 169); (14, 1, 181); (15, 1, 169); (16, 1, 181); (17, 1, 169); (18, 1, 181); (19, 1, 169); (20, 1, 182); (21, 1, 169); (22, 1, 183); (23, 1, 169); (24, 1, 184); (25, 1, 169); (26, 1, 187); (27, 1, 169); (28, 1, 187); (29, 1, 169); (30, 1, 188); (31, 1, 169); (32, 1, 188); (33, 1, 169); (34, 1, 190); (35, 1, 169); (36, 1, 190); (37, 1, 169); (38, 1, 190); (39, 1, 169); (40, 1, 190); (41, 1, 169); (42, 3, 172); (43, 3, 169)];
   [(0, 1, 67); (1, 1, 31); (2, 1, 68); (3, 1, 31); (4, 1, 109); (5, 1, 31); (6, 1, 109); (7, 1, 31); (8, 1, 109); (9, 1, 31); (10, 1, 109); (11, 1, 31); (12, 1, 109); (13, 1, 31); (14, 1, 109); (15, 1, 31); (16, 1, 109); (17, 1, 31); (18, 1, 109); (19, 1, 31); (20, 1, 110); (21, 1, 31); (22, 1, 111); (23, 1, 31); (24, 1, 112); (25, 1, 31); (26, 1, 133); (27, 1, 31); (28, 1, 133); (29, 1, 31); (30, 1, 134); (31, 1, 31); (32, 1, 134); (33, 1, 31); (34, 1, 146); (35, 1, 31); (36, 1, 146); (37, 1, 31); (38, 1, 146); (39, 1, 31); (40, 1, 146); (41, 1, 31); (42, 1, 45); (43, 1, 31); (68, 1, 32); (68, 3, 170); (75, 1, 31); (75, 3, 169)];
   [(217, 3, 46)];
   [(193, 3, 164); (204, 3, 158)];
   [(90, 3, 192)];
   [(92, 3, 192)];
   [(105, 1, 0); (107, 1, 1)];
   [(106, 1, 1)];
   [(147, 1, 153); (149, 1, 152)];
   [(146, 1, 154)];
   [(93, 3, 192); (135, 1, 10); (137, 1, 2)];
   [(94, 3, 192); (95, 3, 192)];
   [(83, 3, 169)];
   [(117, 2, 2)];
   [(121, 2, 3); (145, 1, 2)];
   [(125, 2, 4)];
   [(126, 2, 3)];
   [(128, 2, 3)];
   [(91, 3, 192)];
   [(96, 3, 192)];
   [(97, 3, 192); (99, 3, 192); (168, 1, 16); (169, 1, 16); (174, 1, 16); (175, 1, 16)];
   [(166, 1, 30); (167, 1, 20); (172, 1, 20); (173, 1, 20)];
   [(165, 1, 30); (171, 1, 20)];
   [(164, 1, 30); (170, 1, 20)];
   [(139, 2, 8); (147, 1, 150); (149, 1, 6)];
   [(143, 2, 6)];
   [(98, 3, 192); (100, 3, 192); (168, 1, 18); (169, 1, 18); (174, 1, 18); (175, 1, 18)];
   [(101, 3, 192)];
   [(102, 3, 192)];
   [(139, 2, 12); (147, 1, 149)];
   [(145, 1, 11); (146, 1, 149)];
   [(150, 2, 19)];
   [(147, 1, 151); (152, 2, 12); (155, 2, 11)];
   [(103, 3, 192)];
   [(160, 3, 192)];
   [(222, 4, 164)];
   [(224, 3, 165)];
   [(199, 2, 164); (210, 2, 164); (215, 1, 161); (216, 1, 161)];
   [(211, 2, 158); (213, 1, 164)];
   [(135, 1, 3); (191, 4, 163); (202, 4, 157)];
   [(90, 1, 34); (92, 1, 34); (93, 1, 34); (94, 1, 34); (95, 1, 34); (157, 3, 33)];
   [(195, 4, 164); (197, 4, 164); (206, 4, 158); (208, 4, 158)];
   [(196, 4, 163); (198, 4, 163); (207, 4, 157); (209, 4, 157)];
   [(18, 4, 181); (19, 4, 169); (20, 1, 182); (21, 1, 169); (22, 1, 183); (23, 1, 169); (24, 1, 184); (25, 1, 169); (26, 1, 187); (27, 1, 169); (28, 1, 187); (29, 1, 169); (30, 1, 188); (31, 1, 169); (32, 1, 188); (33, 1, 169); (34, 1, 190); (35, 1, 169); (36, 1, 190); (37, 1, 169); (38, 1, 190); (39, 1, 169); (40, 1, 190); (41, 1, 169)];
   [(68, 4, 170); (75, 4, 169)];
   [(217, 4, 46)];
   [(119, 1, 0); (123, 1, 1)];
   [(122, 1, 1)];
   [(129, 1, 1)];
   [(124, 1, 1); (125, 1, 1); (130, 1, 1); (131, 1, 1)];
   [(126, 1, 1); (127, 1, 1); (132, 1, 1)];
   [(128, 1, 1); (133, 1, 1)];
   [(193, 4, 164); (204, 4, 158)];
   [(92, 4, 192)];
   [(105, 2, 0)];
   [(107, 2, 1); (147, 1, 153); (149, 1, 0)];
   [(106, 2, 1)];
   [(0, 1, 47); (1, 1, 1); (2, 1, 54); (3, 1, 1); (4, 1, 69); (5, 1, 1); (6, 1, 69); (7, 1, 1); (8, 1, 69); (9, 1, 1); (10, 1, 69); (11, 1, 1); (12, 1, 69); (13, 1, 1); (14, 1, 69); (15, 1, 1); (16, 1, 69); (17, 1, 1); (18, 1, 69); (19, 1, 1); (20, 1, 76); (21, 1, 1); (22, 1, 83); (23, 1, 1); (24, 1, 90); (25, 1, 1); (26, 1, 113); (27, 1, 1); (28, 1, 113); (29, 1, 1); (30, 1, 114); (31, 1, 1); (32, 1, 114); (33, 1, 1); (34, 1, 135); (35, 1, 1); (36, 1, 135); (37, 1, 1); (38, 1, 135); (39, 1, 1); (40, 1, 135); (41, 1, 1); (42, 1, 35); (43, 1, 1); (68, 1, 21); (75, 1, 1); (108, 1, 1)];
   [(87, 1, 139); (109, 1, 1)];
   [(110, 1, 1)];
   [(111, 1, 1)];
   [(147, 2, 154)];
   [(93, 4, 192)];
   [(94, 4, 192); (95, 4, 192)];
   [(83, 4, 169)];
   [(121, 3, 3)];
   [(0, 1, 49); (1, 1, 4); (2, 1, 56); (3, 1, 4); (4, 1, 71); (5, 1, 4); (6, 1, 71); (7, 1, 4); (8, 1, 71); (9, 1, 4); (10, 1, 71); (11, 1, 4); (12, 1, 71); (13, 1, 4); (14, 1, 71); (15, 1, 4); (16, 1, 71); (17, 1, 4); (18, 1, 71); (19, 1, 4); (20, 1, 78); (21, 1, 4); (22, 1, 85); (23, 1, 4); (24, 1, 92); (25, 1, 4); (26, 1, 116); (27, 1, 4); (28, 1, 116); (29, 1, 4); (30, 1, 118); (31, 1, 4); (32, 1, 118); (33, 1, 4); (34, 1, 137); (35, 1, 4); (36, 1, 137); (37, 1, 4); (38, 1, 137); (39, 1, 4); (40, 1, 137); (41, 1, 4); (42, 1, 37); (43, 1, 4); (68, 1, 23); (75, 1, 4); (125, 3, 4)];
   [(91, 4, 192)];
   [(97, 4, 192); (99, 4, 192)];
   [(166, 1, 30); (168, 2, 20); (169, 2, 20); (172, 1, 20); (174, 2, 20); (175, 2, 20)];
   [(166, 2, 30); (172, 2, 20)];
   [(157, 1, 33); (164, 2, 30); (170, 2, 20)];
   [(0, 1, 53); (1, 1, 14); (2, 1, 60); (3, 1, 14); (4, 1, 75); (5, 1, 14); (6, 1, 75); (7, 1, 14); (8, 1, 75); (9, 1, 14); (10, 1, 75); (11, 1, 14); (12, 1, 75); (13, 1, 14); (14, 1, 75); (15, 1, 14); (16, 1, 75); (17, 1, 14); (18, 1, 75); (19, 1, 14); (20, 1, 82); (21, 1, 14); (22, 1, 89); (23, 1, 14); (24, 1, 96); (25, 1, 14); (26, 1, 125); (27, 1, 14); (28, 1, 125); (29, 1, 14); (30, 1, 126); (31, 1, 14); (32, 1, 126); (33, 1, 14); (34, 1, 142); (35, 1, 14); (36, 1, 142); (37, 1, 14); (38, 1, 142); (39, 1, 14); (40, 1, 142); (41, 1, 14); (42, 1, 41); (43, 1, 14); (68, 1, 27); (75, 1, 14); (139, 3, 14)];
   [(98, 4, 192); (100, 4, 192)];
   [(102, 4, 192)];
   [(0, 1, 62); (1, 1, 19); (2, 1, 65); (3, 1, 19); (4, 1, 98); (5, 1, 19); (6, 1, 98); (7, 1, 19); (8, 1, 98); (9, 1, 19); (10, 1, 98); (11, 1, 19); (12, 1, 98); (13, 1, 19); (14, 1, 98); (15, 1, 19); (16, 1, 98); (17, 1, 19); (18, 1, 98); (19, 1, 19); (20, 1, 101); (21, 1, 19); (22, 1, 104); (23, 1, 19); (24, 1, 107); (25, 1, 19); (26, 1, 129); (27, 1, 19); (28, 1, 129); (29, 1, 19); (30, 1, 130); (31, 1, 19); (32, 1, 130); (33, 1, 19); (34, 1, 144); (35, 1, 19); (36, 1, 144); (37, 1, 19); (38, 1, 144); (39, 1, 19); (40, 1, 144); (41, 1, 19); (42, 1, 43); (43, 1, 19); (68, 1, 29); (75, 1, 19); (150, 3, 19)];
   [(152, 3, 12)];
   [(0, 1, 48); (1, 1, 2); (2, 1, 55); (3, 1, 2); (4, 1, 70); (5, 1, 2); (6, 1, 70); (7, 1, 2); (8, 1, 70); (9, 1, 2); (10, 1, 70); (11, 1, 2); (12, 1, 70); (13, 1, 2); (14, 1, 70); (15, 1, 2); (16, 1, 70); (17, 1, 2); (18, 1, 70); (19, 1, 2); (20, 1, 77); (21, 1, 2); (22, 1, 84); (23, 1, 2); (24, 1, 91); (25, 1, 2); (26, 1, 115); (27, 1, 2); (28, 1, 115); (29, 1, 2); (30, 1, 117); (31, 1, 2); (32, 1, 117); (33, 1, 2); (34, 1, 136); (35, 1, 2); (36, 1, 136); (37, 1, 2); (38, 1, 136); (39, 1, 2); (40, 1, 136); (41, 1, 2); (42, 1, 36); (43, 1, 2); (68, 1, 22); (75, 1, 2); (150, 1, 12)];
   [(199, 3, 164); (210, 3, 164)];
   [(215, 2, 161)];
   [(216, 2, 161)];
   [(213, 2, 164)];
   [(191, 5, 163); (202, 5, 157)];
   [(195, 5, 164); (197, 5, 164); (206, 5, 158); (208, 5, 158)];
   [(0, 1, 175); (1, 1, 169); (2, 1, 176); (3, 1, 169); (4, 1, 181); (5, 1, 169); (6, 1, 181); (7, 1, 169); (8, 1, 181); (9, 1, 169); (10, 1, 181); (11, 1, 169); (12, 1, 181); (13, 1, 169); (14, 1, 181); (15, 1, 169); (16, 1, 181); (17, 1, 169); (18, 1, 181); (19, 1, 169); (20, 1, 182); (21, 1, 169); (22, 1, 183); (23, 1, 169); (24, 1, 184); (25, 1, 169); (26, 1, 187); (27, 1, 169); (28, 1, 187); (29, 1, 169); (30, 1, 188); (31, 1, 169); (32, 1, 188); (33, 1, 169); (34, 1, 190); (35, 1, 169); (36, 1, 190); (37, 1, 169); (38, 1, 190); (39, 1, 169); (40, 1, 190); (41, 1, 169); (42, 1, 172); (43, 1, 169); (68, 5, 170); (75, 5, 169)];
   [(217, 5, 46)];
   [(119, 2, 0)];
   [(123, 2, 1); (145, 1, 0)];
   [(130, 2, 1); (131, 2, 1)];
   [(126, 2, 1); (132, 2, 1)];
   [(128, 2, 1); (133, 2, 1)];
   [(107, 3, 1)];
   [(109, 2, 1)];
   [(0, 1, 47); (1, 1, 1); (2, 1, 54); (3, 1, 1); (4, 1, 69); (5, 1, 1); (6, 1, 69); (7, 1, 1); (8, 1, 69); (9, 1, 1); (10, 1, 69); (11, 1, 1); (12, 1, 69); (13, 1, 1); (14, 1, 69); (15, 1, 1); (16, 1, 69); (17, 1, 1); (18, 1, 69); (19, 1, 1); (20, 1, 76); (21, 1, 1); (22, 1, 83); (23, 1, 1); (24, 1, 90); (25, 1, 1); (26, 1, 113); (27, 1, 1); (28, 1, 113); (29, 1, 1); (30, 1, 114); (31, 1, 1); (32, 1, 114); (33, 1, 1); (34, 1, 135); (35, 1, 1); (36, 1, 135); (37, 1, 1); (38, 1, 135); (39, 1, 1); (40, 1, 135); (41, 1, 1); (42, 1, 35); (43, 1, 1); (68, 1, 21); (75, 1, 1); (110, 2, 1)];
   [(0, 1, 47); (1, 1, 1); (2, 1, 54); (3, 1, 1); (4, 1, 69); (5, 1, 1); (6, 1, 69); (7, 1, 1); (8, 1, 69); (9, 1, 1); (10, 1, 69); (11, 1, 1); (12, 1, 69); (13, 1, 1); (14, 1, 69); (15, 1, 1); (16, 1, 69); (17, 1, 1); (18, 1, 69); (19, 1, 1); (20, 1, 76); (21, 1, 1); (22, 1, 83); (23, 1, 1); (24, 1, 90); (25, 1, 1); (26, 1, 113); (27, 1, 1); (28, 1, 113); (29, 1, 1); (30, 1, 114); (31, 1, 1); (32, 1, 114); (33, 1, 1); (34, 1, 135); (35, 1, 1); (36, 1, 135); (37, 1, 1); (38, 1, 135); (39, 1, 1); (40, 1, 135); (41, 1, 1); (42, 1, 35); (43, 1, 1); (68, 1, 21); (75, 1, 1); (111, 2, 1)];
   [(94, 5, 192); (95, 5, 192)];
   [(0, 1, 51); (1, 1, 9); (2, 1, 58); (3, 1, 9); (4, 1, 73); (5, 1, 9); (6, 1, 73); (7, 1, 9); (8, 1, 73); (9, 1, 9); (10, 1, 73); (11, 1, 9); (12, 1, 73); (13, 1, 9); (14, 1, 73); (15, 1, 9); (16, 1, 73); (17, 1, 9); (18, 1, 73); (19, 1, 9); (20, 1, 80); (21, 1, 9); (22, 1, 87); (23, 1, 9); (24, 1, 94); (25, 1, 9); (26, 1, 121); (27, 1, 9); (28, 1, 121); (29, 1, 9); (30, 1, 122); (31, 1, 9); (32, 1, 122); (33, 1, 9); (34, 1, 140); (35, 1, 9); (36, 1, 140); (37, 1, 9); (38, 1, 140); (39, 1, 9); (40, 1, 140); (41, 1, 9); (42, 1, 39); (43, 1, 9); (68, 1, 25); (75, 1, 9); (141, 1, 9)];
   [(91, 5, 192); (147, 1, 147)];
   [(0, 1, 63); (1, 1, 20); (2, 1, 66); (3, 1, 20); (4, 1, 99); (5, 1, 20); (6, 1, 99); (7, 1, 20); (8, 1, 99); (9, 1, 20); (10, 1, 99); (11, 1, 20); (12, 1, 99); (13, 1, 20); (14, 1, 99); (15, 1, 20); (16, 1, 99); (17, 1, 20); (18, 1, 99); (19, 1, 20); (20, 1, 102); (21, 1, 20); (22, 1, 105); (23, 1, 20); (24, 1, 108); (25, 1, 20); (26, 1, 131); (27, 1, 20); (28, 1, 131); (29, 1, 20); (30, 1, 132); (31, 1, 20); (32, 1, 132); (33, 1, 20); (34, 1, 145); (35, 1, 20); (36, 1, 145); (37, 1, 20); (38, 1, 145); (39, 1, 20); (40, 1, 145); (41, 1, 20); (42, 1, 44); (43, 1, 20); (166, 3, 30); (172, 3, 20)];
   [(164, 3, 30); (170, 3, 20)];
   [(179, 1, 162); (180, 1, 162); (181, 1, 162); (182, 1, 162); (183, 1, 156); (184, 1, 162); (185, 1, 162); (186, 1, 162); (187, 1, 156); (199, 4, 164); (210, 4, 164)];
   [(215, 3, 161)];
   [(191, 6, 163); (202, 6, 157)];
   [(123, 3, 1)];
   [(0, 1, 50); (1, 1, 5); (2, 1, 57); (3, 1, 5); (4, 1, 72); (5, 1, 5); (6, 1, 72); (7, 1, 5); (8, 1, 72); (9, 1, 5); (10, 1, 72); (11, 1, 5); (12, 1, 72); (13, 1, 5); (14, 1, 72); (15, 1, 5); (16, 1, 72); (17, 1, 5); (18, 1, 72); (19, 1, 5); (20, 1, 79); (21, 1, 5); (22, 1, 86); (23, 1, 5); (24, 1, 93); (25, 1, 5); (26, 1, 119); (27, 1, 5); (28, 1, 119); (29, 1, 5); (30, 1, 120); (31, 1, 5); (32, 1, 120); (33, 1, 5); (34, 1, 138); (35, 1, 5); (36, 1, 138); (37, 1, 5); (38, 1, 138); (39, 1, 5); (40, 1, 138); (41, 1, 5); (42, 1, 38); (43, 1, 5); (68, 1, 24); (75, 1, 5); (130, 3, 1); (131, 3, 1)];
   [(132, 3, 1)];
   [(133, 3, 1)];
   [(0, 1, 47); (1, 1, 1); (2, 1, 54); (3, 1, 1); (4, 1, 69); (5, 1, 1); (6, 1, 69); (7, 1, 1); (8, 1, 69); (9, 1, 1); (10, 1, 69); (11, 1, 1); (12, 1, 69); (13, 1, 1); (14, 1, 69); (15, 1, 1); (16, 1, 69); (17, 1, 1); (18, 1, 69); (19, 1, 1); (20, 1, 76); (21, 1, 1); (22, 1, 83); (23, 1, 1); (24, 1, 90); (25, 1, 1); (26, 1, 113); (27, 1, 1); (28, 1, 113); (29, 1, 1); (30, 1, 114); (31, 1, 1); (32, 1, 114); (33, 1, 1); (34, 1, 135); (35, 1, 1); (36, 1, 135); (37, 1, 1); (38, 1, 135); (39, 1, 1); (40, 1, 135); (41, 1, 1); (42, 1, 35); (43, 1, 1); (68, 1, 21); (75, 1, 1); (109, 3, 1)];
   [(94, 6, 192)];
   [(95, 6, 192)];
   [(91, 6, 192); (113, 1, 1)];
   [(112, 1, 1)];
   [(114, 1, 1)];
   [(115, 1, 1)];
   [(0, 1, 63); (1, 1, 20); (2, 1, 66); (3, 1, 20); (4, 1, 99); (5, 1, 20); (6, 1, 99); (7, 1, 20); (8, 1, 99); (9, 1, 20); (10, 1, 99); (11, 1, 20); (12, 1, 99); (13, 1, 20); (14, 1, 99); (15, 1, 20); (16, 1, 99); (17, 1, 20); (18, 1, 99); (19, 1, 20); (20, 1, 102); (21, 1, 20); (22, 1, 105); (23, 1, 20); (24, 1, 108); (25, 1, 20); (26, 1, 131); (27, 1, 20); (28, 1, 131); (29, 1, 20); (30, 1, 132); (31, 1, 20); (32, 1, 132); (33, 1, 20); (34, 1, 145); (35, 1, 20); (36, 1, 145); (37, 1, 20); (38, 1, 145); (39, 1, 20); (40, 1, 145); (41, 1, 20); (42, 1, 44); (43, 1, 20); (164, 4, 30); (170, 4, 20)];
   [(199, 5, 164); (210, 5, 164)];
   [(131, 4, 1)];
   [(0, 1, 47); (1, 1, 1); (2, 1, 54); (3, 1, 1); (4, 1, 69); (5, 1, 1); (6, 1, 69); (7, 1, 1); (8, 1, 69); (9, 1, 1); (10, 1, 69); (11, 1, 1); (12, 1, 69); (13, 1, 1); (14, 1, 69); (15, 1, 1); (16, 1, 69); (17, 1, 1); (18, 1, 69); (19, 1, 1); (20, 1, 76); (21, 1, 1); (22, 1, 83); (23, 1, 1); (24, 1, 90); (25, 1, 1); (26, 1, 113); (27, 1, 1); (28, 1, 113); (29, 1, 1); (30, 1, 114); (31, 1, 1); (32, 1, 114); (33, 1, 1); (34, 1, 135); (35, 1, 1); (36, 1, 135); (37, 1, 1); (38, 1, 135); (39, 1, 1); (40, 1, 135); (41, 1, 1); (42, 1, 35); (43, 1, 1); (68, 1, 21); (75, 1, 1); (132, 4, 1)];
   [(0, 1, 47); (1, 1, 1); (2, 1, 54); (3, 1, 1); (4, 1, 69); (5, 1, 1); (6, 1, 69); (7, 1, 1); (8, 1, 69); (9, 1, 1); (10, 1, 69); (11, 1, 1); (12, 1, 69); (13, 1, 1); (14, 1, 69); (15, 1, 1); (16, 1, 69); (17, 1, 1); (18, 1, 69); (19, 1, 1); (20, 1, 76); (21, 1, 1); (22, 1, 83); (23, 1, 1); (24, 1, 90); (25, 1, 1); (26, 1, 113); (27, 1, 1); (28, 1, 113); (29, 1, 1); (30, 1, 114); (31, 1, 1); (32, 1, 114); (33, 1, 1); (34, 1, 135); (35, 1, 1); (36, 1, 135); (37, 1, 1); (38, 1, 135); (39, 1, 1); (40, 1, 135); (41, 1, 1); (42, 1, 35); (43, 1, 1); (68, 1, 21); (75, 1, 1); (133, 4, 1)];
   [(95, 7, 192)];
   [(91, 7, 192)];
   [(113, 2, 1); (146, 1, 1)];
   [(115, 2, 1)];
   [(0, 1, 47); (1, 1, 1); (2, 1, 54); (3, 1, 1); (4, 1, 69); (5, 1, 1); (6, 1, 69); (7, 1, 1); (8, 1, 69); (9, 1, 1); (10, 1, 69); (11, 1, 1); (12, 1, 69); (13, 1, 1); (14, 1, 69); (15, 1, 1); (16, 1, 69); (17, 1, 1); (18, 1, 69); (19, 1, 1); (20, 1, 76); (21, 1, 1); (22, 1, 83); (23, 1, 1); (24, 1, 90); (25, 1, 1); (26, 1, 113); (27, 1, 1); (28, 1, 113); (29, 1, 1); (30, 1, 114); (31, 1, 1); (32, 1, 114); (33, 1, 1); (34, 1, 135); (35, 1, 1); (36, 1, 135); (37, 1, 1); (38, 1, 135); (39, 1, 1); (40, 1, 135); (41, 1, 1); (42, 1, 35); (43, 1, 1); (68, 1, 21); (75, 1, 1); (131, 5, 1)];
   [(95, 8, 192)];
   [(91, 8, 192)];
   [(113, 3, 1)];
   [(115, 3, 1)]].
