(** What the names of the user manual stand for. *)
From Coq Require Import String ZArith QArith List Bool.
From Verif Require Import Base Kind Ints Str Literal Arity SpecLit Term Match Eval ListOps Typing Build Scope Lexer Parse SpecRead.
Import ListNotations.
Open Scope Z_scope.

(** ** Operators *)
(** user_manual.md 755-1110: the operators and the forms of the language. *)
Definition documented : list (string * kind) :=
  [("eo::is_ok", K_EVAL_IS_OK); ("eo::ite", K_EVAL_IF_THEN_ELSE); ("eo::eq", K_EVAL_EQ); ("eo::is_eq", K_EVAL_IS_EQ);
   ("eo::requires", K_EVAL_REQUIRES); ("eo::hash", K_EVAL_HASH); ("eo::typeof", K_EVAL_TYPE_OF); ("eo::nameof", K_EVAL_NAME_OF);
   ("eo::var", K_EVAL_VAR); ("eo::cmp", K_EVAL_COMPARE);
   ("eo::is_z", K_EVAL_IS_Z); ("eo::is_q", K_EVAL_IS_Q); ("eo::is_bin", K_EVAL_IS_BIN); ("eo::is_str", K_EVAL_IS_STR);
   ("eo::is_bool", K_EVAL_IS_BOOL); ("eo::is_var", K_EVAL_IS_VAR);
   ("eo::and", K_EVAL_AND); ("eo::or", K_EVAL_OR); ("eo::xor", K_EVAL_XOR); ("eo::not", K_EVAL_NOT);
   ("eo::add", K_EVAL_ADD); ("eo::mul", K_EVAL_MUL); ("eo::neg", K_EVAL_NEG); ("eo::qdiv", K_EVAL_RAT_DIV);
   ("eo::zdiv", K_EVAL_INT_DIV); ("eo::zmod", K_EVAL_INT_MOD); ("eo::is_neg", K_EVAL_IS_NEG); ("eo::gt", K_EVAL_GT);
   ("eo::len", K_EVAL_LENGTH); ("eo::concat", K_EVAL_CONCAT); ("eo::extract", K_EVAL_EXTRACT); ("eo::find", K_EVAL_FIND);
   ("eo::to_z", K_EVAL_TO_INT); ("eo::to_q", K_EVAL_TO_RAT); ("eo::to_bin", K_EVAL_TO_BIN); ("eo::to_str", K_EVAL_TO_STRING);
   ("eo::nil", K_EVAL_NIL); ("eo::cons", K_EVAL_CONS); ("eo::list_len", K_EVAL_LIST_LENGTH); ("eo::list_concat", K_EVAL_LIST_CONCAT);
   ("eo::list_nth", K_EVAL_LIST_NTH); ("eo::list_find", K_EVAL_LIST_FIND); ("eo::list_rev", K_EVAL_LIST_REV);
   ("eo::list_erase", K_EVAL_LIST_ERASE); ("eo::list_erase_all", K_EVAL_LIST_ERASE_ALL); ("eo::list_setof", K_EVAL_LIST_SETOF);
   ("eo::list_minclude", K_EVAL_LIST_MINCLUDE); ("eo::list_meq", K_EVAL_LIST_MEQ);
   ("eo::list_diff", K_EVAL_LIST_DIFF); ("eo::list_inter", K_EVAL_LIST_INTER);
   ("eo::list_singleton_elim", K_EVAL_LIST_SINGLETON_ELIM);
   ("eo::dt_constructors", K_EVAL_DT_CONSTRUCTORS); ("eo::dt_selectors", K_EVAL_DT_SELECTORS);
   ("as", K_AS_RETURN); ("eo::as", K_AS)]%string.

(** The name means in [s] what it means at the start. *)
Definition original (s : st) (n : string) : Prop :=
  exists v, getVar (s_scope s) (txt n) = Some v /\ getVar (s_scope (st_init (s_opts s))) (txt n) = Some v /\
    s_marks s v = s_marks (st_init (s_opts s)) v.

(** ** Values *)
(** user_manual.md 755-864, for values that are Booleans, numerals, rationals and strings. *)
Inductive means : string -> list literal -> literal -> Prop :=
| m_not : forall a, means "eo::not" [LBool a] (LBool (negb a))
| m_and : forall a b l, means "eo::and" (map LBool (a :: b :: l)) (LBool (forallb (fun x => x) (a :: b :: l)))
| m_or : forall a b l, means "eo::or" (map LBool (a :: b :: l)) (LBool (existsb (fun x => x) (a :: b :: l)))
| m_xor : forall a b, means "eo::xor" [LBool a; LBool b] (LBool (negb (Bool.eqb a b)))
| m_add : forall a b l, means "eo::add" (map LNum (a :: b :: l)) (LNum (fold_right Z.add 0 (a :: b :: l)))
| m_mul : forall a b l, means "eo::mul" (map LNum (a :: b :: l)) (LNum (fold_right Z.mul 1 (a :: b :: l)))
| m_neg : forall a, means "eo::neg" [LNum a] (LNum (- a))
| m_zdiv : forall a b q r, is_euclid a b q r -> means "eo::zdiv" [LNum a; LNum b] (LNum q)
| m_zmod : forall a b q r, is_euclid a b q r -> means "eo::zmod" [LNum a; LNum b] (LNum r)
| m_qdiv : forall a b q, b <> 0 -> rat_wf q -> (q * inject_Z b == inject_Z a)%Q -> means "eo::qdiv" [LNum a; LNum b] (LRat q)
| m_is_neg : forall a, means "eo::is_neg" [LNum a] (LBool (a <? 0))
| m_gt : forall a b, means "eo::gt" [LNum a; LNum b] (LBool (b <? a))
| m_add_q : forall a b c, rat_wf a -> rat_wf b -> rat_wf c -> (c == a + b)%Q -> means "eo::add" [LRat a; LRat b] (LRat c)
| m_mul_q : forall a b c, rat_wf a -> rat_wf b -> rat_wf c -> (c == a * b)%Q -> means "eo::mul" [LRat a; LRat b] (LRat c)
| m_neg_q : forall a c, rat_wf c -> (c == - a)%Q -> means "eo::neg" [LRat a] (LRat c)
| m_len : forall s, Z.of_nat (List.length s) < 2 ^ 32 -> means "eo::len" [LStr s] (LNum (Z.of_nat (List.length s)))
| m_concat : forall s t l, means "eo::concat" (map LStr (s :: t :: l)) (LStr (List.concat (s :: t :: l)))
| m_extract : forall s i j r, Z.of_nat (List.length s) < 2 ^ 32 -> 0 <= i -> 0 <= j -> is_slice s i j r ->
    means "eo::extract" [LStr s; LNum i; LNum j] (LStr r)
| m_find : forall s t i, Z.of_nat (List.length s) < 2 ^ 32 -> 0 <= i -> occurs_at s t i -> (forall k, 0 <= k < i -> ~ occurs_at s t k) ->
    means "eo::find" [LStr s; LStr t] (LNum i)
| m_to_z : forall c, 0 <= c < 196608 -> means "eo::to_z" [LStr [c]] (LNum c)
| m_to_str : forall c, 0 <= c < 196608 -> means "eo::to_str" [LNum c] (LStr [c])
| m_to_q : forall z q, rat_wf q -> (q == inject_Z z)%Q -> means "eo::to_q" [LNum z] (LRat q)
| m_to_bin : forall w z, 0 <= w < 2 ^ 32 -> means "eo::to_bin" [LNum w; LNum z] (LBin (mkBV w (z mod 2 ^ w)))
| m_is_z : forall v, means "eo::is_z" [v] (LBool match v with LNum _ => true | _ => false end)
| m_is_q : forall v, means "eo::is_q" [v] (LBool match v with LRat _ => true | _ => false end)
| m_is_bin : forall v, means "eo::is_bin" [v] (LBool match v with LBin _ => true | _ => false end)
| m_is_str : forall v, means "eo::is_str" [v] (LBool match v with LStr _ => true | _ => false end)
| m_is_bool : forall v, means "eo::is_bool" [v] (LBool match v with LBool _ => true | _ => false end)
| m_is_var : forall v, means "eo::is_var" [v] (LBool false)
| m_is_ok : forall v, means "eo::is_ok" [v] (LBool true)
| m_eq : forall v, means "eo::eq" [v; v] (LBool true)
| m_ne : forall v w, v <> w -> means "eo::eq" [v; w] (LBool false)
| m_is_eq : forall v, means "eo::is_eq" [v; v] (LBool true)
| m_is_ne : forall v w, v <> w -> means "eo::is_eq" [v; w] (LBool false)
| m_ite : forall b v w, means "eo::ite" [LBool b; v; w] (if b then v else w)
| m_requires : forall v w, means "eo::requires" [v; v; w] w.

(** ** Attributes and categories of literals *)
(** user_manual.md 160-560 and 690-730. *)
Definition documented_attributes : list (string * attr) :=
  [(":implicit", A_IMPLICIT); (":list", A_LIST); (":left-assoc", A_LEFT_ASSOC); (":right-assoc", A_RIGHT_ASSOC);
   (":left-assoc-nil", A_LEFT_ASSOC_NIL); (":right-assoc-nil", A_RIGHT_ASSOC_NIL);
   (":left-assoc-non-singleton-nil", A_LEFT_ASSOC_NS_NIL); (":right-assoc-non-singleton-nil", A_RIGHT_ASSOC_NS_NIL);
   (":chainable", A_CHAINABLE); (":pairwise", A_PAIRWISE); (":binder", A_BINDER); (":let-binder", A_LET_BINDER);
   (":arg-list", A_ARG_LIST); (":opaque", A_OPAQUE); (":sorry", A_SORRY); (":type", A_TYPE); (":syntax", A_SYNTAX); (":restrict", A_RESTRICT)]%string.
Definition documented_literals : list (string * kind) :=
  [("<boolean>", K_BOOLEAN); ("<numeral>", K_NUMERAL); ("<decimal>", K_DECIMAL); ("<rational>", K_RATIONAL);
   ("<hexadecimal>", K_HEXADECIMAL); ("<binary>", K_BINARY); ("<string>", K_STRING)]%string.

(** ** The examples of the user manual *)
(** A line of the manual with two terms that it says are the same; if they are written alike,
    the application does not evaluate. *)
(** user_manual.md 878-941. *)
Definition manual_values : list (Z * string * string) := [(879, "(eo::and true false)"%string, "false"%string);
(880, "(eo::and #b1110 #b0110)"%string, "#b0110"%string);
(881, "(eo::or true false)"%string, "true"%string);
(882, "(eo::xor true true)"%string, "false"%string);
(883, "(eo::xor #b111 #b011)"%string, "#b100"%string);
(884, "(eo::not true)"%string, "false"%string);
(885, "(eo::not #b1010)"%string, "#b0101"%string);
(886, "(eo::add 1 1)"%string, "2"%string);
(887, "(eo::add 1 1 1 0)"%string, "3"%string);
(888, "(eo::add 1/2 1/3)"%string, "5/6"%string);
(889, "(eo::add 2 1/3)"%string, "(eo::add 2 1/3)"%string);
(890, "(eo::add 2/1 1/3)"%string, "7/3"%string);
(891, "(eo::add 2.0 1/3)"%string, "(eo::add 2.0 1/3)"%string);
(892, "(eo::add 2.0 2.5)"%string, "4.5"%string);
(893, "(eo::add #b01 #b01)"%string, "#b10"%string);
(894, "(eo::add #x1 #b0001)"%string, "(eo::add #x1 #b0001)"%string);
(895, "(eo::mul 2 7)"%string, "14"%string);
(896, "(eo::mul 2 2 7)"%string, "28"%string);
(897, "(eo::mul 1/2 1/4)"%string, "1/8"%string);
(898, "(eo::neg -15)"%string, "15"%string);
(899, "(eo::qdiv 12 6)"%string, "3/1"%string);
(900, "(eo::qdiv 7 2)"%string, "7/2"%string);
(901, "(eo::qdiv 7/1 2/1)"%string, "7/2"%string);
(902, "(eo::qdiv 7.0 2.0)"%string, "7/2"%string);
(903, "(eo::qdiv 7 0)"%string, "(eo::qdiv 7 0)"%string);
(904, "(eo::zdiv 12 3)"%string, "4"%string);
(905, "(eo::zdiv 7 2)"%string, "3"%string);
(906, "(eo::is_neg 0)"%string, "false"%string);
(907, "(eo::is_neg -7/2)"%string, "true"%string);
(908, "(eo::len ""abc"")"%string, "3"%string);
(909, "(eo::len """"""hi"""""")"%string, "4"%string);
(910, "(eo::len ""\u{AB0E}"")"%string, "1"%string);
(911, "(eo::len ""\uA"")"%string, "3"%string);
(912, "(eo::len #b11100)"%string, "5"%string);
(913, "(eo::concat ""abc"" ""def"")"%string, """abcdef"""%string);
(914, "(eo::concat #b000 #b11)"%string, "#b00011"%string);
(915, "(eo::extract ""abcdef"" 0 1)"%string, """ab"""%string);
(916, "(eo::extract ""abcdef"" -1 3)"%string, """"""%string);
(917, "(eo::extract ""abcdef"" 1 10)"%string, """bcdef"""%string);
(918, "(eo::extract #b11100 2 4)"%string, "#b111"%string);
(919, "(eo::extract #b11100 2 1)"%string, "#b"%string);
(920, "(eo::extract #b111000 1 10)"%string, "#b11100"%string);
(921, "(eo::extract #b10 -1 2)"%string, "#b"%string);
(922, "(eo::find ""abc"" ""bc"")"%string, "1"%string);
(923, "(eo::find ""abc"" """")"%string, "0"%string);
(924, "(eo::find ""abcdef"" ""g"")"%string, "-1"%string);
(925, "(eo::to_z 3/2)"%string, "1"%string);
(926, "(eo::to_z 45)"%string, "45"%string);
(927, "(eo::to_z ""A"")"%string, "65"%string);
(928, "(eo::to_z ""1"")"%string, "49"%string);
(929, "(eo::to_z ""451"")"%string, "(eo::to_z ""451"")"%string);
(930, "(eo::to_z """")"%string, "(eo::to_z """")"%string);
(931, "(eo::to_z ""\u{9876}"")"%string, "9876"%string);
(932, "(eo::to_q 6)"%string, "6/1"%string);
(933, "(eo::to_bin 4 3)"%string, "#b0011"%string);
(934, "(eo::to_bin 4 #b1)"%string, "#b0001"%string);
(935, "(eo::to_bin 2 #b10101010)"%string, "#b10"%string);
(936, "(eo::to_str 65)"%string, """A"""%string);
(937, "(eo::to_str 123)"%string, """{"""%string);
(938, "(eo::to_str -1)"%string, "(eo::to_str -1)"%string);
(939, "(eo::to_str 200000)"%string, "(eo::to_str 200000)"%string);
(940, "(eo::to_str 1/2)"%string, """1/2"""%string);
(941, "(eo::to_str #b101)"%string, """#b101"""%string)].
(** user_manual.md 949-979, and the signature of these examples. *)
Definition manual_core_signature : string :=
  "(declare-const Int Type) (declare-const x Int) (declare-const y Int) (declare-const a Bool)".
Definition manual_core : list (Z * string * string) := [(954, "(eo::is_ok 0)"%string, "true"%string);
(955, "(eo::is_ok (eo::neg ""abc""))"%string, "false"%string);
(957, "(eo::eq x x)"%string, "true"%string);
(958, "(eo::eq 0 1)"%string, "false"%string);
(959, "(eo::eq x y)"%string, "false"%string);
(960, "(eo::eq (eo::neg ""a"") x)"%string, "(eo::eq (eo::neg ""a"") x)"%string);
(961, "(eo::eq (eo::neg ""a"") (eo::neg ""a""))"%string, "(eo::eq (eo::neg ""a"") (eo::neg ""a""))"%string);
(962, "(eo::eq 2 (eo::add 1 1))"%string, "true"%string);
(964, "(eo::is_eq x x)"%string, "true"%string);
(965, "(eo::is_eq 0 1)"%string, "false"%string);
(966, "(eo::is_eq x y)"%string, "false"%string);
(967, "(eo::is_eq (eo::neg ""a"") x)"%string, "false"%string);
(968, "(eo::is_eq (eo::neg ""a"") (eo::neg ""a""))"%string, "false"%string);
(969, "(eo::is_eq 2 (eo::add 1 1))"%string, "true"%string);
(971, "(eo::ite false x y)"%string, "y"%string);
(972, "(eo::ite true Bool Int)"%string, "Bool"%string);
(973, "(eo::ite a x x)"%string, "(eo::ite a x x)"%string);
(974, "(eo::ite (eo::eq x 1) x y)"%string, "y"%string);
(976, "(eo::requires x 0 true)"%string, "(eo::requires x 0 true)"%string);
(977, "(eo::requires x x y)"%string, "y"%string);
(978, "(eo::requires x x Int)"%string, "Int"%string)].
(** user_manual.md 1033-1123, and the signature of these examples. *)
Definition manual_list_signature : string :=
  "(declare-const or (-> Bool Bool Bool) :right-assoc-nil false) (declare-const and (-> Bool Bool Bool) :right-assoc-nil true)
   (declare-const a Bool) (declare-const b Bool) (declare-const c Bool) (declare-const d Bool)".
Definition manual_lists : list (Z * string * string) := [(1040, "(eo::nil or Bool)"%string, "false"%string);
(1041, "(eo::nil a Bool)"%string, "(eo::nil a Bool)"%string);
(1043, "(eo::cons or a (or a b))"%string, "(or a a b)"%string);
(1044, "(eo::cons or false (or a b))"%string, "(or false a b)"%string);
(1045, "(eo::cons or (or a b) (or b))"%string, "(or (or a b) b)"%string);
(1046, "(eo::cons or false false)"%string, "(or false)"%string);
(1047, "(eo::cons or a b)"%string, "(eo::cons or a b)"%string);
(1048, "(eo::cons or a (or b))"%string, "(or a b)"%string);
(1049, "(eo::cons and (or a b) (and b))"%string, "(and (or a b) b)"%string);
(1050, "(eo::cons and true (and a))"%string, "(and a)"%string);
(1051, "(eo::cons and (and a) true)"%string, "(and (and a))"%string);
(1053, "(eo::list_len or (or a b))"%string, "2"%string);
(1054, "(eo::list_len or (or (or a a) b))"%string, "2"%string);
(1055, "(eo::list_len or false)"%string, "0"%string);
(1056, "(eo::list_len or (and a b))"%string, "(eo::list_len or (and a b))"%string);
(1058, "(eo::list_concat or false false)"%string, "false"%string);
(1059, "(eo::list_concat or (or a b) (or b))"%string, "(or a b b)"%string);
(1060, "(eo::list_concat or (or (or a a)) (or b))"%string, "(or (or a a) b)"%string);
(1061, "(eo::list_concat or false (or b))"%string, "(or b)"%string);
(1062, "(eo::list_concat or (or a b b) false)"%string, "(or a b b)"%string);
(1063, "(eo::list_concat or a (or b))"%string, "(eo::list_concat or a (or b))"%string);
(1064, "(eo::list_concat or (or a) b)"%string, "(eo::list_concat or (or a) b)"%string);
(1065, "(eo::list_concat or (or a) (or b))"%string, "(or a b)"%string);
(1066, "(eo::list_concat or (and a b) false)"%string, "(eo::list_concat or (and a b) false)"%string);
(1068, "(eo::list_nth or (or a b a) 1)"%string, "b"%string);
(1069, "(eo::list_nth or (or a) 0)"%string, "a"%string);
(1070, "(eo::list_nth or false 0)"%string, "(eo::list_nth or false 0)"%string);
(1071, "(eo::list_nth or (or a b a) 3)"%string, "(eo::list_nth or (or a b a) 3)"%string);
(1072, "(eo::list_nth or (and a b b) 0)"%string, "(eo::list_nth or (and a b b) 0)"%string);
(1074, "(eo::list_find or (or a b a) b)"%string, "1"%string);
(1075, "(eo::list_find or (or a b a) true)"%string, "-1"%string);
(1076, "(eo::list_find or (and a b b) a)"%string, "(eo::list_find or (and a b b) a)"%string);
(1078, "(eo::list_rev or (or a b c))"%string, "(or c b a)"%string);
(1079, "(eo::list_rev or false)"%string, "false"%string);
(1081, "(eo::list_erase or (or a b c) a)"%string, "(or b c)"%string);
(1082, "(eo::list_erase or (or c a a b a) a)"%string, "(or c a b a)"%string);
(1083, "(eo::list_erase or (or a b c) d)"%string, "(or a b c)"%string);
(1084, "(eo::list_erase or false d)"%string, "false"%string);
(1086, "(eo::list_erase_all or (or a b c) a)"%string, "(or b c)"%string);
(1087, "(eo::list_erase_all or (or a a b a) a)"%string, "(or b)"%string);
(1088, "(eo::list_erase_all or (or a b c) d)"%string, "(or a b c)"%string);
(1089, "(eo::list_erase_all or false d)"%string, "false"%string);
(1091, "(eo::list_setof or (or a b c))"%string, "(or a b c)"%string);
(1092, "(eo::list_setof or (or a b a c a b c))"%string, "(or a b c)"%string);
(1093, "(eo::list_setof or (or a a a))"%string, "(or a)"%string);
(1094, "(eo::list_setof or false)"%string, "false"%string);
(1096, "(eo::list_minclude or (or a b) (or a a b))"%string, "true"%string);
(1097, "(eo::list_minclude or (or a b) (or b a))"%string, "true"%string);
(1098, "(eo::list_minclude or (or a b b) (or a b))"%string, "false"%string);
(1099, "(eo::list_minclude or false (or a b))"%string, "true"%string);
(1101, "(eo::list_meq or (or a b) (or a a b))"%string, "false"%string);
(1102, "(eo::list_meq or (or a b c b) (or b a c b))"%string, "true"%string);
(1103, "(eo::list_meq or (or a b b) (or a a b))"%string, "false"%string);
(1104, "(eo::list_meq or false false)"%string, "true"%string);
(1106, "(eo::list_diff or (or a b) (or a a b))"%string, "false"%string);
(1107, "(eo::list_diff or (or a a b) (or a b))"%string, "(or a)"%string);
(1108, "(eo::list_diff or (or a b c b a) (or c b))"%string, "(or a b a)"%string);
(1109, "(eo::list_diff or (or a b a c a) (or a a))"%string, "(or b c a)"%string);
(1111, "(eo::list_inter or (or a b) (or a a b))"%string, "(or a b)"%string);
(1112, "(eo::list_inter or (or a a b) (or a b))"%string, "(or a b)"%string);
(1113, "(eo::list_inter or (or a b c b a) (or c b))"%string, "(or b c)"%string);
(1114, "(eo::list_inter or (or a b a c a) (or a a))"%string, "(or a a)"%string);
(1116, "(eo::list_singleton_elim or (or a b c))"%string, "(or a b c)"%string);
(1117, "(eo::list_singleton_elim or (or a a a))"%string, "(or a a a)"%string);
(1118, "(eo::list_singleton_elim or (or a))"%string, "a"%string)].
