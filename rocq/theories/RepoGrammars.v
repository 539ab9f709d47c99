(** Generated by tools/gen_grammars.py: the token trees of the grammars of /repo/tests/grammars (one definition per
    file, the contents of [oak! { .. }]) and the inputs of /repo/data/test with the results expected by
    tests/testoak.rs:38-76 and 236-247. *)
From Coq Require Import Ascii.
From Verif Require Import Base Front.
Open Scope string_scope. Open Scope nat_scope. Open Scope list_scope.

Inductive expectation := Match | PartialMatch | Error.

(** tests/grammars/calc.rs *)
Definition calc_rs : list tok :=
  [TKw "type"; TId "Stream"; TPunct "<"%char false; TOther "'a"; TPunct ">"%char false; TPunct "="%char false; TId "StrStream"; TPunct "<"%char false;
   TOther "'a"; TPunct ">"%char true; TPunct ";"%char false; TId "program"; TPunct "="%char false; TId "spacing"; TId "expression"; TId "expression";
   TPunct "="%char false; TId "term"; TGroup Paren [TId "term_op"; TId "term"]; TPunct "*"%char false; TPunct ">"%char false; TId "fold_left";
   TId "term"; TPunct "="%char false; TId "exponent"; TGroup Paren [TId "factor_op"; TId "exponent"]; TPunct "*"%char false; TPunct ">"%char false;
   TId "fold_left"; TId "exponent"; TPunct "="%char false; TGroup Paren [TId "factor"; TId "exponent_op"]; TPunct "*"%char false; TId "factor";
   TPunct ">"%char false; TId "fold_right"; TId "factor"; TPunct "="%char false; TId "number"; TPunct ">"%char false; TId "number_expr";
   TPunct "/"%char false; TId "identifier"; TPunct ">"%char false; TId "variable_expr"; TPunct "/"%char false; TId "let_expr"; TPunct ">"%char false;
   TId "let_in_expr"; TPunct "/"%char false; TId "lparen"; TId "expression"; TId "rparen"; TId "let_expr"; TPunct "="%char false; TId "let_kw";
   TId "let_binding"; TId "in_kw"; TId "expression"; TId "let_binding"; TPunct "="%char false; TId "identifier"; TId "bind_op"; TId "expression";
   TId "term_op"; TPunct "="%char false; TId "add_op"; TPunct ">"%char false; TId "add_bin_op"; TPunct "/"%char false; TId "sub_op";
   TPunct ">"%char false; TId "sub_bin_op"; TId "factor_op"; TPunct "="%char false; TId "mul_op"; TPunct ">"%char false; TId "mul_bin_op";
   TPunct "/"%char false; TId "div_op"; TPunct ">"%char false; TId "div_bin_op"; TId "exponent_op"; TPunct "="%char false; TId "exp_op";
   TPunct ">"%char false; TId "exp_bin_op"; TId "identifier"; TPunct "="%char false; TPunct "!"%char false; TId "digit"; TPunct "!"%char false;
   TId "keyword"; TId "ident_char"; TPunct "+"%char false; TId "spacing"; TPunct ">"%char false; TId "to_string"; TId "ident_char";
   TPunct "="%char false; TGroup Bracket [TStr [97; 45; 122; 65; 45; 90; 48; 45; 57; 95]%N]; TId "digit"; TPunct "="%char false;
   TGroup Bracket [TStr [48; 45; 57]%N]; TId "number"; TPunct "="%char false; TId "digit"; TPunct "+"%char false; TId "spacing"; TPunct ">"%char false;
   TId "to_number"; TId "spacing"; TPunct "="%char false; TGroup Bracket [TStr [32; 10; 13; 9]%N]; TPunct "*"%char true; TPunct ":"%char false;
   TGroup Paren [TPunct "^"%char false]; TId "kw_tail"; TPunct "="%char false; TPunct "!"%char false; TId "ident_char"; TId "spacing"; TId "keyword";
   TPunct "="%char false; TId "let_kw"; TPunct "/"%char false; TId "in_kw"; TId "let_kw"; TPunct "="%char false; TStr [108; 101; 116]%N; TId "kw_tail";
   TId "in_kw"; TPunct "="%char false; TStr [105; 110]%N; TId "kw_tail"; TId "bind_op"; TPunct "="%char false; TStr [61]%N; TId "spacing"; TId "add_op";
   TPunct "="%char false; TStr [43]%N; TId "spacing"; TId "sub_op"; TPunct "="%char false; TStr [45]%N; TId "spacing"; TId "mul_op";
   TPunct "="%char false; TStr [42]%N; TId "spacing"; TId "div_op"; TPunct "="%char false; TStr [47]%N; TId "spacing"; TId "exp_op";
   TPunct "="%char false; TStr [94]%N; TId "spacing"; TId "lparen"; TPunct "="%char false; TStr [40]%N; TId "spacing"; TId "rparen";
   TPunct "="%char false; TStr [41]%N; TId "spacing"; TKw "use"; TId "std"; TPunct ":"%char true; TPunct ":"%char false; TId "str";
   TPunct ":"%char true; TPunct ":"%char false; TId "FromStr"; TPunct ";"%char false; TKw "use"; TKw "self"; TPunct ":"%char true;
   TPunct ":"%char false; TId "Expression"; TPunct ":"%char true; TPunct ":"%char true; TPunct "*"%char true; TPunct ";"%char false; TKw "use";
   TKw "self"; TPunct ":"%char true; TPunct ":"%char false; TId "BinOp"; TPunct ":"%char true; TPunct ":"%char true; TPunct "*"%char true;
   TPunct ";"%char false; TKw "pub"; TKw "type"; TId "PExpr"; TPunct "="%char false; TId "Box"; TPunct "<"%char false; TId "Expression";
   TPunct ">"%char true; TPunct ";"%char false; TPunct "#"%char false; TGroup Bracket [TId "derive"; TGroup Paren [TId "Debug"]]; TKw "pub"; TKw "enum";
   TId "Expression"; TGroup Brace [TId "Variable"; TGroup Paren [TId "String"]; TPunct ","%char false; TId "Number"; TGroup Paren [TId "u32"];
   TPunct ","%char false; TId "BinaryExpr"; TGroup Paren [TId "BinOp"; TPunct ","%char false; TId "PExpr"; TPunct ","%char false; TId "PExpr"];
   TPunct ","%char false; TId "LetIn"; TGroup Paren [TId "String"; TPunct ","%char false; TId "PExpr"; TPunct ","%char false; TId "PExpr"]];
   TPunct "#"%char false; TGroup Bracket [TId "derive"; TGroup Paren [TId "Debug"]]; TKw "pub"; TKw "enum"; TId "BinOp"; TGroup Brace [TId "Add";
   TPunct ","%char false; TId "Sub"; TPunct ","%char false; TId "Mul"; TPunct ","%char false; TId "Div"; TPunct ","%char false; TId "Exp"]; TKw "fn";
   TId "to_number"; TGroup Paren [TId "raw_text"; TPunct ":"%char false; TId "Vec"; TPunct "<"%char false; TId "char"; TPunct ">"%char false];
   TPunct "-"%char true; TPunct ">"%char false; TId "u32"; TGroup Brace [TId "u32"; TPunct ":"%char true; TPunct ":"%char false; TId "from_str";
   TGroup Paren [TPunct "&"%char true; TPunct "*"%char false; TId "to_string"; TGroup Paren [TId "raw_text"]]; TPunct "."%char false; TId "unwrap";
   TGroup Paren []]; TKw "fn"; TId "number_expr"; TGroup Paren [TId "value"; TPunct ":"%char false; TId "u32"]; TPunct "-"%char true;
   TPunct ">"%char false; TId "PExpr"; TGroup Brace [TId "Box"; TPunct ":"%char true; TPunct ":"%char false; TId "new"; TGroup Paren [TId "Number";
   TGroup Paren [TId "value"]]]; TKw "fn"; TId "variable_expr"; TGroup Paren [TId "ident"; TPunct ":"%char false; TId "String"]; TPunct "-"%char true;
   TPunct ">"%char false; TId "PExpr"; TGroup Brace [TId "Box"; TPunct ":"%char true; TPunct ":"%char false; TId "new"; TGroup Paren [TId "Variable";
   TGroup Paren [TId "ident"]]]; TKw "fn"; TId "to_string"; TGroup Paren [TId "raw_text"; TPunct ":"%char false; TId "Vec"; TPunct "<"%char false;
   TId "char"; TPunct ">"%char false]; TPunct "-"%char true; TPunct ">"%char false; TId "String"; TGroup Brace [TId "raw_text"; TPunct "."%char false;
   TId "into_iter"; TGroup Paren []; TPunct "."%char false; TId "collect"; TGroup Paren []]; TKw "fn"; TId "fold_left"; TGroup Paren [TId "head";
   TPunct ":"%char false; TId "PExpr"; TPunct ","%char false; TId "rest"; TPunct ":"%char false; TId "Vec"; TPunct "<"%char false;
   TGroup Paren [TId "BinOp"; TPunct ","%char false; TId "PExpr"]; TPunct ">"%char false]; TPunct "-"%char true; TPunct ">"%char false; TId "PExpr";
   TGroup Brace [TId "rest"; TPunct "."%char false; TId "into_iter"; TGroup Paren []; TPunct "."%char false; TId "fold"; TGroup Paren [TId "head";
   TPunct ","%char false; TPunct "|"%char false; TId "accu"; TPunct ","%char false; TGroup Paren [TId "op"; TPunct ","%char false; TId "expr"];
   TPunct "|"%char false; TId "Box"; TPunct ":"%char true; TPunct ":"%char false; TId "new"; TGroup Paren [TId "BinaryExpr"; TGroup Paren [TId "op";
   TPunct ","%char false; TId "accu"; TPunct ","%char false; TId "expr"]]]]; TKw "fn"; TId "fold_right"; TGroup Paren [TId "front";
   TPunct ":"%char false; TId "Vec"; TPunct "<"%char false; TGroup Paren [TId "PExpr"; TPunct ","%char false; TId "BinOp"]; TPunct ">"%char true;
   TPunct ","%char false; TId "last"; TPunct ":"%char false; TId "PExpr"]; TPunct "-"%char true; TPunct ">"%char false; TId "PExpr";
   TGroup Brace [TId "front"; TPunct "."%char false; TId "into_iter"; TGroup Paren []; TPunct "."%char false; TId "rev"; TGroup Paren [];
   TPunct "."%char false; TId "fold"; TGroup Paren [TId "last"; TPunct ","%char false; TPunct "|"%char false; TId "accu"; TPunct ","%char false;
   TGroup Paren [TId "expr"; TPunct ","%char false; TId "op"]; TPunct "|"%char false; TId "Box"; TPunct ":"%char true; TPunct ":"%char false; TId "new";
   TGroup Paren [TId "BinaryExpr"; TGroup Paren [TId "op"; TPunct ","%char false; TId "expr"; TPunct ","%char false; TId "accu"]]]]; TKw "fn";
   TId "let_in_expr"; TGroup Paren [TId "var"; TPunct ":"%char false; TId "String"; TPunct ","%char false; TId "value"; TPunct ":"%char false;
   TId "PExpr"; TPunct ","%char false; TId "expr"; TPunct ":"%char false; TId "PExpr"]; TPunct "-"%char true; TPunct ">"%char false; TId "PExpr";
   TGroup Brace [TId "Box"; TPunct ":"%char true; TPunct ":"%char false; TId "new"; TGroup Paren [TId "LetIn"; TGroup Paren [TId "var";
   TPunct ","%char false; TId "value"; TPunct ","%char false; TId "expr"]]]; TKw "fn"; TId "add_bin_op"; TGroup Paren []; TPunct "-"%char true;
   TPunct ">"%char false; TId "BinOp"; TGroup Brace [TId "Add"]; TKw "fn"; TId "sub_bin_op"; TGroup Paren []; TPunct "-"%char true;
   TPunct ">"%char false; TId "BinOp"; TGroup Brace [TId "Sub"]; TKw "fn"; TId "mul_bin_op"; TGroup Paren []; TPunct "-"%char true;
   TPunct ">"%char false; TId "BinOp"; TGroup Brace [TId "Mul"]; TKw "fn"; TId "div_bin_op"; TGroup Paren []; TPunct "-"%char true;
   TPunct ">"%char false; TId "BinOp"; TGroup Brace [TId "Div"]; TKw "fn"; TId "exp_bin_op"; TGroup Paren []; TPunct "-"%char true;
   TPunct ">"%char false; TId "BinOp"; TGroup Brace [TId "Exp"]].

(** tests/grammars/calc2.rs *)
Definition calc2_rs : list tok :=
  [TKw "type"; TId "Stream"; TPunct "<"%char false; TOther "'a"; TPunct ">"%char false; TPunct "="%char false; TId "StrStream"; TPunct "<"%char false;
   TOther "'a"; TPunct ">"%char true; TPunct ";"%char false; TId "program"; TPunct "="%char false; TId "spacing"; TId "expression"; TId "expression";
   TPunct "="%char false; TId "term"; TGroup Paren [TId "term_op"; TId "term"]; TPunct "*"%char false; TPunct ">"%char false; TId "fold_left";
   TId "term"; TPunct "="%char false; TId "exponent"; TGroup Paren [TId "factor_op"; TId "exponent"]; TPunct "*"%char false; TPunct ">"%char false;
   TId "fold_left"; TId "exponent"; TPunct "="%char false; TGroup Paren [TId "factor"; TId "exponent_op"]; TPunct "*"%char false; TId "factor";
   TPunct ">"%char false; TId "fold_right"; TId "factor"; TPunct ":"%char false; TId "PExpr"; TPunct "="%char false; TId "number";
   TPunct ">"%char false; TKw "box"; TId "Number"; TPunct "/"%char false; TId "identifier"; TPunct ">"%char false; TKw "box"; TId "Variable";
   TPunct "/"%char false; TId "let_expr"; TPunct ">"%char false; TKw "box"; TId "LetIn"; TPunct "/"%char false; TId "lparen"; TId "expression";
   TId "rparen"; TId "let_expr"; TPunct "="%char false; TId "let_kw"; TId "let_binding"; TId "in_kw"; TId "expression"; TId "let_binding";
   TPunct "="%char false; TId "identifier"; TId "bind_op"; TId "expression"; TId "term_op"; TPunct ":"%char false; TId "BinOp"; TPunct "="%char false;
   TId "add_op"; TPunct ">"%char false; TId "Add"; TPunct "/"%char false; TId "sub_op"; TPunct ">"%char false; TId "Sub"; TId "factor_op";
   TPunct ":"%char false; TId "BinOp"; TPunct "="%char false; TId "mul_op"; TPunct ">"%char false; TId "Mul"; TPunct "/"%char false; TId "div_op";
   TPunct ">"%char false; TId "Div"; TId "exponent_op"; TPunct ":"%char false; TId "BinOp"; TPunct "="%char false; TId "exp_op"; TPunct ">"%char false;
   TId "Exp"; TId "identifier"; TPunct "="%char false; TPunct "!"%char false; TId "digit"; TPunct "!"%char false; TId "keyword"; TId "ident_char";
   TPunct "+"%char false; TId "spacing"; TPunct ">"%char false; TId "to_string"; TId "ident_char"; TPunct "="%char false; TGroup Bracket [TStr [97; 45;
   122; 65; 45; 90; 48; 45; 57; 95]%N]; TId "digit"; TPunct "="%char false; TGroup Bracket [TStr [48; 45; 57]%N]; TId "number"; TPunct "="%char false;
   TId "digit"; TPunct "+"%char false; TId "spacing"; TPunct ">"%char false; TId "to_number"; TId "spacing"; TPunct "="%char false;
   TGroup Bracket [TStr [32; 10; 13; 9]%N]; TPunct "*"%char true; TPunct ":"%char false; TGroup Paren [TPunct "^"%char false]; TId "kw_tail";
   TPunct "="%char false; TPunct "!"%char false; TId "ident_char"; TId "spacing"; TId "keyword"; TPunct "="%char false; TId "let_kw";
   TPunct "/"%char false; TId "in_kw"; TId "let_kw"; TPunct "="%char false; TStr [108; 101; 116]%N; TId "kw_tail"; TId "in_kw"; TPunct "="%char false;
   TStr [105; 110]%N; TId "kw_tail"; TId "bind_op"; TPunct "="%char false; TStr [61]%N; TId "spacing"; TId "add_op"; TPunct "="%char false; TStr [43]%N;
   TId "spacing"; TId "sub_op"; TPunct "="%char false; TStr [45]%N; TId "spacing"; TId "mul_op"; TPunct "="%char false; TStr [42]%N; TId "spacing";
   TId "div_op"; TPunct "="%char false; TStr [47]%N; TId "spacing"; TId "exp_op"; TPunct "="%char false; TStr [94]%N; TId "spacing"; TId "lparen";
   TPunct "="%char false; TStr [40]%N; TId "spacing"; TId "rparen"; TPunct "="%char false; TStr [41]%N; TId "spacing"; TKw "fn"; TId "to_number";
   TGroup Paren [TId "raw_text"; TPunct ":"%char false; TId "Vec"; TPunct "<"%char false; TId "char"; TPunct ">"%char false]; TPunct "-"%char true;
   TPunct ">"%char false; TId "u32"; TGroup Brace [TId "u32"; TPunct ":"%char true; TPunct ":"%char false; TId "from_str";
   TGroup Paren [TPunct "&"%char true; TPunct "*"%char false; TId "to_string"; TGroup Paren [TId "raw_text"]]; TPunct "."%char false; TId "unwrap";
   TGroup Paren []]; TKw "fn"; TId "to_string"; TGroup Paren [TId "raw_text"; TPunct ":"%char false; TId "Vec"; TPunct "<"%char false; TId "char";
   TPunct ">"%char false]; TPunct "-"%char true; TPunct ">"%char false; TId "String"; TGroup Brace [TId "raw_text"; TPunct "."%char false;
   TId "into_iter"; TGroup Paren []; TPunct "."%char false; TId "collect"; TGroup Paren []]; TKw "fn"; TId "fold_left"; TGroup Paren [TId "head";
   TPunct ":"%char false; TId "PExpr"; TPunct ","%char false; TId "rest"; TPunct ":"%char false; TId "Vec"; TPunct "<"%char false;
   TGroup Paren [TId "BinOp"; TPunct ","%char false; TId "PExpr"]; TPunct ">"%char false]; TPunct "-"%char true; TPunct ">"%char false; TId "PExpr";
   TGroup Brace [TId "rest"; TPunct "."%char false; TId "into_iter"; TGroup Paren []; TPunct "."%char false; TId "fold"; TGroup Paren [TId "head";
   TPunct ","%char false; TPunct "|"%char false; TId "accu"; TPunct ","%char false; TGroup Paren [TId "op"; TPunct ","%char false; TId "expr"];
   TPunct "|"%char false; TId "Box"; TPunct ":"%char true; TPunct ":"%char false; TId "new"; TGroup Paren [TId "BinaryExpr"; TGroup Paren [TId "op";
   TPunct ","%char false; TId "accu"; TPunct ","%char false; TId "expr"]]]]; TKw "fn"; TId "fold_right"; TGroup Paren [TId "front";
   TPunct ":"%char false; TId "Vec"; TPunct "<"%char false; TGroup Paren [TId "PExpr"; TPunct ","%char false; TId "BinOp"]; TPunct ">"%char true;
   TPunct ","%char false; TId "last"; TPunct ":"%char false; TId "PExpr"]; TPunct "-"%char true; TPunct ">"%char false; TId "PExpr";
   TGroup Brace [TId "front"; TPunct "."%char false; TId "into_iter"; TGroup Paren []; TPunct "."%char false; TId "rev"; TGroup Paren [];
   TPunct "."%char false; TId "fold"; TGroup Paren [TId "last"; TPunct ","%char false; TPunct "|"%char false; TId "accu"; TPunct ","%char false;
   TGroup Paren [TId "expr"; TPunct ","%char false; TId "op"]; TPunct "|"%char false; TId "Box"; TPunct ":"%char true; TPunct ":"%char false; TId "new";
   TGroup Paren [TId "BinaryExpr"; TGroup Paren [TId "op"; TPunct ","%char false; TId "expr"; TPunct ","%char false; TId "accu"]]]]].

(** tests/grammars/calc3.rs *)
Definition calc3_rs : list tok :=
  [TKw "type"; TId "Stream"; TPunct "<"%char false; TOther "'a"; TPunct ">"%char false; TPunct "="%char false; TId "StrStream"; TPunct "<"%char false;
   TOther "'a"; TPunct ">"%char true; TPunct ";"%char false; TId "program"; TPunct "="%char false; TId "spacing"; TId "expression"; TId "expression";
   TPunct "="%char false; TId "term"; TGroup Paren [TId "term_op"; TId "term"]; TPunct "*"%char false; TPunct ">"%char false; TId "fold_left";
   TId "term"; TPunct "="%char false; TId "exponent"; TGroup Paren [TId "factor_op"; TId "exponent"]; TPunct "*"%char false; TPunct ">"%char false;
   TId "fold_left"; TId "exponent"; TPunct "="%char false; TGroup Paren [TId "factor"; TId "exponent_op"]; TPunct "*"%char false; TId "factor";
   TPunct ">"%char false; TId "fold_right"; TId "factor"; TPunct ":"%char false; TId "Box"; TPunct "<"%char false; TId "Expression";
   TPunct ">"%char false; TPunct "="%char false; TId "calc2"; TPunct ":"%char true; TPunct ":"%char false; TId "number"; TPunct ">"%char false;
   TKw "box"; TId "Number"; TPunct "/"%char false; TId "calc2"; TPunct ":"%char true; TPunct ":"%char false; TId "identifier"; TPunct ">"%char false;
   TKw "box"; TId "Variable"; TPunct "/"%char false; TId "let_expr"; TPunct ">"%char false; TKw "box"; TId "LetIn"; TPunct "/"%char false; TId "lparen";
   TId "expression"; TId "rparen"; TId "let_expr"; TPunct "="%char false; TId "let_kw"; TId "let_binding"; TId "in_kw"; TId "expression";
   TId "let_binding"; TPunct "="%char false; TGroup Paren [TId "calc2"; TPunct ":"%char true; TPunct ":"%char false; TId "identifier";
   TPunct ":"%char false; TId "String"]; TId "bind_op"; TId "expression"; TId "term_op"; TPunct ":"%char false; TId "BinOp"; TPunct "="%char false;
   TId "add_op"; TPunct ">"%char false; TId "Add"; TPunct "/"%char false; TId "sub_op"; TPunct ">"%char false; TId "Sub"; TId "factor_op";
   TPunct ":"%char false; TId "BinOp"; TPunct "="%char false; TId "mul_op"; TPunct ">"%char false; TId "Mul"; TPunct "/"%char false; TId "div_op";
   TPunct ">"%char false; TId "Div"; TId "exponent_op"; TPunct ":"%char false; TId "BinOp"; TPunct "="%char false; TId "exp_op"; TPunct ">"%char false;
   TId "Exp"; TId "spacing"; TPunct "="%char false; TGroup Bracket [TStr [32; 10; 13; 9]%N]; TPunct "*"%char true; TPunct ":"%char false;
   TGroup Paren [TPunct "^"%char false]; TId "kw_tail"; TPunct "="%char false; TPunct "!"%char false; TId "calc2"; TPunct ":"%char true;
   TPunct ":"%char false; TId "ident_char"; TId "spacing"; TId "keyword"; TPunct "="%char false; TId "let_kw"; TPunct "/"%char false; TId "in_kw";
   TId "let_kw"; TPunct "="%char false; TStr [108; 101; 116]%N; TId "kw_tail"; TId "in_kw"; TPunct "="%char false; TStr [105; 110]%N; TId "kw_tail";
   TId "bind_op"; TPunct "="%char false; TStr [61]%N; TId "spacing"; TId "add_op"; TPunct "="%char false; TStr [43]%N; TId "spacing"; TId "sub_op";
   TPunct "="%char false; TStr [45]%N; TId "spacing"; TId "mul_op"; TPunct "="%char false; TStr [42]%N; TId "spacing"; TId "div_op";
   TPunct "="%char false; TStr [47]%N; TId "spacing"; TId "exp_op"; TPunct "="%char false; TStr [94]%N; TId "spacing"; TId "lparen";
   TPunct "="%char false; TStr [40]%N; TId "spacing"; TId "rparen"; TPunct "="%char false; TStr [41]%N; TId "spacing"; TKw "fn"; TId "fold_left";
   TGroup Paren [TId "head"; TPunct ":"%char false; TId "PExpr"; TPunct ","%char false; TId "rest"; TPunct ":"%char false; TId "Vec";
   TPunct "<"%char false; TGroup Paren [TId "BinOp"; TPunct ","%char false; TId "PExpr"]; TPunct ">"%char false]; TPunct "-"%char true;
   TPunct ">"%char false; TId "PExpr"; TGroup Brace [TId "rest"; TPunct "."%char false; TId "into_iter"; TGroup Paren []; TPunct "."%char false;
   TId "fold"; TGroup Paren [TId "head"; TPunct ","%char false; TPunct "|"%char false; TId "accu"; TPunct ","%char false; TGroup Paren [TId "op";
   TPunct ","%char false; TId "expr"]; TPunct "|"%char false; TId "Box"; TPunct ":"%char true; TPunct ":"%char false; TId "new";
   TGroup Paren [TId "BinaryExpr"; TGroup Paren [TId "op"; TPunct ","%char false; TId "accu"; TPunct ","%char false; TId "expr"]]]]; TKw "fn";
   TId "fold_right"; TGroup Paren [TId "front"; TPunct ":"%char false; TId "Vec"; TPunct "<"%char false; TGroup Paren [TId "PExpr";
   TPunct ","%char false; TId "BinOp"]; TPunct ">"%char true; TPunct ","%char false; TId "last"; TPunct ":"%char false; TId "PExpr"];
   TPunct "-"%char true; TPunct ">"%char false; TId "PExpr"; TGroup Brace [TId "front"; TPunct "."%char false; TId "into_iter"; TGroup Paren [];
   TPunct "."%char false; TId "rev"; TGroup Paren []; TPunct "."%char false; TId "fold"; TGroup Paren [TId "last"; TPunct ","%char false;
   TPunct "|"%char false; TId "accu"; TPunct ","%char false; TGroup Paren [TId "expr"; TPunct ","%char false; TId "op"]; TPunct "|"%char false;
   TId "Box"; TPunct ":"%char true; TPunct ":"%char false; TId "new"; TGroup Paren [TId "BinaryExpr"; TGroup Paren [TId "op"; TPunct ","%char false;
   TId "expr"; TPunct ","%char false; TId "accu"]]]]].

(** tests/grammars/combinators.rs *)
Definition combinators_rs : list tok :=
  [TId "str_literal"; TPunct "="%char false; TStr [114; 101; 116; 117; 114; 110]%N; TId "sequence"; TPunct "="%char false; TStr [105; 102]%N;
   TStr [32]%N; TStr [116; 104; 101; 110]%N; TStr [32]%N; TStr [101; 108; 115; 101]%N; TId "any_single_char"; TPunct "="%char false;
   TPunct "."%char false; TPunct "."%char false; TId "choice"; TPunct "="%char false; TStr [105; 102]%N; TPunct "."%char false; TStr [101; 108; 115;
   101]%N; TPunct "."%char false; TPunct "/"%char false; TStr [108; 101; 116]%N; TPunct "."%char false; TPunct "."%char false; TPunct "/"%char false;
   TStr [105; 102; 32]%N; TGroup Paren [TStr [45]%N; TPunct "."%char false; TPunct "/"%char false; TPunct "."%char false]; TStr [32; 101; 108; 115; 101;
   32]%N; TGroup Paren [TStr [45]%N; TPunct "."%char false; TPunct "/"%char false; TStr [43]%N; TPunct "."%char false]; TId "repeat";
   TPunct "="%char false; TGroup Paren [TGroup Paren [TStr [97]%N; TPunct "/"%char false; TStr [98]%N; TPunct "+"%char false]; TPunct "."%char false];
   TPunct "*"%char false; TStr [99]%N; TPunct "*"%char false; TId "predicate"; TPunct "="%char false; TPunct "&"%char false; TStr [97]%N;
   TGroup Paren [TPunct "!"%char false; TStr [98]%N; TPunct "."%char false]; TPunct "+"%char false; TPunct "/"%char false; TPunct "&"%char false;
   TStr [98]%N; TGroup Paren [TPunct "!"%char false; TStr [97]%N; TPunct "."%char false]; TPunct "+"%char false; TId "optional"; TPunct "="%char false;
   TStr [97]%N; TPunct "?"%char false; TStr [98]%N; TGroup Paren [TStr [99]%N; TPunct "."%char false; TPunct "/"%char false; TStr [100]%N;
   TPunct "."%char false]; TPunct "?"%char false; TStr [122]%N; TId "char_class"; TPunct "="%char false; TGroup Bracket [TStr [97; 45; 122; 65; 45; 90;
   49; 50; 95]%N]; TPunct "+"%char false; TGroup Bracket [TStr [9; 32]%N]; TPunct "?"%char false; TGroup Bracket [TStr [45]%N]; TId "non_terminal";
   TPunct "="%char false; TStr [97]%N; TId "non_terminal_bis"; TPunct "+"%char false; TPunct "."%char false; TId "non_terminal_bis";
   TPunct "="%char false; TGroup Paren [TStr [98]%N; TPunct "."%char false; TPunct "/"%char false; TStr [99]%N; TPunct "."%char false];
   TGroup Paren [TPunct "!"%char false; TStr [100]%N; TPunct "."%char false]; TPunct "+"%char false].

(** tests/grammars/issue94.rs *)
Definition issue94_rs : list tok :=
  [TId "underscore"; TPunct "="%char false; TStr [95]%N; TId "digits"; TPunct "="%char false; TGroup Paren [TId "underscore"; TPunct "*"%char false;
   TId "digit"]; TPunct "+"%char false; TPunct ">"%char false; TId "id"; TId "digit"; TPunct "="%char false; TGroup Bracket [TStr [48; 45; 57]%N];
   TKw "fn"; TId "id"; TGroup Paren [TId "v"; TPunct ":"%char false; TId "Vec"; TPunct "<"%char false; TId "char"; TPunct ">"%char false];
   TPunct "-"%char true; TPunct ">"%char false; TId "Vec"; TPunct "<"%char false; TId "char"; TPunct ">"%char false; TGroup Brace [TId "v"]].

(** tests/grammars/json.rs *)
Definition json_rs : list tok :=
  [TId "program"; TPunct "="%char false; TId "spacing"; TId "json_expr"; TId "spacing"; TId "json_expr"; TPunct "="%char false; TId "number";
   TPunct ">"%char false; TId "make_json_number"; TPunct "/"%char false; TId "json_string"; TPunct ">"%char false; TId "make_json_string";
   TPunct "/"%char false; TId "json_array"; TPunct ">"%char false; TId "make_json_array"; TPunct "/"%char false; TId "json_object";
   TPunct ">"%char false; TId "make_json_object"; TId "json_object"; TPunct "="%char false; TId "lbrace"; TId "json_members"; TPunct "?"%char false;
   TId "spacing"; TId "rbrace"; TId "json_members"; TPunct "="%char false; TId "json_pair"; TGroup Paren [TId "coma"; TId "json_pair"];
   TPunct "*"%char false; TPunct ">"%char false; TId "make_json_member"; TId "json_pair"; TPunct "="%char false; TId "json_string"; TId "colon";
   TId "json_expr"; TPunct ">"%char false; TId "make_json_pair"; TId "json_array"; TPunct "="%char false; TId "lbracket"; TGroup Paren [TId "json_expr";
   TId "coma"]; TPunct "*"%char false; TId "json_expr"; TId "spacing"; TId "rbracket"; TId "json_string"; TPunct "="%char false; TId "dquote";
   TId "json_char"; TPunct "*"%char false; TId "dquote"; TId "spacing"; TPunct ">"%char false; TId "to_string"; TId "dquote"; TPunct "="%char false;
   TStr [34]%N; TId "spacing"; TPunct "="%char false; TGroup Bracket [TStr [32; 10; 13; 9]%N]; TPunct "*"%char true; TPunct ":"%char false;
   TGroup Paren [TPunct "^"%char false]; TId "digit"; TPunct "="%char false; TGroup Bracket [TStr [48; 45; 57]%N]; TId "colon"; TPunct "="%char false;
   TStr [58]%N; TId "spacing"; TId "semicolon"; TPunct "="%char false; TStr [59]%N; TId "spacing"; TId "coma"; TPunct "="%char false; TStr [44]%N;
   TId "spacing"; TId "number"; TPunct "="%char false; TId "digit"; TPunct "+"%char false; TId "spacing"; TPunct ">"%char false; TId "to_number";
   TId "not_zero_digit"; TPunct "="%char false; TGroup Bracket [TStr [49; 45; 57]%N]; TId "digits"; TPunct "="%char false; TId "digit";
   TPunct "+"%char false; TId "json_char"; TPunct "="%char false; TGroup Bracket [TStr [97; 45; 122; 65; 45; 90; 48; 45; 57; 95; 40; 41; 32; 44; 46; 58;
   38; 39; 47; 64; 63; 42; 61; 59; 45]%N]; TId "lparen"; TPunct "="%char false; TStr [40]%N; TId "spacing"; TId "rparen"; TPunct "="%char false;
   TStr [41]%N; TId "spacing"; TId "lbracket"; TPunct "="%char false; TStr [91]%N; TId "spacing"; TId "rbracket"; TPunct "="%char false; TStr [93]%N;
   TId "spacing"; TId "lbrace"; TPunct "="%char false; TStr [123]%N; TId "spacing"; TId "rbrace"; TPunct "="%char false; TStr [125]%N; TId "spacing";
   TKw "use"; TId "std"; TPunct ":"%char true; TPunct ":"%char false; TId "str"; TPunct ":"%char true; TPunct ":"%char false; TId "FromStr";
   TPunct ";"%char false; TKw "pub"; TKw "type"; TId "PExpr"; TPunct "="%char false; TId "Box"; TPunct "<"%char false; TId "JSONExpr";
   TPunct ">"%char true; TPunct ";"%char false; TPunct "#"%char false; TGroup Bracket [TId "derive"; TGroup Paren [TId "Debug"]]; TKw "pub"; TKw "enum";
   TId "JSONExpr"; TGroup Brace [TId "Str"; TGroup Paren [TId "String"]; TPunct ","%char false; TId "Number"; TGroup Paren [TId "u32"];
   TPunct ","%char false; TId "Array"; TGroup Paren [TId "Vec"; TPunct "<"%char false; TId "Box"; TPunct "<"%char false; TId "JSONExpr";
   TPunct ">"%char true; TPunct ">"%char false]; TPunct ","%char false; TId "Object"; TGroup Paren [TId "Option"; TPunct "<"%char false; TId "Box";
   TPunct "<"%char false; TId "JSONPair"; TPunct ">"%char true; TPunct ">"%char false]]; TPunct "#"%char false; TGroup Bracket [TId "derive";
   TGroup Paren [TId "Debug"]]; TKw "pub"; TKw "enum"; TId "JSONPair"; TGroup Brace [TId "Pair"; TGroup Paren [TId "String"; TPunct ","%char false;
   TId "Box"; TPunct "<"%char false; TId "JSONExpr"; TPunct ">"%char false]; TPunct ","%char false; TId "Json"; TGroup Paren [TId "Vec";
   TPunct "<"%char false; TId "Box"; TPunct "<"%char false; TId "JSONPair"; TPunct ">"%char true; TPunct ">"%char false]]; TKw "fn";
   TId "make_json_number"; TGroup Paren [TId "number"; TPunct ":"%char false; TId "u32"]; TPunct "-"%char true; TPunct ">"%char false; TId "Box";
   TPunct "<"%char false; TId "JSONExpr"; TPunct ">"%char false; TGroup Brace [TId "Box"; TPunct ":"%char true; TPunct ":"%char false; TId "new";
   TGroup Paren [TId "JSONExpr"; TPunct ":"%char true; TPunct ":"%char false; TId "Number"; TGroup Paren [TId "number"]]]; TKw "fn";
   TId "make_json_string"; TGroup Paren [TId "string"; TPunct ":"%char false; TId "String"]; TPunct "-"%char true; TPunct ">"%char false; TId "Box";
   TPunct "<"%char false; TId "JSONExpr"; TPunct ">"%char false; TGroup Brace [TId "Box"; TPunct ":"%char true; TPunct ":"%char false; TId "new";
   TGroup Paren [TId "JSONExpr"; TPunct ":"%char true; TPunct ":"%char false; TId "Str"; TGroup Paren [TId "string"]]]; TKw "fn"; TId "make_json_pair";
   TGroup Paren [TId "string"; TPunct ":"%char false; TId "String"; TPunct ","%char false; TId "expr"; TPunct ":"%char false; TId "Box";
   TPunct "<"%char false; TId "JSONExpr"; TPunct ">"%char false]; TPunct "-"%char true; TPunct ">"%char false; TId "Box"; TPunct "<"%char false;
   TId "JSONPair"; TPunct ">"%char false; TGroup Brace [TId "Box"; TPunct ":"%char true; TPunct ":"%char false; TId "new"; TGroup Paren [TId "JSONPair";
   TPunct ":"%char true; TPunct ":"%char false; TId "Pair"; TGroup Paren [TId "string"; TPunct ","%char false; TId "expr"]]]; TKw "fn";
   TId "make_json_array"; TGroup Paren [TId "array"; TPunct ":"%char false; TId "Vec"; TPunct "<"%char false; TId "Box"; TPunct "<"%char false;
   TId "JSONExpr"; TPunct ">"%char true; TPunct ">"%char true; TPunct ","%char false; TId "front"; TPunct ":"%char false; TId "Box";
   TPunct "<"%char false; TId "JSONExpr"; TPunct ">"%char false]; TPunct "-"%char true; TPunct ">"%char false; TId "Box"; TPunct "<"%char false;
   TId "JSONExpr"; TPunct ">"%char false; TGroup Brace [TKw "let"; TKw "mut"; TId "vector"; TPunct "="%char false; TId "Vec"; TPunct ":"%char true;
   TPunct ":"%char false; TId "new"; TGroup Paren []; TPunct ";"%char false; TKw "for"; TId "i"; TKw "in"; TId "array"; TGroup Brace [TId "vector";
   TPunct "."%char false; TId "push"; TGroup Paren [TId "i"]; TPunct ";"%char false]; TId "vector"; TPunct "."%char false; TId "push";
   TGroup Paren [TId "front"]; TPunct ";"%char false; TId "Box"; TPunct ":"%char true; TPunct ":"%char false; TId "new"; TGroup Paren [TId "JSONExpr";
   TPunct ":"%char true; TPunct ":"%char false; TId "Array"; TGroup Paren [TId "vector"]]]; TKw "fn"; TId "make_json_member"; TGroup Paren [TId "pair";
   TPunct ":"%char false; TId "Box"; TPunct "<"%char false; TId "JSONPair"; TPunct ">"%char true; TPunct ","%char false; TId "rest";
   TPunct ":"%char false; TId "Vec"; TPunct "<"%char false; TId "Box"; TPunct "<"%char false; TId "JSONPair"; TPunct ">"%char true;
   TPunct ">"%char false]; TPunct "-"%char true; TPunct ">"%char false; TId "Box"; TPunct "<"%char false; TId "JSONPair"; TPunct ">"%char false;
   TGroup Brace [TKw "let"; TKw "mut"; TId "vector"; TPunct "="%char false; TId "vec"; TPunct "!"%char false; TGroup Bracket [TId "pair"];
   TPunct ";"%char false; TKw "for"; TId "i"; TKw "in"; TId "rest"; TGroup Brace [TId "vector"; TPunct "."%char false; TId "push";
   TGroup Paren [TId "i"]; TPunct ";"%char false]; TId "Box"; TPunct ":"%char true; TPunct ":"%char false; TId "new"; TGroup Paren [TId "JSONPair";
   TPunct ":"%char true; TPunct ":"%char false; TId "Json"; TGroup Paren [TId "vector"]]]; TKw "fn"; TId "make_json_object"; TGroup Paren [TId "m";
   TPunct ":"%char false; TId "Option"; TPunct "<"%char false; TId "Box"; TPunct "<"%char false; TId "JSONPair"; TPunct ">"%char true;
   TPunct ">"%char false]; TPunct "-"%char true; TPunct ">"%char false; TId "Box"; TPunct "<"%char false; TId "JSONExpr"; TPunct ">"%char false;
   TGroup Brace [TId "Box"; TPunct ":"%char true; TPunct ":"%char false; TId "new"; TGroup Paren [TId "JSONExpr"; TPunct ":"%char true;
   TPunct ":"%char false; TId "Object"; TGroup Paren [TId "m"]]]; TKw "fn"; TId "to_number"; TGroup Paren [TId "raw_text"; TPunct ":"%char false;
   TId "Vec"; TPunct "<"%char false; TId "char"; TPunct ">"%char false]; TPunct "-"%char true; TPunct ">"%char false; TId "u32";
   TGroup Brace [TId "u32"; TPunct ":"%char true; TPunct ":"%char false; TId "from_str"; TGroup Paren [TPunct "&"%char true; TPunct "*"%char false;
   TId "to_string"; TGroup Paren [TId "raw_text"]]; TPunct "."%char false; TId "unwrap"; TGroup Paren []]; TKw "fn"; TId "to_string";
   TGroup Paren [TId "raw_text"; TPunct ":"%char false; TId "Vec"; TPunct "<"%char false; TId "char"; TPunct ">"%char false]; TPunct "-"%char true;
   TPunct ">"%char false; TId "String"; TGroup Brace [TId "raw_text"; TPunct "."%char false; TId "into_iter"; TGroup Paren []; TPunct "."%char false;
   TId "collect"; TGroup Paren []]].

(** tests/grammars/ntcc.rs *)
Definition ntcc_rs : list tok :=
  [TId "ntcc"; TPunct "="%char false; TId "spacing"; TId "expression"; TPunct ":"%char false; TGroup Paren [TPunct "^"%char false]; TId "expression";
   TPunct "="%char false; TId "sum"; TPunct "/"%char false; TId "par"; TPunct "/"%char false; TId "tell"; TPunct "/"%char false; TId "next";
   TPunct "/"%char false; TId "async"; TPunct "/"%char false; TId "rep"; TPunct "/"%char false; TId "unless"; TPunct "/"%char false; TId "let_in";
   TPunct "/"%char false; TId "skip_kw"; TId "sum"; TPunct "="%char false; TId "pick_kw"; TId "or"; TPunct "?"%char false; TId "when"; TId "sum_body";
   TPunct "*"%char false; TId "end_kw"; TPunct "?"%char false; TId "sum_body"; TPunct "="%char false; TGroup Paren [TId "or"; TId "when"];
   TPunct ":"%char false; TGroup Paren [TPunct "^"%char false]; TId "par"; TPunct "="%char false; TId "par_kw"; TId "oror"; TPunct "?"%char false;
   TId "expression"; TId "par_body"; TPunct "*"%char false; TId "end_kw"; TPunct "?"%char false; TId "par_body"; TPunct "="%char false;
   TGroup Paren [TId "oror"; TId "expression"]; TPunct ":"%char false; TGroup Paren [TPunct "^"%char false]; TId "tell"; TPunct "="%char false;
   TId "store_kw"; TId "left_arrow"; TId "constraint"; TId "next"; TPunct "="%char false; TId "next_kw"; TId "expression"; TId "async";
   TPunct "="%char false; TId "async_kw"; TId "expression"; TId "rep"; TPunct "="%char false; TId "rep_kw"; TId "expression"; TId "unless";
   TPunct "="%char false; TId "unless_kw"; TId "entailed_by"; TId "next"; TId "when"; TPunct "="%char false; TId "when_kw"; TId "entails";
   TId "right_arrow"; TId "expression"; TId "entails"; TPunct "="%char false; TId "store_kw"; TId "entail"; TId "constraint"; TId "entailed_by";
   TPunct "="%char false; TId "constraint"; TId "entail"; TId "store_kw"; TId "constraint"; TPunct "="%char false; TId "constraint_operand";
   TId "comparison"; TId "constraint_operand"; TId "constraint_operand"; TPunct "="%char false; TId "integer"; TPunct "/"%char false; TId "var_ident";
   TId "comparison"; TPunct "="%char false; TId "le"; TPunct "/"%char false; TId "neq"; TPunct "/"%char false; TId "lt"; TPunct "/"%char false;
   TId "ge"; TPunct "/"%char false; TId "gt"; TPunct "/"%char false; TId "eq"; TId "spacing"; TPunct "="%char false; TGroup Bracket [TStr [32; 10;
   9]%N]; TPunct "*"%char true; TPunct ":"%char false; TGroup Paren [TPunct "^"%char false]; TId "let_in"; TPunct "="%char false; TId "let_kw";
   TId "var_decl"; TId "in_kw"; TId "expression"; TId "var_decl"; TPunct "="%char false; TId "var_ident"; TId "eq_bind"; TId "var_range";
   TId "var_range"; TPunct "="%char false; TId "range"; TPunct "/"%char false; TId "domain"; TId "domain"; TPunct "="%char false; TId "dom_kw";
   TId "var_ident"; TId "range"; TPunct "="%char false; TId "range_bound"; TId "dotdot"; TId "range_bound"; TId "range_bound"; TPunct "="%char false;
   TId "integer"; TPunct "/"%char false; TId "min_bound"; TPunct "/"%char false; TId "max_bound"; TId "min_bound"; TPunct "="%char false; TId "min_kw";
   TId "var_ident"; TId "max_bound"; TPunct "="%char false; TId "max_kw"; TId "var_ident"; TId "integer"; TPunct ":"%char false;
   TGroup Paren [TPunct "^"%char false]; TPunct "="%char false; TGroup Bracket [TStr [48; 45; 57]%N]; TPunct "+"%char false; TId "spacing";
   TId "var_ident"; TPunct ":"%char false; TGroup Paren [TPunct "^"%char false]; TPunct "="%char false; TPunct "!"%char false; TGroup Bracket [TStr [48;
   45; 57]%N]; TGroup Bracket [TStr [97; 45; 122; 65; 45; 90; 48; 45; 57; 95]%N]; TPunct "+"%char false; TId "spacing"; TId "pick_kw";
   TPunct "="%char false; TStr [112; 105; 99; 107]%N; TId "spacing"; TId "when_kw"; TPunct "="%char false; TStr [119; 104; 101; 110]%N; TId "spacing";
   TId "store_kw"; TPunct "="%char false; TStr [115; 116; 111; 114; 101]%N; TId "spacing"; TId "skip_kw"; TPunct "="%char false; TStr [115; 107; 105;
   112]%N; TId "spacing"; TId "let_kw"; TPunct "="%char false; TStr [108; 101; 116]%N; TId "spacing"; TId "in_kw"; TPunct "="%char false; TStr [105;
   110]%N; TId "spacing"; TId "dom_kw"; TPunct "="%char false; TStr [100; 111; 109]%N; TId "spacing"; TId "min_kw"; TPunct "="%char false; TStr [109;
   105; 110]%N; TId "spacing"; TId "max_kw"; TPunct "="%char false; TStr [109; 97; 120]%N; TId "spacing"; TId "end_kw"; TPunct "="%char false;
   TStr [101; 110; 100]%N; TId "spacing"; TId "par_kw"; TPunct "="%char false; TStr [112; 97; 114]%N; TId "spacing"; TId "next_kw";
   TPunct "="%char false; TStr [110; 101; 120; 116]%N; TId "spacing"; TId "async_kw"; TPunct "="%char false; TStr [97; 115; 121; 110; 99]%N;
   TId "spacing"; TId "rep_kw"; TPunct "="%char false; TStr [114; 101; 112]%N; TId "spacing"; TId "unless_kw"; TPunct "="%char false; TStr [117; 110;
   108; 101; 115; 115]%N; TId "spacing"; TId "or"; TPunct "="%char false; TStr [124]%N; TId "spacing"; TId "oror"; TPunct "="%char false; TStr [124;
   124]%N; TId "spacing"; TId "entail"; TPunct "="%char false; TStr [124; 61]%N; TId "spacing"; TId "lt"; TPunct "="%char false; TStr [60]%N;
   TId "spacing"; TId "le"; TPunct "="%char false; TStr [60; 61]%N; TId "spacing"; TId "gt"; TPunct "="%char false; TStr [62]%N; TId "spacing";
   TId "ge"; TPunct "="%char false; TStr [62; 61]%N; TId "spacing"; TId "eq"; TPunct "="%char false; TStr [61; 61]%N; TId "spacing"; TId "neq";
   TPunct "="%char false; TStr [60; 62]%N; TId "spacing"; TId "right_arrow"; TPunct "="%char false; TStr [45; 62]%N; TId "spacing"; TId "left_arrow";
   TPunct "="%char false; TStr [60; 45]%N; TId "spacing"; TId "dotdot"; TPunct "="%char false; TStr [46; 46]%N; TId "spacing"; TId "eq_bind";
   TPunct "="%char false; TStr [61]%N; TId "spacing"].

(** tests/grammars/recursive_type.rs *)
Definition recursive_type_rs : list tok :=
  [TId "r"; TPunct "="%char false; TStr [97]%N; TId "r"; TPunct "/"%char false; TStr [98]%N; TId "factor"; TPunct "="%char false; TId "integer";
   TPunct "/"%char false; TId "unary_arith_expr"; TId "unary_arith_expr"; TPunct "="%char false; TStr [43]%N; TId "factor"; TPunct ">"%char false;
   TId "id"; TPunct "/"%char false; TStr [45]%N; TId "factor"; TPunct ">"%char false; TId "make_neg_expr"; TId "integer"; TPunct "="%char false;
   TGroup Bracket [TStr [48; 45; 57]%N]; TPunct "+"%char false; TPunct ">"%char false; TId "make_integer"; TKw "use"; TId "std"; TPunct ":"%char true;
   TPunct ":"%char false; TId "str"; TPunct ":"%char true; TPunct ":"%char false; TId "FromStr"; TPunct ";"%char false; TKw "pub"; TKw "enum";
   TId "Expr"; TGroup Brace [TId "Number"; TGroup Paren [TId "u64"]; TPunct ","%char false; TId "NegExpr"; TGroup Paren [TId "PExpr"]]; TKw "pub";
   TKw "type"; TId "PExpr"; TPunct "="%char false; TId "Box"; TPunct "<"%char false; TId "Expr"; TPunct ">"%char true; TPunct ";"%char false; TKw "fn";
   TId "id"; TGroup Paren [TId "e"; TPunct ":"%char false; TId "PExpr"]; TPunct "-"%char true; TPunct ">"%char false; TId "PExpr";
   TGroup Brace [TId "e"]; TKw "fn"; TId "make_integer"; TGroup Paren [TId "raw_number"; TPunct ":"%char false; TId "Vec"; TPunct "<"%char false;
   TId "char"; TPunct ">"%char false]; TPunct "-"%char true; TPunct ">"%char false; TId "PExpr"; TGroup Brace [TKw "match"; TId "u64";
   TPunct ":"%char true; TPunct ":"%char false; TId "from_str"; TGroup Paren [TPunct "&"%char true; TPunct "*"%char false; TId "to_string";
   TGroup Paren [TId "raw_number"]]; TPunct "."%char false; TId "ok"; TGroup Paren []; TGroup Brace [TId "Some"; TGroup Paren [TId "x"];
   TPunct "="%char true; TPunct ">"%char false; TId "Box"; TPunct ":"%char true; TPunct ":"%char false; TId "new"; TGroup Paren [TId "Expr";
   TPunct ":"%char true; TPunct ":"%char false; TId "Number"; TGroup Paren [TId "x"]]; TPunct ","%char false; TId "None"; TPunct "="%char true;
   TPunct ">"%char false; TId "panic"; TPunct "!"%char false; TGroup Paren [TStr [105; 110; 116; 32; 108; 105; 116; 101; 114; 97; 108; 32; 105; 115; 32;
   116; 111; 111; 32; 108; 97; 114; 103; 101]%N]]]; TKw "fn"; TId "to_string"; TGroup Paren [TId "raw_text"; TPunct ":"%char false; TId "Vec";
   TPunct "<"%char false; TId "char"; TPunct ">"%char false]; TPunct "-"%char true; TPunct ">"%char false; TId "String"; TGroup Brace [TId "raw_text";
   TPunct "."%char false; TId "into_iter"; TGroup Paren []; TPunct "."%char false; TId "collect"; TGroup Paren []]; TKw "fn"; TId "make_neg_expr";
   TGroup Paren [TId "expr"; TPunct ":"%char false; TId "PExpr"]; TPunct "-"%char true; TPunct ">"%char false; TId "PExpr"; TGroup Brace [TId "Box";
   TPunct ":"%char true; TPunct ":"%char false; TId "new"; TGroup Paren [TId "Expr"; TPunct ":"%char true; TPunct ":"%char false; TId "NegExpr";
   TGroup Paren [TId "expr"]]]].

(** tests/grammars/stream_span.rs *)
Definition stream_span_rs : list tok :=
  [TKw "type"; TId "Stream"; TPunct "<"%char false; TOther "'a"; TPunct ">"%char false; TPunct "="%char false; TId "StrStream"; TPunct "<"%char false;
   TOther "'a"; TPunct ">"%char true; TPunct ";"%char false; TId "expr"; TPunct "="%char false; TPunct "."%char true; TPunct "."%char false;
   TId "span_a"; TPunct "."%char false; TGroup Paren [TPunct "."%char true; TPunct "."%char false; TPunct "."%char false]; TStr [98]%N;
   TPunct ">"%char false; TId "make_expr"; TId "expr2"; TPunct "="%char false; TPunct "."%char true; TPunct "."%char false; TId "span_a";
   TPunct "."%char false; TId "inner_expr"; TStr [98]%N; TPunct ">"%char false; TId "make_expr"; TId "inner_expr"; TPunct "="%char false;
   TGroup Paren [TPunct "."%char true; TPunct "."%char false; TGroup Paren [TPunct "."%char true; TPunct "/"%char true; TPunct "."%char false]];
   TId "span_a"; TPunct "="%char false; TPunct "."%char true; TPunct "."%char false; TStr [97]%N; TId "expr3"; TPunct "="%char false;
   TPunct "."%char true; TPunct "."%char false; TGroup Paren [TStr [97]%N; TPunct "/"%char false; TStr [98]%N]; TStr [99]%N; TKw "pub"; TKw "struct";
   TId "Expr"; TGroup Brace [TKw "pub"; TId "full_sp"; TPunct ":"%char false; TId "Span"; TPunct ","%char false; TKw "pub"; TId "span_a";
   TPunct ":"%char false; TId "Span"; TPunct ","%char false; TKw "pub"; TId "c2"; TPunct ":"%char false; TId "char"; TPunct ","%char false; TKw "pub";
   TId "c3_sp"; TPunct ":"%char false; TId "Span"; TPunct ","%char false; TKw "pub"; TId "c3"; TPunct ":"%char false; TId "char"]; TKw "fn";
   TId "make_expr"; TGroup Paren [TId "full_sp"; TPunct ":"%char false; TId "Span"; TPunct ","%char false; TId "span_a"; TPunct ":"%char false;
   TId "Span"; TPunct ","%char false; TId "c2"; TPunct ":"%char false; TId "char"; TPunct ","%char false; TId "c3_sp"; TPunct ":"%char false;
   TId "Span"; TPunct ","%char false; TId "c3"; TPunct ":"%char false; TId "char"]; TPunct "-"%char true; TPunct ">"%char false; TId "Expr";
   TGroup Brace [TId "Expr"; TGroup Brace [TId "full_sp"; TPunct ":"%char false; TId "full_sp"; TPunct ","%char false; TId "span_a";
   TPunct ":"%char false; TId "span_a"; TPunct ","%char false; TId "c2"; TPunct ":"%char false; TId "c2"; TPunct ","%char false; TId "c3_sp";
   TPunct ":"%char false; TId "c3_sp"; TPunct ","%char false; TId "c3"; TPunct ":"%char false; TId "c3"]]].

(** tests/grammars/type_name.rs *)
Definition type_name_rs : list tok :=
  [TId "lparen"; TPunct "="%char false; TStr [40]%N; TId "spacing"; TId "type_name"; TPunct "="%char false; TId "auto_infer_kw"; TPunct "&"%char false;
   TGroup Paren [TId "lparen"; TPunct "/"%char false; TId "not_eof"; TPunct "/"%char false; TId "comma"]; TPunct "/"%char false; TId "ident";
   TId "type_names"; TPunct "="%char false; TId "spacing"; TId "type_name"; TGroup Paren [TId "lparen"; TId "type_names"; TGroup Paren [TId "comma";
   TId "type_names"]; TPunct "*"%char false; TId "rparen"]; TPunct "?"%char false; TId "spacing"; TPunct "="%char false; TGroup Bracket [TStr [32; 10;
   9]%N]; TPunct "*"%char true; TPunct ":"%char false; TGroup Paren [TPunct "^"%char false]; TId "ident"; TPunct "="%char false;
   TGroup Paren [TPunct "!"%char false; TGroup Bracket [TStr [48; 45; 57]%N]; TGroup Bracket [TStr [97; 45; 122; 65; 45; 90; 48; 45; 57; 95]%N];
   TPunct "+"%char false; TId "spacing"]; TPunct ":"%char false; TGroup Paren [TPunct "^"%char false]; TId "auto_infer_kw"; TPunct "="%char false;
   TStr [95]%N; TId "spacing"; TId "rparen"; TPunct "="%char false; TStr [41]%N; TId "spacing"; TId "not_eof"; TPunct "="%char false;
   TPunct "!"%char true; TPunct "."%char false; TId "comma"; TPunct "="%char false; TStr [44]%N; TId "spacing"].

(** tests/grammars/typing.rs *)
Definition typing_rs : list tok :=
  [TId "ra"; TPunct "="%char false; TStr [97]%N; TId "ra"; TPunct "/"%char false; TStr [98]%N; TPunct "."%char false; TId "rd"; TPunct "="%char false;
   TStr [97]%N; TId "rd"; TId "re"; TPunct "="%char false; TPunct "."%char false; TId "re"; TId "factor"; TPunct ":"%char false; TId "Expr";
   TPunct "="%char false; TId "number"; TPunct ">"%char false; TId "Expr"; TPunct ":"%char true; TPunct ":"%char false; TId "Number";
   TPunct "/"%char false; TId "identifier"; TPunct ">"%char false; TId "Expr"; TPunct ":"%char true; TPunct ":"%char false; TId "Variable";
   TPunct "/"%char false; TId "lparen"; TId "factor"; TId "rparen"; TId "lparen"; TPunct "="%char false; TStr [40]%N; TId "rparen";
   TPunct "="%char false; TStr [41]%N; TId "number"; TPunct "="%char false; TGroup Bracket [TStr [48; 45; 57]%N]; TPunct "+"%char false;
   TId "identifier"; TPunct "="%char false; TGroup Bracket [TStr [97; 45; 122]%N]; TPunct "+"%char false; TKw "pub"; TKw "enum"; TId "Expr";
   TGroup Brace [TId "Number"; TGroup Paren [TId "Vec"; TPunct "<"%char false; TId "char"; TPunct ">"%char false]; TPunct ","%char false;
   TId "Variable"; TGroup Paren [TId "Vec"; TPunct "<"%char false; TId "char"; TPunct ">"%char false]]; TId "rule1"; TPunct "="%char false; TStr [97]%N;
   TPunct ">"%char false; TId "test2"; TKw "type"; TId "MyUnit"; TPunct "="%char false; TGroup Paren []; TPunct ";"%char false; TKw "fn"; TId "test2";
   TGroup Paren []; TPunct "-"%char true; TPunct ">"%char false; TId "MyUnit"; TGroup Brace []; TKw "fn"; TId "test3"; TGroup Paren [];
   TPunct "-"%char true; TPunct ">"%char false; TGroup Paren []; TGroup Brace []; TKw "fn"; TId "test4"; TGroup Paren []; TGroup Brace []; TId "rule4";
   TPunct "="%char false; TStr [34; 102; 111; 111; 34]%N; TId "rule5"; TPunct "="%char false; TStr [102; 111; 111; 32; 35; 34; 35; 32; 98; 97; 114]%N].

(** tests/grammars/unreachable_rule.rs *)
Definition unreachable_rule_rs : list tok :=
  [TId "test2"; TPunct "="%char false; TStr [97; 98]%N; TPunct "/"%char false; TStr [97]%N].

(** tests/grammars/useless_chaining.rs *)
Definition useless_chaining_rs : list tok :=
  [TId "test9"; TPunct "="%char false; TPunct "!"%char false; TStr [97]%N].

(** tests/grammars/well_formedness.rs *)
Definition well_formedness_rs : list tok :=
  [TId "b"; TPunct "="%char false; TStr [97]%N; TId "b"; TStr [98]%N; TPunct "/"%char false; TStr [98]%N; TId "b"; TId "g"; TPunct "="%char false;
   TPunct "."%char false; TPunct "/"%char false; TPunct "!"%char false; TId "g1"; TPunct "."%char false; TId "g1"; TPunct "="%char false;
   TPunct "."%char false; TPunct "/"%char false; TStr [97]%N; TPunct "?"%char false; TId "g2"; TPunct "/"%char false; TStr [99]%N;
   TPunct "."%char false; TId "g2"; TPunct "="%char false; TStr [98]%N; TPunct "+"%char false; TId "g"; TId "h"; TPunct "="%char false;
   TPunct "."%char false; TPunct "/"%char false; TGroup Paren [TStr [97]%N; TStr [98]%N]; TPunct "+"%char false; TPunct "!"%char false; TId "h1";
   TPunct "."%char false; TId "h1"; TPunct "="%char false; TPunct "."%char false; TPunct "/"%char false; TStr [97]%N; TPunct "?"%char false; TId "h";
   TPunct "/"%char false; TStr [99]%N; TPunct "."%char false; TId "s"; TPunct "="%char false; TPunct "&"%char false; TGroup Bracket [TStr [97; 45;
   122]%N]; TStr [97]%N; TPunct "/"%char false; TStr [65]%N; TPunct "+"%char false; TId "s2"; TPunct "="%char false; TId "s"; TPunct "*"%char false;
   TId "w1"; TPunct "="%char false; TPunct "&"%char false; TGroup Paren [TStr [120]%N; TPunct "+"%char false]; TId "w4"; TPunct "="%char false;
   TPunct "!"%char false; TGroup Paren [TStr [120]%N; TPunct "+"%char false]].

Definition ntcc_data : list (expectation * list N) :=
  [ (Match, [97; 115; 121; 110; 99; 32; 112; 97; 114; 10; 124; 124; 32; 97; 115; 121; 110; 99; 32; 10; 32; 32; 32; 32; 112; 105; 99; 107; 32; 10; 32; 32; 32; 32; 124; 32; 119; 104; 101; 110; 32; 115; 116; 111; 114; 101; 32; 124; 61; 32; 120; 32; 62; 32; 57; 32; 45; 62; 32; 115; 107; 105; 112; 10; 32; 32; 32; 32; 101; 110; 100; 10; 124; 124; 32; 97; 115; 121; 110; 99; 32; 115; 107; 105; 112; 10; 124; 124; 32; 115; 107; 105; 112]%N);
    (Match, [112; 105; 99; 107; 10; 124; 32; 119; 104; 101; 110; 32; 115; 116; 111; 114; 101; 32; 124; 61; 32; 120; 32; 62; 32; 121; 32; 45; 62; 32; 115; 107; 105; 112; 10; 124; 32; 119; 104; 101; 110; 32; 115; 116; 111; 114; 101; 32; 124; 61; 32; 120; 32; 60; 61; 32; 121; 32; 45; 62; 32; 115; 107; 105; 112; 10; 124; 32; 119; 104; 101; 110; 32; 115; 116; 111; 114; 101; 32; 124; 61; 32; 120; 32; 60; 32; 121; 32; 45; 62; 32; 115; 107; 105; 112; 10; 124; 32; 119; 104; 101; 110; 32; 115; 116; 111; 114; 101; 32; 124; 61; 32; 120; 32; 62; 61; 32; 121; 32; 45; 62; 32; 115; 107; 105; 112; 10; 124; 32; 119; 104; 101; 110; 32; 115; 116; 111; 114; 101; 32; 124; 61; 32; 120; 32; 60; 62; 32; 121; 32; 45; 62; 32; 115; 107; 105; 112; 10; 124; 32; 119; 104; 101; 110; 32; 115; 116; 111; 114; 101; 32; 124; 61; 32; 120; 32; 61; 61; 32; 121; 32; 45; 62; 32; 115; 107; 105; 112]%N);
    (Match, [112; 105; 99; 107; 10; 124; 32; 119; 104; 101; 110; 32; 115; 116; 111; 114; 101; 32; 124; 61; 32; 97; 48; 32; 62; 32; 97; 95; 48; 32; 45; 62; 32; 115; 107; 105; 112; 10; 124; 32; 119; 104; 101; 110; 32; 115; 116; 111; 114; 101; 32; 124; 61; 32; 95; 48; 32; 62; 32; 48; 32; 45; 62; 32; 115; 107; 105; 112; 10; 124; 32; 119; 104; 101; 110; 32; 115; 116; 111; 114; 101; 32; 124; 61; 32; 118; 97; 114; 32; 62; 32; 118; 97; 114; 50; 32; 45; 62; 32; 115; 107; 105; 112; 10; 124; 32; 119; 104; 101; 110; 32; 115; 116; 111; 114; 101; 32; 124; 61; 32; 109; 121; 118; 97; 114; 95; 95; 32; 62; 32; 95; 95; 109; 121; 95; 118; 97; 114; 32; 45; 62; 32; 115; 107; 105; 112]%N);
    (Match, [108; 101; 116; 32; 120; 32; 61; 32; 48; 46; 46; 49; 48; 32; 105; 110; 10; 108; 101; 116; 32; 121; 32; 61; 32; 109; 105; 110; 32; 120; 46; 46; 49; 54; 32; 105; 110; 10; 112; 105; 99; 107; 10; 124; 32; 119; 104; 101; 110; 32; 115; 116; 111; 114; 101; 32; 124; 61; 32; 56; 32; 62; 32; 57; 32; 45; 62; 32; 115; 107; 105; 112; 10; 124; 32; 119; 104; 101; 110; 32; 115; 116; 111; 114; 101; 32; 124; 61; 32; 120; 32; 60; 61; 32; 121; 32; 45; 62; 32; 115; 107; 105; 112]%N);
    (Match, [112; 97; 114; 10; 124; 124; 32; 112; 97; 114; 32; 115; 107; 105; 112; 32; 124; 124; 32; 115; 107; 105; 112; 32; 101; 110; 100; 10; 124; 124; 32; 115; 107; 105; 112; 10]%N);
    (Match, [112; 105; 99; 107; 10; 124; 32; 119; 104; 101; 110; 32; 115; 116; 111; 114; 101; 32; 124; 61; 32; 56; 32; 62; 32; 57; 32; 45; 62; 10; 32; 32; 32; 32; 112; 105; 99; 107; 10; 32; 32; 32; 32; 124; 32; 119; 104; 101; 110; 32; 115; 116; 111; 114; 101; 32; 124; 61; 32; 120; 32; 60; 61; 32; 121; 32; 45; 62; 32; 115; 107; 105; 112; 10; 32; 32; 32; 32; 124; 32; 119; 104; 101; 110; 32; 115; 116; 111; 114; 101; 32; 124; 61; 32; 105; 100; 32; 62; 32; 111; 117; 112; 115; 32; 45; 62; 32; 115; 107; 105; 112]%N);
    (Match, [112; 105; 99; 107; 10; 124; 32; 119; 104; 101; 110; 32; 115; 116; 111; 114; 101; 32; 124; 61; 32; 56; 32; 62; 32; 57; 32; 45; 62; 10; 32; 32; 112; 105; 99; 107; 10; 32; 32; 124; 32; 119; 104; 101; 110; 32; 115; 116; 111; 114; 101; 32; 124; 61; 32; 120; 32; 60; 61; 32; 121; 32; 45; 62; 10; 32; 32; 32; 32; 112; 105; 99; 107; 10; 32; 32; 32; 32; 32; 32; 119; 104; 101; 110; 32; 115; 116; 111; 114; 101; 32; 124; 61; 32; 120; 32; 62; 32; 121; 32; 45; 62; 32; 115; 107; 105; 112; 10; 32; 32; 32; 32; 124; 32; 119; 104; 101; 110; 32; 115; 116; 111; 114; 101; 32; 124; 61; 32; 120; 32; 60; 32; 121; 32; 45; 62; 32; 115; 107; 105; 112; 10; 32; 32; 32; 32; 101; 110; 100; 10; 32; 32; 124; 32; 119; 104; 101; 110; 32; 115; 116; 111; 114; 101; 32; 124; 61; 32; 48; 32; 62; 32; 48; 32; 45; 62; 32; 115; 107; 105; 112; 10; 32; 32; 101; 110; 100; 10; 124; 32; 119; 104; 101; 110; 32; 115; 116; 111; 114; 101; 32; 124; 61; 32; 105; 100; 32; 62; 32; 111; 117; 112; 115; 32; 45; 62; 32; 115; 107; 105; 112]%N);
    (Match, [110; 101; 120; 116; 32; 112; 97; 114; 10; 124; 124; 32; 110; 101; 120; 116; 32; 112; 97; 114; 32; 124; 124; 32; 115; 107; 105; 112; 32; 124; 124; 32; 115; 116; 111; 114; 101; 32; 60; 45; 32; 120; 32; 62; 32; 57; 32; 101; 110; 100; 10; 124; 124; 32; 115; 107; 105; 112]%N);
    (Match, [112; 105; 99; 107; 10; 124; 32; 119; 104; 101; 110; 32; 115; 116; 111; 114; 101; 32; 124; 61; 32; 56; 32; 62; 32; 57; 32; 45; 62; 10; 32; 32; 112; 97; 114; 10; 32; 32; 124; 124; 32; 112; 105; 99; 107; 32; 10; 32; 32; 32; 32; 32; 124; 32; 119; 104; 101; 110; 32; 115; 116; 111; 114; 101; 32; 124; 61; 32; 120; 32; 60; 61; 32; 121; 32; 45; 62; 32; 115; 107; 105; 112; 10; 32; 32; 124; 124; 32; 115; 107; 105; 112; 10; 124; 32; 119; 104; 101; 110; 32; 115; 116; 111; 114; 101; 32; 124; 61; 32; 105; 100; 32; 62; 32; 111; 117; 112; 115; 32; 45; 62; 32; 115; 107; 105; 112]%N);
    (Match, [108; 101; 116; 32; 120; 32; 61; 32; 48; 46; 46; 49; 48; 32; 105; 110; 10; 108; 101; 116; 32; 121; 32; 61; 32; 109; 105; 110; 32; 120; 32; 46; 46; 32; 109; 97; 120; 32; 120; 32; 105; 110; 10; 108; 101; 116; 32; 122; 32; 61; 32; 100; 111; 109; 32; 121; 32; 105; 110; 10; 108; 101; 116; 32; 120; 32; 61; 32; 48; 46; 46; 109; 105; 110; 32; 120; 32; 105; 110; 10; 108; 101; 116; 32; 121; 32; 61; 32; 109; 97; 120; 32; 121; 32; 46; 46; 32; 51; 57; 57; 32; 105; 110; 10; 115; 107; 105; 112]%N);
    (Match, [114; 101; 112; 32; 97; 115; 121; 110; 99; 32; 110; 101; 120; 116; 32; 112; 97; 114; 10; 124; 124; 32; 97; 115; 121; 110; 99; 32; 10; 32; 32; 32; 32; 114; 101; 112; 32; 112; 105; 99; 107; 32; 10; 32; 32; 32; 32; 124; 32; 119; 104; 101; 110; 32; 115; 116; 111; 114; 101; 32; 124; 61; 32; 120; 32; 62; 32; 57; 32; 45; 62; 32; 115; 107; 105; 112; 10; 32; 32; 32; 32; 101; 110; 100; 10; 124; 124; 32; 97; 115; 121; 110; 99; 32; 115; 107; 105; 112; 10; 124; 124; 32; 115; 107; 105; 112]%N);
    (Match, [115; 107; 105; 112]%N);
    (Match, [112; 105; 99; 107; 10; 124; 32; 119; 104; 101; 110; 32; 115; 116; 111; 114; 101; 32; 124; 61; 32; 56; 32; 62; 32; 57; 32; 45; 62; 32; 115; 107; 105; 112; 10; 124; 32; 119; 104; 101; 110; 32; 115; 116; 111; 114; 101; 32; 124; 61; 32; 120; 32; 60; 61; 32; 121; 32; 45; 62; 32; 115; 107; 105; 112]%N);
    (Match, [108; 101; 116; 32; 120; 32; 61; 32; 48; 46; 46; 49; 48; 32; 105; 110; 10; 112; 97; 114; 10; 124; 124; 32; 115; 116; 111; 114; 101; 32; 60; 45; 32; 120; 32; 62; 32; 53; 10; 124; 124; 32; 115; 116; 111; 114; 101; 32; 60; 45; 32; 120; 32; 61; 61; 32; 56; 10]%N);
    (Match, [117; 110; 108; 101; 115; 115; 32; 120; 32; 62; 32; 56; 32; 124; 61; 32; 115; 116; 111; 114; 101; 32; 110; 101; 120; 116; 10; 112; 97; 114; 32; 124; 124; 32; 115; 107; 105; 112; 32; 124; 124; 32; 115; 107; 105; 112]%N);
    (PartialMatch, [112; 97; 114; 32; 115; 107; 105; 112; 32; 124; 124; 32; 112; 105; 99; 107; 32; 101; 110; 100]%N);
    (Error, [108; 101; 116; 32; 120; 32; 61; 32; 48; 32; 105; 110; 10; 115; 107; 105; 112]%N);
    (Error, [108; 101; 116; 32; 120; 32; 61; 32; 121; 32; 105; 110; 10; 115; 107; 105; 112]%N);
    (Error, [112; 105; 99; 107; 10; 124; 32; 119; 104; 101; 110; 32; 115; 116; 111; 114; 101; 32; 124; 61; 32; 48; 97; 32; 62; 32; 48; 32; 45; 62; 32; 115; 107; 105; 112]%N);
    (Error, [112; 105; 99; 107; 10; 124; 32; 119; 104; 101; 110; 32; 115; 116; 111; 114; 101; 32; 124; 61; 32; 120; 32; 62; 32; 57; 32; 45; 62; 32; 112; 97; 114; 32; 101; 110; 100; 10; 124; 32; 115; 107; 105; 112]%N);
    (Error, [112; 105; 99; 107; 10; 124; 32; 119; 104; 101; 110; 32; 115; 116; 111; 114; 101; 32; 124; 61; 32; 56; 46; 48; 32; 62; 32; 57; 46; 48; 32; 45; 62; 32; 115; 107; 105; 112]%N);
    (Error, [112; 105; 99; 107; 10; 124; 124; 32; 119; 104; 101; 110; 32; 115; 116; 111; 114; 101; 32; 124; 61; 32; 56; 32; 62; 32; 57; 32; 45; 62; 32; 115; 107; 105; 112]%N);
    (Error, [112; 105; 99; 107; 10; 124; 32; 119; 104; 101; 110; 32; 115; 116; 111; 114; 101; 32; 124; 61; 32; 56; 32; 62; 62; 32; 57; 32; 45; 62; 32; 115; 107; 105; 112]%N) ].

Definition type_name_data : list (expectation * list N) :=
  [ (Match, [95]%N);
    (Match, [95; 40; 80; 108; 117; 115; 44; 32; 77; 105; 110; 117; 115; 41]%N);
    (Match, [72; 101; 97; 100; 40; 72; 101; 97; 100; 50; 40; 95; 44; 87; 111; 112; 40; 95; 41; 41; 44; 32; 72; 101; 97; 100; 51; 40; 95; 41; 44; 32; 95; 44; 32; 72; 101; 97; 100; 41]%N);
    (Match, [79; 112; 101; 114; 97; 116; 111; 114; 40; 83; 117; 109; 44; 32; 80; 108; 117; 115; 44; 32; 77; 105; 110; 117; 115; 44; 32; 68; 105; 118; 41]%N);
    (Match, [79; 112; 101; 114; 97; 116; 111; 114]%N);
    (PartialMatch, [87; 114; 111; 110; 103; 40; 41]%N);
    (PartialMatch, [87; 114; 111; 110; 103; 40; 119; 114; 111; 110; 103; 49; 32; 119; 114; 111; 110; 103; 50; 41]%N);
    (Error, []%N);
    (Error, [40; 41]%N) ].

Definition calc_data : list (expectation * list N) :=
  [ (Match, [56; 43; 56; 42; 48; 42; 54; 43; 56]%N);
    (Match, [56; 43; 57; 43; 49; 48]%N);
    (Match, [10; 10; 10; 10; 108; 101; 116; 32; 120; 32; 61; 10; 32; 32; 108; 101; 116; 32; 121; 32; 61; 32; 49; 32; 42; 32; 51; 32; 105; 110; 32; 121; 32; 47; 32; 49; 48; 32; 105; 110; 10; 108; 101; 116; 32; 122; 32; 61; 32; 50; 48; 32; 105; 110; 10; 120; 32; 42; 32; 122; 10; 10; 10; 10]%N);
    (Match, [108; 101; 116; 105; 32; 47; 32; 50; 32; 43; 32; 108; 101; 116; 32; 108; 101; 116; 97; 32; 61; 32; 50; 32; 105; 110; 32; 108; 101; 116; 97]%N);
    (PartialMatch, [118; 97; 114; 32; 43; 32; 49; 107]%N);
    (PartialMatch, [108; 101; 116; 105; 32; 61; 32; 50; 32; 105; 110; 32; 105]%N);
    (PartialMatch, [48; 32; 43; 32; 57; 32; 48]%N);
    (PartialMatch, [40; 40; 97; 41; 41; 41]%N);
    (Error, [108; 101; 116; 32; 49; 120; 32; 61; 32; 52; 32; 105; 110; 32; 49; 120]%N);
    (Error, [108; 101; 116; 32; 108; 101; 116; 32; 61; 32; 51; 32; 105; 110; 32; 108; 101; 116]%N);
    (Error, [45; 56]%N);
    (Error, [40; 40; 40; 97; 41; 41]%N) ].

Definition calc2_data : list (expectation * list N) :=
  [ (Match, [56; 43; 56; 42; 48; 42; 54; 43; 56]%N);
    (Match, [56; 43; 57; 43; 49; 48]%N);
    (Match, [10; 10; 10; 10; 108; 101; 116; 32; 120; 32; 61; 10; 32; 32; 108; 101; 116; 32; 121; 32; 61; 32; 49; 32; 42; 32; 51; 32; 105; 110; 32; 121; 32; 47; 32; 49; 48; 32; 105; 110; 10; 108; 101; 116; 32; 122; 32; 61; 32; 50; 48; 32; 105; 110; 10; 120; 32; 42; 32; 122; 10; 10; 10; 10]%N);
    (Match, [108; 101; 116; 105; 32; 47; 32; 50; 32; 43; 32; 108; 101; 116; 32; 108; 101; 116; 97; 32; 61; 32; 50; 32; 105; 110; 32; 108; 101; 116; 97]%N);
    (PartialMatch, [118; 97; 114; 32; 43; 32; 49; 107]%N);
    (PartialMatch, [108; 101; 116; 105; 32; 61; 32; 50; 32; 105; 110; 32; 105]%N);
    (PartialMatch, [48; 32; 43; 32; 57; 32; 48]%N);
    (PartialMatch, [40; 40; 97; 41; 41; 41]%N);
    (Error, [108; 101; 116; 32; 49; 120; 32; 61; 32; 52; 32; 105; 110; 32; 49; 120]%N);
    (Error, [108; 101; 116; 32; 108; 101; 116; 32; 61; 32; 51; 32; 105; 110; 32; 108; 101; 116]%N);
    (Error, [45; 56]%N);
    (Error, [40; 40; 40; 97; 41; 41]%N) ].

Definition calc3_data : list (expectation * list N) :=
  [ (Match, [56; 43; 56; 42; 48; 42; 54; 43; 56]%N);
    (Match, [56; 43; 57; 43; 49; 48]%N);
    (Match, [10; 10; 10; 10; 108; 101; 116; 32; 120; 32; 61; 10; 32; 32; 108; 101; 116; 32; 121; 32; 61; 32; 49; 32; 42; 32; 51; 32; 105; 110; 32; 121; 32; 47; 32; 49; 48; 32; 105; 110; 10; 108; 101; 116; 32; 122; 32; 61; 32; 50; 48; 32; 105; 110; 10; 120; 32; 42; 32; 122; 10; 10; 10; 10]%N);
    (Match, [108; 101; 116; 105; 32; 47; 32; 50; 32; 43; 32; 108; 101; 116; 32; 108; 101; 116; 97; 32; 61; 32; 50; 32; 105; 110; 32; 108; 101; 116; 97]%N);
    (PartialMatch, [118; 97; 114; 32; 43; 32; 49; 107]%N);
    (PartialMatch, [108; 101; 116; 105; 32; 61; 32; 50; 32; 105; 110; 32; 105]%N);
    (PartialMatch, [48; 32; 43; 32; 57; 32; 48]%N);
    (PartialMatch, [40; 40; 97; 41; 41; 41]%N);
    (Error, [108; 101; 116; 32; 49; 120; 32; 61; 32; 52; 32; 105; 110; 32; 49; 120]%N);
    (Error, [108; 101; 116; 32; 108; 101; 116; 32; 61; 32; 51; 32; 105; 110; 32; 108; 101; 116]%N);
    (Error, [45; 56]%N);
    (Error, [40; 40; 40; 97; 41; 41]%N) ].

Definition str_literal_data : list (expectation * list N) :=
  [ (Match, [114; 101; 116; 117; 114; 110]%N);
    (PartialMatch, [114; 101; 116; 117; 114; 110; 32; 120; 59]%N);
    (PartialMatch, [114; 101; 116; 117; 114; 110; 110]%N);
    (Error, [114; 101; 116; 117; 114]%N);
    (Error, []%N);
    (Error, [114; 101; 116; 117; 114; 109]%N);
    (Error, [118; 101; 114; 116; 117; 114; 110]%N) ].

Definition sequence_data : list (expectation * list N) :=
  [ (Match, [105; 102; 32; 116; 104; 101; 110; 32; 101; 108; 115; 101]%N);
    (PartialMatch, [105; 102; 32; 116; 104; 101; 110; 32; 101; 108; 115; 101; 32; 120]%N);
    (PartialMatch, [105; 102; 32; 116; 104; 101; 110; 32; 101; 108; 115; 101; 101]%N);
    (Error, [105]%N);
    (Error, []%N);
    (Error, [105; 102; 116; 104; 101; 110; 101; 108; 115; 101]%N);
    (Error, [105; 102; 32; 32; 116; 104; 101; 110; 32; 101; 108; 115; 101]%N);
    (Error, [105; 102; 32; 116; 104; 101; 110]%N);
    (Error, [105; 102; 32; 116; 104]%N);
    (Error, [105; 102]%N) ].

Definition any_single_char_data : list (expectation * list N) :=
  [ (Match, [46; 46]%N);
    (Match, [97; 98]%N);
    (Match, [32; 97]%N);
    (PartialMatch, [97; 98; 99]%N);
    (Error, []%N) ].

Definition choice_data : list (expectation * list N) :=
  [ (Match, [105; 102; 32; 101; 108; 115; 101; 33]%N);
    (Match, [108; 101; 116; 32; 120]%N);
    (Match, [105; 102; 32; 120; 32; 101; 108; 115; 101; 32; 45; 121]%N);
    (Match, [105; 102; 32; 45; 120; 32; 101; 108; 115; 101; 32; 43; 121]%N);
    (Match, [105; 102; 32; 45; 120; 32; 101; 108; 115; 101; 32; 45; 121]%N);
    (Match, [105; 102; 32; 120; 32; 101; 108; 115; 101; 32; 43; 121]%N);
    (PartialMatch, [105; 102; 32; 101; 108; 115; 101; 32; 120; 59]%N);
    (PartialMatch, [108; 101; 116; 32; 120; 32; 61; 32; 52; 59]%N);
    (PartialMatch, [105; 102; 32; 120; 32; 101; 108; 115; 101; 32; 43; 121; 59]%N);
    (Error, []%N);
    (Error, [101; 108; 115; 101; 32; 120; 32; 120]%N);
    (Error, [105; 102; 32; 101; 108; 115; 101]%N);
    (Error, [108; 101; 116]%N);
    (Error, [105; 102; 32; 120; 32; 101; 108; 115; 101; 32; 121]%N);
    (Error, [105; 102; 32; 120; 32; 101; 108; 115; 101; 32; 101]%N) ].

Definition repeat_data : list (expectation * list N) :=
  [ (Match, [97; 122]%N);
    (Match, [97; 122; 99]%N);
    (Match, [97; 122; 99; 99; 99]%N);
    (Match, [98; 98; 97]%N);
    (Match, [98; 122]%N);
    (Match, [98; 122; 99]%N);
    (Match, [97; 122; 98; 98; 122; 99]%N);
    (Match, [97; 122; 97; 122; 98; 122; 98; 98; 122; 97; 98; 99]%N);
    (PartialMatch, [97]%N);
    (PartialMatch, [98; 98; 98]%N);
    (PartialMatch, [98; 98; 122; 97]%N);
    (PartialMatch, [98; 98; 97; 97]%N);
    (PartialMatch, [98; 98; 97; 100]%N);
    (PartialMatch, [122]%N) ].

Definition syntactic_predicate_data : list (expectation * list N) :=
  [ (Match, [97; 97]%N);
    (Match, [97; 99; 99; 99]%N);
    (Match, [98; 98]%N);
    (Match, [98; 99; 99; 99]%N);
    (Match, [97]%N);
    (Match, [98]%N);
    (PartialMatch, [97; 97; 97; 98]%N);
    (PartialMatch, [97; 97; 98; 98]%N);
    (PartialMatch, [98; 98; 98; 97]%N);
    (PartialMatch, [98; 98; 97; 97]%N);
    (PartialMatch, [97; 98]%N);
    (PartialMatch, [98; 97]%N);
    (Error, [99]%N);
    (Error, [100; 100]%N) ].

Definition optional_data : list (expectation * list N) :=
  [ (Match, [98; 122]%N);
    (Match, [97; 98; 122]%N);
    (Match, [98; 99; 99; 122]%N);
    (Match, [98; 100; 100; 122]%N);
    (Match, [97; 98; 99; 99; 122]%N);
    (PartialMatch, [97; 98; 99; 99; 122; 122]%N);
    (PartialMatch, [98; 122; 122]%N);
    (PartialMatch, [98; 99; 122; 122; 122]%N);
    (Error, [99]%N);
    (Error, [98]%N);
    (Error, [97]%N);
    (Error, [97; 98]%N);
    (Error, [97; 98; 99]%N);
    (Error, [97; 98; 100]%N);
    (Error, [97; 98; 99; 100; 100]%N);
    (Error, [98; 99; 122]%N) ].

Definition char_class_data : list (expectation * list N) :=
  [ (Match, [97; 98; 99; 32; 45]%N);
    (Match, [97; 9; 45]%N);
    (Match, [97; 45]%N);
    (Match, [97; 95; 49; 50; 32; 45]%N);
    (PartialMatch, [97; 45; 45]%N);
    (PartialMatch, [97; 45; 32; 45; 45]%N);
    (PartialMatch, [97; 32; 45; 45]%N);
    (Error, []%N);
    (Error, [45]%N);
    (Error, [97; 32; 97]%N);
    (Error, [97; 51]%N);
    (Error, [97; 32]%N) ].

Definition non_terminal_data : list (expectation * list N) :=
  [ (Match, [97; 99; 99; 120; 100]%N);
    (Match, [97; 98; 98; 120; 120; 100]%N);
    (Match, [97; 98; 98; 99; 99; 120; 100]%N);
    (Match, [97; 98; 98; 120; 120; 100]%N);
    (Match, [97; 98; 98; 120; 120; 98; 98; 120; 120; 100]%N);
    (PartialMatch, [97; 98; 98; 120; 120; 100; 100]%N);
    (PartialMatch, [97; 99; 99; 120; 100; 100]%N);
    (Error, []%N);
    (Error, [98]%N);
    (Error, [97; 97]%N);
    (Error, [97; 98; 98]%N);
    (Error, [97; 99; 99]%N);
    (Error, [97; 98; 98; 100]%N);
    (Error, [97; 98; 98; 120; 120]%N) ].

