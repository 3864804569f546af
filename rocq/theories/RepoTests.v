(** The expectations of the repository's own unit tests (xbnf_test.go,
    charstream_test.go), replayed on the model.  Each is a bounded check on fixed
    inputs: it is evidence that the model computes what the Go code computes, not
    a proof of a property. *)
From Verif Require Import Base Stream Node Rule Parse Grammar Print.

Definition F : nat := 300%nat.
Definition parsesTo (src expect : list Z) : bool :=
  match parseText src with
  | POk r _ _ => runes_eqb (print r) expect
  | PErr _ => match expect with [] => true | _ => false end
  | PFuel => false
  end.
Definition theGrammar (txt : list Z) : grammar :=
  match newGrammarFromString txt with inl g => g | inr _ => newGrammar end.
(** [evalRule] of xbnf_test.go:110 with ExpectedText. *)
Definition evalText (g : grammar) (name sample expect : list Z) : bool :=
  match getRule g name, evalRule F g name sample with
  | Some _, Ok res =>
    match r_node res with
    | Some n => runes_eqb (text n) expect
    | None => negb (nonempty expect)
    end
  | _, _ => false
  end.
(** [testRule] of xbnf_test.go:12. *)
Definition testRule (g : grammar) (name sample expect : list Z) : bool :=
  match getRule g name, evalRule F g name sample with
  | Some _, Ok res =>
    match r_node res with
    | Some n => runes_eqb (text (removeRedundant (removeVirtual (mergeNode n)))) expect
    | None => negb (nonempty expect)
    end
  | _, _ => false
  end.
Definition nodeAfter (f : node -> node) (g : grammar) (name sample : list Z) : option node :=
  match evalRule F g name sample with
  | Ok res => option_map f (r_node res)
  | _ => None
  end.
Definition countIs (k : nat) (c : node -> nat) (n : option node) : bool :=
  match n with Some n => Nat.eqb (c n) k | None => false end.
Definition evalLevel0 (g : grammar) (sample : list Z) : option ast :=
  match evalTop F F (rules_of g) (storedOrder g) (newStream sample) 0 with
  | Ok (RawOk a, _) => Some a
  | _ => None
  end.
Definition evalFails (g : grammar) (sample : list Z) : bool :=
  match evalTop F F (rules_of g) (storedOrder g) (newStream sample) 0 with
  | Ok (RawOk _, _) => false
  | Ok _ => true
  | _ => false
  end.

(** TestGrammarparse, xbnf_test.go:137-190. *)
Example repo_1 : parsesTo (rs """0x""") (rs """0x""") = true.
Proof. vm_compute. reflexivity. Qed.
Example repo_2 : parsesTo (rs """{"" attr { ',' attr } ""}""") (rs """{"" attr { ',' attr } ""}""") = true.
Proof. vm_compute. reflexivity. Qed.
Example repo_3 : parsesTo (rs "'a' | 'b' | 'c' | 'd' | 'e' | 'f' | 'g' | 'h' | 'i' | 'j' | 'k' | 'l' | 'm' | 'n' | 'o' | 'p' | 'q' | 'r' | 's' | 't' | 'u' | 'v' | 'w' | 'x' | 'y' | 'z'") (rs "'a' | 'b' | 'c' | 'd' | 'e' | 'f' | 'g' | 'h' | 'i' | 'j' | 'k' | 'l' | 'm' | 'n' | 'o' | 'p' | 'q' | 'r' | 's' | 't' | 'u' | 'v' | 'w' | 'x' | 'y' | 'z'") = true.
Proof. vm_compute. reflexivity. Qed.
Example repo_4 : parsesTo (rs """0x"" { letter { letter | digit_dec | '_' } } end") (rs """0x"" { letter { letter | digit_dec | '_' } } end") = true.
Proof. vm_compute. reflexivity. Qed.
Example repo_5 : parsesTo (rs """0x"" digit_hex { digit_hex }") (rs """0x"" digit_hex { digit_hex }") = true.
Proof. vm_compute. reflexivity. Qed.
Example repo_6 : parsesTo (rs """0x"" { digit_hex}<2,>") (rs """0x"" { digit_hex }<2,0>") = true.
Proof. vm_compute. reflexivity. Qed.
Example repo_7 : parsesTo (rs """0x"" { digit_hex}<2,0>") (rs """0x"" { digit_hex }<2,0>") = true.
Proof. vm_compute. reflexivity. Qed.
Example repo_8 : parsesTo (rs """0x""{digit_hex}") (rs """0x"" { digit_hex }") = true.
Proof. vm_compute. reflexivity. Qed.
Example repo_9 : parsesTo (rs """0x"" { digit_hex}<4,3>") (rs "") = true.
Proof. vm_compute. reflexivity. Qed.
Example repo_10 : parsesTo (rs """now"" | ""fmt"" ""0x"" digit_hex | ""limit""") (rs """now"" | ""fmt"" ""0x"" digit_hex | ""limit""") = true.
Proof. vm_compute. reflexivity. Qed.
Example repo_11 : parsesTo (rs """now"" | ""fmt"" ""0x"" digit_hex") (rs """now"" | ""fmt"" ""0x"" digit_hex") = true.
Proof. vm_compute. reflexivity. Qed.
Example repo_12 : parsesTo (rs """0x"" digit_hex") (rs """0x"" digit_hex") = true.
Proof. vm_compute. reflexivity. Qed.
Example repo_13 : parsesTo (rs """0x"" digit_hex 'abc'") (rs """0x"" digit_hex 'abc'") = true.
Proof. vm_compute. reflexivity. Qed.
Example repo_14 : parsesTo (rs """now"" | ""fmt"" | ""limit""") (rs """now"" | ""fmt"" | ""limit""") = true.
Proof. vm_compute. reflexivity. Qed.
Example repo_15 : parsesTo (rs """True"" | ""true"" | ""False"" | ""false""") (rs """True"" | ""true"" | ""False"" | ""false""") = true.
Proof. vm_compute. reflexivity. Qed.
Example repo_16 : parsesTo (rs "string_dq | string_sq | string_ml") (rs "string_dq | string_sq | string_ml") = true.
Proof. vm_compute. reflexivity. Qed.
Example repo_17 : parsesTo (rs "term (""+"" | ""-"") expr") (rs "term ( ""+"" | ""-"" ) expr") = true.
Proof. vm_compute. reflexivity. Qed.
Example repo_18 : parsesTo (rs "[ ""-"" ] factor") (rs "[ ""-"" ] factor") = true.
Proof. vm_compute. reflexivity. Qed.
Example repo_19 : parsesTo (rs "[ ""-"" | ""+"" ] factor") (rs "[ ""-"" | ""+"" ] factor") = true.
Proof. vm_compute. reflexivity. Qed.
Example repo_20 : parsesTo (rs "[ currency ] digit_dec [ '.' {digit_dec}<2,4> ]") (rs "[ currency ] digit_dec [ '.' { digit_dec }<2,4> ]") = true.
Proof. vm_compute. reflexivity. Qed.
Example repo_21 : parsesTo (rs """0x"" { letter { letter | digit_dec | '_' }<0,4> }+ end") (rs """0x"" { letter { letter | digit_dec | '_' }<0,4> }+ end") = true.
Proof. vm_compute. reflexivity. Qed.
Example repo_22 : parsesTo (rs """0x"" { digit_hex }+") (rs """0x"" { digit_hex }+") = true.
Proof. vm_compute. reflexivity. Qed.
Example repo_23 : parsesTo (rs """0x"" { digit_hex }* abc") (rs """0x"" { digit_hex } abc") = true.
Proof. vm_compute. reflexivity. Qed.
Example repo_24 : parsesTo (rs """0x"" { digit_hex }<0,0> abc") (rs """0x"" { digit_hex } abc") = true.
Proof. vm_compute. reflexivity. Qed.
Example repo_25 : parsesTo (rs " ~""0x"" { digit_hex }<0,0> abc") (rs "~""0x"" { digit_hex } abc") = true.
Proof. vm_compute. reflexivity. Qed.
Example repo_26 : parsesTo (rs "~( \u000A|EOF)") (rs "~( \u000A | EOF )") = true.
Proof. vm_compute. reflexivity. Qed.
(** TestGrammarParseRule, xbnf_test.go:192-281. *)
Example repo_27 : parsesTo (trim (rs " < '\'' '\\' '\'' >")) (rs "<'\'' '\\' '\''>") = true.
Proof. vm_compute. reflexivity. Qed.
Example repo_28 : parsesTo (trim (rs " < '//' ( \u000A | EOF ) > ")) (rs "<'//' ( \u000A | EOF )>") = true.
Proof. vm_compute. reflexivity. Qed.
Example repo_29 : parsesTo (trim (rs " <'`' '\\' '`'> ")) (rs "<'`' '\\' '`'>") = true.
Proof. vm_compute. reflexivity. Qed.
Example repo_30 : parsesTo (trim (rs "~{ \u0020|\u0009|\u000A|\u000D}")) (rs "~{ \u0020 | \u0009 | \u000A | \u000D }") = true.
Proof. vm_compute. reflexivity. Qed.
Example repo_31 : parsesTo (trim (rs " <"""" ',' !> ")) (rs "<"""" ',' !>") = true.
Proof. vm_compute. reflexivity. Qed.
Example repo_32 : parsesTo (trim (rs "'A'-'Z'")) (rs "'A'-'Z'") = true.
Proof. vm_compute. reflexivity. Qed.
Example repo_33 : parsesTo (trim (rs " '0'-'9' ")) (rs "'0'-'9'") = true.
Proof. vm_compute. reflexivity. Qed.
Example repo_34 : parsesTo (trim (rs " '\u0041'-'Z' ")) (rs "\u0041-'Z'") = true.
Proof. vm_compute. reflexivity. Qed.
Example repo_35 : parsesTo (trim (rs " \u0041-'Z' ")) (rs "\u0041-'Z'") = true.
Proof. vm_compute. reflexivity. Qed.
Example repo_36 : parsesTo (trim (rs " 'A'-'\u005A' ")) (rs "'A'-\u005A") = true.
Proof. vm_compute. reflexivity. Qed.
Example repo_37 : parsesTo (trim (rs " 'A'-\u005A ")) (rs "'A'-\u005A") = true.
Proof. vm_compute. reflexivity. Qed.
Example repo_38 : parsesTo (trim (rs " '\u0041'-'\u005A' ")) (rs "\u0041-\u005A") = true.
Proof. vm_compute. reflexivity. Qed.
Example repo_39 : parsesTo (trim (rs " \u0041-'\u005A' ")) (rs "\u0041-\u005A") = true.
Proof. vm_compute. reflexivity. Qed.
Example repo_40 : parsesTo (trim (rs " '\u0041'-\u005A ")) (rs "\u0041-\u005A") = true.
Proof. vm_compute. reflexivity. Qed.
Example repo_41 : parsesTo (trim (rs " \u0041-\u005A ")) (rs "\u0041-\u005A") = true.
Proof. vm_compute. reflexivity. Qed.
Example repo_42 : parsesTo (trim (rs "'A' | 'B' | 'C' | 'D' | 'E' | 'F' | 'G' | 'H' | 'I' | 'J' | 'K' | 'L' | 'M' | 'N' | 'O' | 'P' | 'Q' | 'R' | 'S' | 'T' | 'U' | 'V' | 'W' | 'X' | 'Y' | 'Z'")) (rs "'A' | 'B' | 'C' | 'D' | 'E' | 'F' | 'G' | 'H' | 'I' | 'J' | 'K' | 'L' | 'M' | 'N' | 'O' | 'P' | 'Q' | 'R' | 'S' | 'T' | 'U' | 'V' | 'W' | 'X' | 'Y' | 'Z'") = true.
Proof. vm_compute. reflexivity. Qed.
Example repo_43 : parsesTo (trim (rs "'A' | 'B' | 'C' | 'D' | 'E' | 'F' | 'G' | 'H' | 'I' | 'J' | 'K' | 'L' > 'M' | 'N' | 'O' | 'P' | 'Q' | 'R' | 'S' | 'T' | 'U' | 'V' | 'W' | 'X' | 'Y' | 'Z'")) (rs "'A' | 'B' | 'C' | 'D' | 'E' | 'F' | 'G' | 'H' | 'I' | 'J' | 'K' | 'L' > 'M' | 'N' | 'O' | 'P' | 'Q' | 'R' | 'S' | 'T' | 'U' | 'V' | 'W' | 'X' | 'Y' | 'Z'") = true.
Proof. vm_compute. reflexivity. Qed.
Example repo_44 : parsesTo (trim (rs "'A' > 'B' | 'C' > 'D' | 'E' > 'F' ")) (rs "'A' > 'B' | 'C' > 'D' | 'E' > 'F'") = true.
Proof. vm_compute. reflexivity. Qed.
Example repo_45 : parsesTo (trim (rs " ""value"" > <"""" ( "","" | "")"" ) !> ")) (rs """value"" > <"""" ( "","" | "")"" ) !>") = true.
Proof. vm_compute. reflexivity. Qed.
(** TestGrammarAddRule, xbnf_test.go:283-316 (the definitions after the "="). *)
Example repo_46 : parsesTo (trim (rs " 'A' | 'B' | 'C' | 'D' | 'E' | 'F' | 'G' | 'H' | 'I' | 'J' | 'K' | 'L' | 'M' | 'N' | 'O' | 'P' | 'Q' | 'R' | 'S' | 'T' | 'U' | 'V' | 'W' | 'X' | 'Y' | 'Z'")) (rs "'A' | 'B' | 'C' | 'D' | 'E' | 'F' | 'G' | 'H' | 'I' | 'J' | 'K' | 'L' | 'M' | 'N' | 'O' | 'P' | 'Q' | 'R' | 'S' | 'T' | 'U' | 'V' | 'W' | 'X' | 'Y' | 'Z'") = true.
Proof. vm_compute. reflexivity. Qed.
Example repo_47 : parsesTo (trim (rs " '0' | '1' | '2' | '3' | '4' | '5' | '6' | '7' | '8' | '9'")) (rs "'0' | '1' | '2' | '3' | '4' | '5' | '6' | '7' | '8' | '9'") = true.
Proof. vm_compute. reflexivity. Qed.
Example repo_48 : parsesTo (trim (rs " '0' | '1' | '2' | '3' | '4' | '5' | '6' | '7' | '8' | '9' | 'A' | 'B' | 'C' | 'D' | 'E' | 'F' | 'a' | 'b' | 'c' | 'd' | 'e' | 'f'")) (rs "'0' | '1' | '2' | '3' | '4' | '5' | '6' | '7' | '8' | '9' | 'A' | 'B' | 'C' | 'D' | 'E' | 'F' | 'a' | 'b' | 'c' | 'd' | 'e' | 'f'") = true.
Proof. vm_compute. reflexivity. Qed.
Example repo_49 : parsesTo (trim (rs " '0' | '1' | '2' | '3' | '4' | '5' | '6' | '7'")) (rs "'0' | '1' | '2' | '3' | '4' | '5' | '6' | '7'") = true.
Proof. vm_compute. reflexivity. Qed.
Example repo_50 : parsesTo (trim (rs " '0' | '1'")) (rs "'0' | '1'") = true.
Proof. vm_compute. reflexivity. Qed.
Example repo_51 : parsesTo (trim (rs " letter_lowercase | letter_uppercase")) (rs "letter_lowercase | letter_uppercase") = true.
Proof. vm_compute. reflexivity. Qed.
Example repo_52 : parsesTo (trim (rs " <'/*' '*/'>")) (rs "<'/*' '*/'>") = true.
Proof. vm_compute. reflexivity. Qed.
(** TestEvalRule. *)
Definition gEvalRule_text : list Z := rs "
	letter_uppercase    = 'A' | 'B' | 'C' | 'D' | 'E' | 'F' | 'G' | 'H' | 'I' | 'J' | 'K' | 'L' | 'M' | 'N' | 'O' | 'P' | 'Q' | 'R' | 'S' | 'T' | 'U' | 'V' | 'W' | 'X' | 'Y' | 'Z'
	digit_dec           = '0' | '1' | '2' | '3' | '4' | '5' | '6' | '7' | '8' | '9'
	digit_hex           = '0' | '1' | '2' | '3' | '4' | '5' | '6' | '7' | '8' | '9' | 'A' | 'B' | 'C' | 'D' | 'E' | 'F' | 'a' | 'b' | 'c' | 'd' | 'e' | 'f'
	digit_oct           = '0' | '1' | '2' | '3' | '4' | '5' | '6' | '7'
	digit_bin           = '0' | '1'
	letter              = letter_lowercase | letter_uppercase
	alphanumeric        = letter_lowercase | letter_uppercase | digit_dec
	letter_lowercase    = 'a' | 'b' | 'c' | 'd' | 'e' | 'f' | 'g' | 'h' | 'i' | 'j' | 'k' | 'l' | 'm' | 'n' | 'o' | 'p' | 'q' | 'r' | 's' | 't' | 'u' | 'v' | 'w' | 'x' | 'y' | 'z'	
	identifier          = letter { alphanumeric | '_' }
	comment_line    = <'//' ( \u000A | EOF )>
	comment_block   = <'/*' '*/'>
	string   		= string_dq | string_sq | string_ml
	string_dq       = <'""' '\\' ^\u000A '""'>
	string_sq       = <\u0027 '\\' ^\u000A \u0027>
	string_ml       = <\u0060 '\\' \u0060>
	string_bq       = <'[' '\\' ']'>
	bool                = bool_tf | bool_yn
	bool_tf             = ""True"" | ""true"" | ""False"" | ""false""
	bool_yn             = ""Yes"" | ""yes"" | ""No"" | ""no""
	integer             = """" [ '+' | '-' ] (integer_dec | integer_oct | integer_hex | integer_bin )
	integer_dec         = digit_dec { digit_dec } 
	integer_hex         = '0x' digit_hex { digit_hex }
	integer_oct         = '0o' digit_oct { digit_oct }
	integer_bin         = '0b' digit_bin { digit_bin }
	literal             = string | integer
	int                 = integer
	names               = identifier { """" identifier }
	opr					= ( ""+"" | ""-"" )
	expr                = integer { opr literal }
	".
Definition gEvalRule : grammar := Eval vm_compute in theGrammar gEvalRule_text.
Example gEvalRule_ok : newGrammarFromString gEvalRule_text = inl gEvalRule.
Proof. vm_compute. reflexivity. Qed.
Example repo_53 : evalText gEvalRule (rs "expr") (rs " 12+  '12'abc") (rs "12 + '12'") = true.
Proof. vm_compute. reflexivity. Qed.
Example repo_54 : evalText gEvalRule (rs "identifier") (rs "myName_ ") (rs "myName_") = true.
Proof. vm_compute. reflexivity. Qed.
Example repo_55 : evalText gEvalRule (rs "integer_hex") (rs "0xF45A03F") (rs "0xF45A03F") = true.
Proof. vm_compute. reflexivity. Qed.
Example repo_56 : evalText gEvalRule (rs "integer_dec") (rs "1234567") (rs "1234567") = true.
Proof. vm_compute. reflexivity. Qed.
Example repo_57 : evalText gEvalRule (rs "integer_oct") (rs "0o1234567") (rs "0o1234567") = true.
Proof. vm_compute. reflexivity. Qed.
Example repo_58 : evalText gEvalRule (rs "integer_bin") (rs "0b10110010234567") (rs "0b10110010") = true.
Proof. vm_compute. reflexivity. Qed.
Example repo_59 : evalText gEvalRule (rs "bool_tf") (rs "true") (rs "true") = true.
Proof. vm_compute. reflexivity. Qed.
Example repo_60 : evalText gEvalRule (rs "bool_yn") (rs "Yes") (rs "Yes") = true.
Proof. vm_compute. reflexivity. Qed.
Example repo_61 : evalText gEvalRule (rs "bool") (rs " No ") (rs "No") = true.
Proof. vm_compute. reflexivity. Qed.
Example repo_62 : evalText gEvalRule (rs "integer") (rs "0xF0F0F0") (rs "0xF0F0F0") = true.
Proof. vm_compute. reflexivity. Qed.
Example repo_63 : evalText gEvalRule (rs "expr") (rs "1+0xFF+3") (rs "1 + 0xFF + 3") = true.
Proof. vm_compute. reflexivity. Qed.
Example repo_64 : evalText gEvalRule (rs "string_dq") (rs """double quoted string""") (rs """double quoted string""") = true.
Proof. vm_compute. reflexivity. Qed.
Example repo_65 : evalText gEvalRule (rs "string_bq") (rs "[between square brackets]") (rs "[between square brackets]") = true.
Proof. vm_compute. reflexivity. Qed.
Example repo_66 : evalText gEvalRule (rs "comment_line") (rs "  // comments here") (rs "// comments here") = true.
Proof. vm_compute. reflexivity. Qed.
Example repo_67 : evalText gEvalRule (rs "identifier") (rs "myName_ abc") (rs "myName_") = true.
Proof. vm_compute. reflexivity. Qed.
Example repo_68 : evalText gEvalRule (rs "int") (rs " -12 ") (rs "-12") = true.
Proof. vm_compute. reflexivity. Qed.
Example repo_69 : evalText gEvalRule (rs "int") (rs " -1 ") (rs "-1") = true.
Proof. vm_compute. reflexivity. Qed.
Example repo_70 : evalText gEvalRule (rs "integer_dec") (rs "F1 ") (rs "") = true.
Proof. vm_compute. reflexivity. Qed.
Example repo_71 : evalText gEvalRule (rs "comment_block") (rs "  /* comments here*/  ") (rs "/* comments here*/") = true.
Proof. vm_compute. reflexivity. Qed.
Example repo_72 : evalText gEvalRule (rs "integer") (rs "'12'") (rs "") = true.
Proof. vm_compute. reflexivity. Qed.
Example repo_73 : evalText gEvalRule (rs "integer") (rs "  '12'") (rs "") = true.
Proof. vm_compute. reflexivity. Qed.
Example repo_74 : evalText gEvalRule (rs "integer_dec") (rs "14") (rs "14") = true.
Proof. vm_compute. reflexivity. Qed.
Example repo_75 : evalText gEvalRule (rs "names") (rs " sean ivy kevin ") (rs "sean ivy kevin") = true.
Proof. vm_compute. reflexivity. Qed.
Example repo_76 : evalText gEvalRule (rs "int") (rs " 1 ") (rs "1") = true.
Proof. vm_compute. reflexivity. Qed.
Example repo_77 : evalText gEvalRule (rs "expr") (rs " 0xFF+45-0b0101") (rs "0xFF + 45 - 0b0101") = true.
Proof. vm_compute. reflexivity. Qed.
Example repo_78 : evalText gEvalRule (rs "integer_hex") (rs "0xF45A") (rs "0xF45A") = true.
Proof. vm_compute. reflexivity. Qed.
Example repo_79 : evalText gEvalRule (rs "expr") (rs "0xF45A+12345.67") (rs "0xF45A + 12345") = true.
Proof. vm_compute. reflexivity. Qed.
Example repo_80 : testRule gEvalRule (rs "expr") (rs "1-12  +3  -14") (rs "1 - 12 + 3 - 14") = true.
Proof. vm_compute. reflexivity. Qed.
(** TestArithmeticRule. *)
Definition gArithmeticRule_text : list Z := rs "
		SPACE   = \u0020  // space
		TAB     = \u0009  // horizontal tab
		NL      = \u000A  // new line
		CR      = \u000D  // carriage return
		space       = ~{ SPACE | TAB | NL | CR }
		digit_dec   = '0' | '1' | '2' | '3' | '4' | '5' | '6' | '7' | '8' | '9'
		digit_hex   = '0' | '1' | '2' | '3' | '4' | '5' | '6' | '7' | '8' | '9' | 'A' | 'B' | 'C' | 'D' | 'E' | 'F' | 'a' | 'b' | 'c' | 'd' | 'e' | 'f'
		digit_oct   = '0' | '1' | '2' | '3' | '4' | '5' | '6' | '7'
		digit_bin   = '0' | '1'
		integer_dec = digit_dec { digit_dec } 
		integer_hex = ""0x"" digit_hex { digit_hex }
		integer_oct = ""0o"" digit_oct { digit_oct }
		integer_bin = ""0b"" digit_bin { digit_bin }
		float       = digit_dec '.' digit_dec { digit_dec }
		integer     = integer_dec | integer_oct | integer_hex | integer_bin
		literal		= integer | float
		factor		= literal | ( ""("" expr "")"" )
		term		= factor { ( ""*"" | ""/"" ) factor }
		expr		= term { (""+"" | ""-"") term }
		exprs		= expr
		// spaces		= { {space}+ ""efg"" }
		spaces		= { { ~{'a'} }+ ""efg"" }
	".
Definition gArithmeticRule : grammar := Eval vm_compute in theGrammar gArithmeticRule_text.
Example gArithmeticRule_ok : newGrammarFromString gArithmeticRule_text = inl gArithmeticRule.
Proof. vm_compute. reflexivity. Qed.
Example repo_81 : evalText gArithmeticRule (rs "term") (rs "12") (rs "12") = true.
Proof. vm_compute. reflexivity. Qed.
Example repo_82 : evalText gArithmeticRule (rs "term") (rs " 12 ") (rs "12") = true.
Proof. vm_compute. reflexivity. Qed.
Example repo_83 : evalText gArithmeticRule (rs "term") (rs " 12 *    3 ") (rs "12 * 3") = true.
Proof. vm_compute. reflexivity. Qed.
Example repo_84 : evalText gArithmeticRule (rs "term") (rs "1/12*12") (rs "1 / 12 * 12") = true.
Proof. vm_compute. reflexivity. Qed.
Example repo_85 : evalText gArithmeticRule (rs "expr") (rs "12") (rs "12") = true.
Proof. vm_compute. reflexivity. Qed.
Example repo_86 : evalText gArithmeticRule (rs "expr") (rs "12 +   1") (rs "12 + 1") = true.
Proof. vm_compute. reflexivity. Qed.
Example repo_87 : evalText gArithmeticRule (rs "literal") (rs "12 +   1") (rs "12") = true.
Proof. vm_compute. reflexivity. Qed.
Example repo_88 : evalText gArithmeticRule (rs "expr") (rs "12*3/4") (rs "12 * 3 / 4") = true.
Proof. vm_compute. reflexivity. Qed.
Example repo_89 : evalText gArithmeticRule (rs "expr") (rs "2-12/4 ") (rs "2 - 12 / 4") = true.
Proof. vm_compute. reflexivity. Qed.
Example repo_90 : evalText gArithmeticRule (rs "expr") (rs " 3/4 -12/4 ") (rs "3 / 4 - 12 / 4") = true.
Proof. vm_compute. reflexivity. Qed.
Example repo_91 : evalText gArithmeticRule (rs "expr") (rs "(4 +5) ") (rs "( 4 + 5 )") = true.
Proof. vm_compute. reflexivity. Qed.
Example repo_92 : evalText gArithmeticRule (rs "expr") (rs " (4 +5) /5  ") (rs "( 4 + 5 ) / 5") = true.
Proof. vm_compute. reflexivity. Qed.
Example repo_93 : evalText gArithmeticRule (rs "expr") (rs "124*23 - 23 + 3/4 -12/4 ") (rs "124 * 23 - 23 + 3 / 4 - 12 / 4") = true.
Proof. vm_compute. reflexivity. Qed.
Example repo_94 : evalText gArithmeticRule (rs "expr") (rs " 12-2   *3  ") (rs "12 - 2 * 3") = true.
Proof. vm_compute. reflexivity. Qed.
Example repo_95 : evalText gArithmeticRule (rs "spaces") (rs "") (rs "") = true.
Proof. vm_compute. reflexivity. Qed.
(** TestBlock. *)
Definition gBlock_text : list Z := rs "
		string_dq = <'""' '\\' '""'>
		string_sq = <""'"" '\\' '\''>
		comment_line = < '//' ( \u000A | EOF ) >
		comment_ml = < '/*'  '*/' >
		string     = <\u0022 '\\' ^\u000A \u0022>
		string1     = <""\u0022"" '\\' ^\u000A ""\u0022""> // \u0022 is double quote
		key = < """" '\\' ^\u000A ('='|':') >
		value = < """" '\\' ~( \u000A | EOF )> // NewLine unicode is u000A
		keyempty = < """" ^'=' ~( \u000A | EOF )> 
		property = keyempty | ( key value )
		bool = ""true"" | ""false""
		const = bool |string_dq | string_sq
		baretext = < """" ( ',' | EOF ) !>
		attr = string_dq "":"" baretext
		attr1 = string_dq "":"" ( bool > baretext )
		attrs = attr { #',' attr }
	".
Definition gBlock : grammar := Eval vm_compute in theGrammar gBlock_text.
Example gBlock_ok : newGrammarFromString gBlock_text = inl gBlock.
Proof. vm_compute. reflexivity. Qed.
Example repo_96 : testRule gBlock (rs "string_dq") (rs """double-quote block""") (rs """double-quote block""") = true.
Proof. vm_compute. reflexivity. Qed.
Example repo_97 : testRule gBlock (rs "string_sq") (rs "'single-quote block'") (rs "'single-quote block'") = true.
Proof. vm_compute. reflexivity. Qed.
Example repo_98 : testRule gBlock (rs "comment_ml") (rs "  /* the block 
comment   */  ") (rs "/* the block 
comment   */") = true.
Proof. vm_compute. reflexivity. Qed.
Example repo_99 : testRule gBlock (rs "comment_ml") (rs "  /* the block comment */  ") (rs "/* the block comment */") = true.
Proof. vm_compute. reflexivity. Qed.
Example repo_100 : testRule gBlock (rs "string_dq") (rs """double-quote block""") (rs """double-quote block""") = true.
Proof. vm_compute. reflexivity. Qed.
Example repo_101 : testRule gBlock (rs "comment_line") (rs "// comments here  ") (rs "// comments here  ") = true.
Proof. vm_compute. reflexivity. Qed.
Example repo_102 : testRule gBlock (rs "string1") (rs "  ""/* the block comment */""") (rs """/* the block comment */""") = true.
Proof. vm_compute. reflexivity. Qed.
Example repo_103 : testRule gBlock (rs "string") (rs " "" this \"" escape """) (rs """ this "" escape """) = true.
Proof. vm_compute. reflexivity. Qed.
Example repo_104 : testRule gBlock (rs "string") (rs " "" this \"" escape with \n new line""") (rs """ this "" escape with \\n new line""") = true.
Proof. vm_compute. reflexivity. Qed.
Example repo_105 : testRule gBlock (rs "string") (rs " "" this \\"" escape """) (rs """ this \\\""") = true.
Proof. vm_compute. reflexivity. Qed.
Example repo_106 : testRule gBlock (rs "key") (rs " this key = that value ") (rs "this key =") = true.
Proof. vm_compute. reflexivity. Qed.
Example repo_107 : testRule gBlock (rs "key") (rs " this \\= key = that value ") (rs "this \\\=") = true.
Proof. vm_compute. reflexivity. Qed.
Example repo_108 : testRule gBlock (rs "value") (rs " this is a value ") (rs "this is a value ") = true.
Proof. vm_compute. reflexivity. Qed.
Example repo_109 : testRule gBlock (rs "value") (rs " this is \\\n a value ") (rs "this is \\\\\n a value ") = true.
Proof. vm_compute. reflexivity. Qed.
Example repo_110 : testRule gBlock (rs "property") (rs " key = value ") (rs "key = value ") = true.
Proof. vm_compute. reflexivity. Qed.
Example repo_111 : testRule gBlock (rs "keyempty") (rs " empty key ") (rs "empty key ") = true.
Proof. vm_compute. reflexivity. Qed.
Example repo_112 : testRule gBlock (rs "keyempty") (rs " empty key = ") (rs "") = true.
Proof. vm_compute. reflexivity. Qed.
Example repo_113 : testRule gBlock (rs "string") (rs """sun1.opacity = (sun1.opacity / 100) * 90;""") (rs """sun1.opacity = (sun1.opacity / 100) * 90;""") = true.
Proof. vm_compute. reflexivity. Qed.
Example repo_114 : testRule gBlock (rs "attr") (rs " ""empty key"": = ,") (rs """empty key"" : = ") = true.
Proof. vm_compute. reflexivity. Qed.
Example repo_115 : testRule gBlock (rs "attr1") (rs " ""empty key"": true ,") (rs """empty key"" : true") = true.
Proof. vm_compute. reflexivity. Qed.
Example repo_116 : testRule gBlock (rs "attr1") (rs " ""empty key"": true,") (rs """empty key"" : true") = true.
Proof. vm_compute. reflexivity. Qed.
Example repo_117 : testRule gBlock (rs "attrs") (rs " ""empty key"": = ,""kevin xie"": 89~#") (rs """empty key"" : = , ""kevin xie"" : 89~#") = true.
Proof. vm_compute. reflexivity. Qed.
(** TestChoice. *)
Definition gChoice_text : list Z := rs "
		letter_uppercase    = 'A' | 'B' | 'C' | 'D' | 'E' | 'F' | 'G' | 'H' | 'I' | 'J' | 'K' | 'L' | 'M' | 'N' | 'O' | 'P' | 'Q' | 'R' | 'S' | 'T' | 'U' | 'V' | 'W' | 'X' | 'Y' | 'Z'
		letter_lowercase    = 'a' | 'b' | 'c' | 'd' | 'e' | 'f' | 'g' | 'h' | 'i' | 'j' | 'k' | 'l' | 'm' | 'n' | 'o' | 'p' | 'q' | 'r' | 's' | 't' | 'u' | 'v' | 'w' | 'x' | 'y' | 'z'
		letter              = letter_lowercase | letter_uppercase
		digit               = '0' | '1' | '2' | '3' | '4' | '5' | '6' | '7' | '8' | '9'
		alphanumeric        = letter_lowercase | letter_uppercase | digit
		identifier          = letter { alphanumeric | '_' }
		integer             = [ '-' ] digit { digit }
		decimal             = integer '.' { digit }
		number              = """" (integer | decimal) // the leading """" making number a token (non-sticky)
		bool                = ""true"" | ""false""
		string_sq           = <'\u0027' '\u0027'> // \u0027 is single quote '
		string_dq           = <'\u0022' '\u0022'> // \u0022 is double quote '""' 
		string              = string_sq | string_dq	
		value_ambiguity		= bool | identifier | number | string
		value				= bool > identifier | number | string
	".
Definition gChoice : grammar := Eval vm_compute in theGrammar gChoice_text.
Example gChoice_ok : newGrammarFromString gChoice_text = inl gChoice.
Proof. vm_compute. reflexivity. Qed.
Example repo_118 : testRule gChoice (rs "value_ambiguity") (rs " myname ") (rs "myname") = true.
Proof. vm_compute. reflexivity. Qed.
Example repo_119 : testRule gChoice (rs "value_ambiguity") (rs " 123.45 ") (rs "123.45") = true.
Proof. vm_compute. reflexivity. Qed.
Example repo_120 : testRule gChoice (rs "value_ambiguity") (rs " true ") (rs "") = true.
Proof. vm_compute. reflexivity. Qed.
Example repo_121 : testRule gChoice (rs "value") (rs " true ") (rs "true") = true.
Proof. vm_compute. reflexivity. Qed.
Example repo_122 : testRule gChoice (rs "value_ambiguity") (rs " false ") (rs "") = true.
Proof. vm_compute. reflexivity. Qed.
Example repo_123 : testRule gChoice (rs "value") (rs " false ") (rs "false") = true.
Proof. vm_compute. reflexivity. Qed.
(** TestVirtual. *)
Definition gVirtual_text : list Z := rs "
		end = ~(\u000A|EOF)
		bool = space (""true""|""false"") end
		space = ~{ \u0020 | \u0009 | \u000A | \u000D } 
	".
Definition gVirtual : grammar := Eval vm_compute in theGrammar gVirtual_text.
Example gVirtual_ok : newGrammarFromString gVirtual_text = inl gVirtual.
Proof. vm_compute. reflexivity. Qed.
Example repo_124 : countIs 3 countNodes (nodeAfter removeVirtual gVirtual (rs "end") (rs "")) = true.
Proof. vm_compute. reflexivity. Qed.
Example repo_125 : countIs 4 countNodes (nodeAfter removeVirtual gVirtual (rs "bool") (rs " 
 false")) = true.
Proof. vm_compute. reflexivity. Qed.
(** TestNondata. *)
Definition gNondata_text : list Z := rs "
		end = ~(\u000A|EOF)
		bool = space (""true""|""false"")
		space = ~{ \u0020 | \u0009 | \u000A | \u000D }
		item = bool { #"","" bool }
		array = #""["" { item } #""]""
	".
Definition gNondata : grammar := Eval vm_compute in theGrammar gNondata_text.
Example gNondata_ok : newGrammarFromString gNondata_text = inl gNondata.
Proof. vm_compute. reflexivity. Qed.
Example repo_126 : countIs 7 countTokens (nodeAfter (fun n => removeRedundant (removeVirtual (mergeNode n))) gNondata (rs "array") (rs "[ false, true, false ]")) = true.
Proof. vm_compute. reflexivity. Qed.
(** TestTokenized. *)
Definition gTokenized_text : list Z := rs "
		key = { '0'-'9' | 'a'-'z'| 'A'-'Z' }<1,0>
		index = { '0'-'9' }<1,0>
		step = ( #'[' $index #']' ) | ( #'.' key )
		path = { step }<1,0>
	".
Definition gTokenized : grammar := Eval vm_compute in theGrammar gTokenized_text.
Example gTokenized_ok : newGrammarFromString gTokenized_text = inl gTokenized.
Proof. vm_compute. reflexivity. Qed.
Example repo_127 : match nodeAfter (fun n => removeRedundant (mergeNode (removeNonData (removeVirtual n)))) gTokenized (rs "path") (rs ".abc") with Some n => runes_eqb (text n) (rs "abc") | None => false end = true.
Proof. vm_compute. reflexivity. Qed.
Example repo_128 : match nodeAfter (fun n => removeRedundant (mergeNode (removeNonData (removeVirtual n)))) gTokenized (rs "path") (rs "[1].ab.cd[1]") with Some n => runes_eqb (text n) (rs "1abcd1") | None => false end = true.
Proof. vm_compute. reflexivity. Qed.
Example repo_129 : match nodeAfter (fun n => removeRedundant (mergeNode (removeNonData (removeVirtual n)))) gTokenized (rs "path") (rs ".abc") with Some n => runes_eqb (text n) (rs "abc") | None => false end = true.
Proof. vm_compute. reflexivity. Qed.
(** TestMergeStickyNodes. *)
Definition gMergeStickyNodes_text : list Z := rs "
		// unicode character constants
		ESC     = \u001B  // escape character
		SPACE   = \u0020  // space
		TAB     = \u0009  // horizontal tab
		NL      = \u000A  // new line
		CR      = \u000D  // carriage return
		digit      = '0' | '1' | '2' | '3' | '4' | '5' | '6' | '7' | '8' | '9'
		integer    = digit { digit }
		float      = integer '.' digit { digit }
		number     = """" [ '-' ] integer | float
		string     = < '""' '\\' ^NL '""'>
		bool       = ""true"" | ""false""
		space      = ~{ SPACE | TAB | NL | CR }       // space is virtual
		literal    = number | string | bool | ""null""
		array      = #""["" space [ value { #"","" value } ] #""]"" 
		kv         = space string space "":"" value 
		object     = #""{"" [ kv { #"","" kv } ] #""}""
		value      = space (literal | array | object) space
		json       = value // root node
	".
Definition gMergeStickyNodes : grammar := Eval vm_compute in theGrammar gMergeStickyNodes_text.
Example gMergeStickyNodes_ok : newGrammarFromString gMergeStickyNodes_text = inl gMergeStickyNodes.
Proof. vm_compute. reflexivity. Qed.
Example repo_130 : testRule gMergeStickyNodes (rs "value") (rs "		{""key"":-1234.56}") (rs "{ ""key"" : -1234.56 }") = true.
Proof. vm_compute. reflexivity. Qed.
Example repo_131 : testRule gMergeStickyNodes (rs "value") (rs "
				{""k"":-1.5}") (rs "{ ""k"" : -1.5 }") = true.
Proof. vm_compute. reflexivity. Qed.
Example repo_132 : testRule gMergeStickyNodes (rs "value") (rs "
				{""key"":-1234.56}") (rs "{ ""key"" : -1234.56 }") = true.
Proof. vm_compute. reflexivity. Qed.
Example repo_133 : match evalLevel0 gMergeStickyNodes (rs "123456") with Some a => Nat.eqb (astCountSticky (astMerge a)) 0 | None => true end = true.
Proof. vm_compute. reflexivity. Qed.
Example repo_134 : match evalLevel0 gMergeStickyNodes (rs " true") with Some a => Nat.eqb (astCountSticky (astMerge a)) 0 | None => true end = true.
Proof. vm_compute. reflexivity. Qed.
Example repo_135 : match evalLevel0 gMergeStickyNodes (rs " - {""a"":1,""b"":2,""c"":3 }") with Some a => Nat.eqb (astCountSticky (astMerge a)) 0 | None => true end = true.
Proof. vm_compute. reflexivity. Qed.
Example repo_136 : match evalLevel0 gMergeStickyNodes (rs "  {""a"":1,""b"":2,""c"":3 }  ") with Some a => Nat.eqb (astCountSticky (astMerge a)) 0 | None => true end = true.
Proof. vm_compute. reflexivity. Qed.
Example repo_137 : match evalLevel0 gMergeStickyNodes (rs "-12
") with Some a => Nat.eqb (astCountSticky (astMerge a)) 0 | None => true end = true.
Proof. vm_compute. reflexivity. Qed.
Example repo_138 : match evalLevel0 gMergeStickyNodes (rs "- 12
") with Some a => Nat.eqb (astCountSticky (astMerge a)) 0 | None => true end = true.
Proof. vm_compute. reflexivity. Qed.
Example repo_139 : match evalLevel0 gMergeStickyNodes (rs " 123456.7890") with Some a => Nat.eqb (astCountSticky (astMerge a)) 0 | None => true end = true.
Proof. vm_compute. reflexivity. Qed.
Example repo_140 : match evalLevel0 gMergeStickyNodes (rs " -12.120000012") with Some a => Nat.eqb (astCountSticky (astMerge a)) 0 | None => true end = true.
Proof. vm_compute. reflexivity. Qed.
Example repo_141 : match evalLevel0 gMergeStickyNodes (rs """string one line """) with Some a => Nat.eqb (astCountSticky (astMerge a)) 0 | None => true end = true.
Proof. vm_compute. reflexivity. Qed.
Example repo_142 : match evalLevel0 gMergeStickyNodes (rs """string \n 2nd line """) with Some a => Nat.eqb (astCountSticky (astMerge a)) 0 | None => true end = true.
Proof. vm_compute. reflexivity. Qed.
Example repo_143 : match evalLevel0 gMergeStickyNodes (rs "{}") with Some a => Nat.eqb (astCountSticky (astMerge a)) 0 | None => true end = true.
Proof. vm_compute. reflexivity. Qed.
Example repo_144 : match evalLevel0 gMergeStickyNodes (rs "[12.34, false, null, ""string value""]") with Some a => Nat.eqb (astCountSticky (astMerge a)) 0 | None => true end = true.
Proof. vm_compute. reflexivity. Qed.
Example repo_145 : match evalLevel0 gMergeStickyNodes (rs "{""a"":[],""ab"":
				{""key"":-1234.56}}") with Some a => Nat.eqb (astCountSticky (astMerge a)) 0 | None => true end = true.
Proof. vm_compute. reflexivity. Qed.
Example repo_146 : match evalLevel0 gMergeStickyNodes (rs "{""a"":1,""b"":2,""c"":3 }") with Some a => Nat.eqb (astCountSticky (astMerge a)) 0 | None => true end = true.
Proof. vm_compute. reflexivity. Qed.
Example repo_147 : match evalLevel0 gMergeStickyNodes (rs "{ ""glossary"": {
			""title"": ""example glossary"",
			""GlossDiv"": {
				""title"": ""S""
			}
		}
	}") with Some a => Nat.eqb (astCountSticky (astMerge a)) 0 | None => true end = true.
Proof. vm_compute. reflexivity. Qed.
Example repo_148 : match evalLevel0 gMergeStickyNodes (rs "[]") with Some a => Nat.eqb (astCountSticky (astMerge a)) 0 | None => true end = true.
Proof. vm_compute. reflexivity. Qed.
Example repo_149 : match evalLevel0 gMergeStickyNodes (rs "{ ""a"": [
] }") with Some a => Nat.eqb (astCountSticky (astMerge a)) 0 | None => true end = true.
Proof. vm_compute. reflexivity. Qed.
Example repo_150 : match evalLevel0 gMergeStickyNodes (rs "{ ""a"": [
{},
{}
] }") with Some a => Nat.eqb (astCountSticky (astMerge a)) 0 | None => true end = true.
Proof. vm_compute. reflexivity. Qed.
Example repo_151 : match evalLevel0 gMergeStickyNodes (rs "{
			""glossary"": {
				""title"": ""example glossary"",
				""GlossDiv"": {
					""title"": ""S"",
					""GlossList"": {
						""GlossEntry"": {
							""ID"": ""SGML"",
							""SortAs"": ""SGML"",
							""GlossTerm"": ""Standard Generalized Markup Language"",
							""Acronym"": ""SGML"",
							""Abbrev"": ""ISO 8879:1986"",
							""GlossDef"": {
								""para"": ""A meta-markup language, used to create markup languages such as DocBook."",
								""GlossSeeAlso"": [""GML"", ""XML""]
							},
							""GlossSee"": ""markup""
						}
					}
				}
			}
		}") with Some a => Nat.eqb (astCountSticky (astMerge a)) 0 | None => true end = true.
Proof. vm_compute. reflexivity. Qed.
(** TestEmbed. *)
Definition gEmbed_text : list Z := rs "
		var = '$' ('A'-'Z'|'a'-'z') { ('A'-'Z'|'a'-'z'|'0'-'9'|'_') }
		variable = '${' ('A'-'Z'|'a'-'z') { ('A'-'Z'|'a'-'z'|'0'-'9'|'_') } '}'
		variable1 = ""${"" ('A'-'Z'|'a'-'z') { ('A'-'Z'|'a'-'z'|'0'-'9'|'_') } ""}""
	".
Definition gEmbed : grammar := Eval vm_compute in theGrammar gEmbed_text.
Example gEmbed_ok : newGrammarFromString gEmbed_text = inl gEmbed.
Proof. vm_compute. reflexivity. Qed.
Example repo_152 : match evalEmbed F F gEmbed (rs "var") (rs "") with Some (Ok n) => Nat.eqb (length (n_kids (removeRedundant (removeVirtual (mergeNode n))))) 0 | _ => false end = true.
Proof. vm_compute. reflexivity. Qed.
Example repo_153 : match evalEmbed F F gEmbed (rs "var") (rs "123456") with Some (Ok n) => Nat.eqb (length (n_kids (removeRedundant (removeVirtual (mergeNode n))))) 1 | _ => false end = true.
Proof. vm_compute. reflexivity. Qed.
Example repo_154 : match evalEmbed F F gEmbed (rs "var") (rs "123$A456 $b100 another text") with Some (Ok n) => Nat.eqb (length (n_kids (removeRedundant (removeVirtual (mergeNode n))))) 5 | _ => false end = true.
Proof. vm_compute. reflexivity. Qed.
Example repo_155 : match evalEmbed F F gEmbed (rs "variable") (rs "123${A456} ${b100} another text") with Some (Ok n) => Nat.eqb (length (n_kids (removeRedundant (removeVirtual (mergeNode n))))) 5 | _ => false end = true.
Proof. vm_compute. reflexivity. Qed.
Example repo_156 : match evalEmbed F F gEmbed (rs "variable1") (rs " ${A456}") with Some (Ok n) => Nat.eqb (length (n_kids (removeRedundant (removeVirtual (mergeNode n))))) 2 | _ => false end = true.
Proof. vm_compute. reflexivity. Qed.
Example repo_157 : match evalEmbed F F gEmbed (rs "variable1") (rs "123${A456} ${b100} another text") with Some (Ok n) => Nat.eqb (length (n_kids (removeRedundant (removeVirtual (mergeNode n))))) 5 | _ => false end = true.
Proof. vm_compute. reflexivity. Qed.
(** TestErrorReport. *)
Definition gErrorReport_text : list Z := rs "
		digit      = '0' | '1' | '2' | '3' | '4' | '5' | '6' | '7' | '8' | '9'
		integer    = digit { digit }
		float      = integer '.' digit { digit }
		number     = """" [ '-' ] integer | float
		string     = < #'""' '\\' ^\u000A #'""' >
		bool       = ""true"" | ""false""
		literal    = number | string | bool | ""null""
		array      = #""["" [ value { #"","" value } ] #""]"" 
		kv         = string #"":"" value 
		//object     = ( #""{"" [ kv { #"","" kv } ] #""}"" ) | ( #""{"" #""}"")
		object     = #""{"" [ kv { #"","" kv } ] #""}""
		value      = literal | array | object
		json       = value // root node
		//json       = literal | array | object // root node
	".
Definition gErrorReport : grammar := Eval vm_compute in theGrammar gErrorReport_text.
Example gErrorReport_ok : newGrammarFromString gErrorReport_text = inl gErrorReport.
Proof. vm_compute. reflexivity. Qed.
Example repo_158 : testRule gErrorReport (rs "string") (rs """My Word") (rs "") = true.
Proof. vm_compute. reflexivity. Qed.
Example repo_159 : testRule gErrorReport (rs "kv") (rs """name"" 12") (rs "") = true.
Proof. vm_compute. reflexivity. Qed.
Example repo_160 : testRule gErrorReport (rs "kv") (rs "name"": 12") (rs "") = true.
Proof. vm_compute. reflexivity. Qed.
Example repo_161 : testRule gErrorReport (rs "kv") (rs """name: 12") (rs "") = true.
Proof. vm_compute. reflexivity. Qed.
Example repo_162 : testRule gErrorReport (rs "kv") (rs """name"": a12") (rs "") = true.
Proof. vm_compute. reflexivity. Qed.
Example repo_163 : testRule gErrorReport (rs "value") (rs "
		{ a: true, ""b"": null,}
				") (rs "") = true.
Proof. vm_compute. reflexivity. Qed.
Example repo_164 : evalFails gErrorReport (rs "") = true.
Proof. vm_compute. reflexivity. Qed.
Example repo_165 : evalFails gErrorReport (rs "
{ ""a"": true,""b"": null,}
		") = true.
Proof. vm_compute. reflexivity. Qed.

(** charstream_test.go:261-286. *)
Definition csSample : list Z := rs "
ThisIsJustALineExample



LinesAfter3BlankLines

FirstLineInAThreeLineSequence
2ndLine
3rdLine

FinalLineFollowingANewLine

".
Fixpoint drain (n : nat) (s : stream) : list (Z * option position) * stream :=
  match n with
  | O => ([], s)
  | S n' => let '(p, s1) := positionOf s in
            let '(c, s2) := next s1 in
            let '(l, s3) := drain n' s2 in ((c, p) :: l, s3)
  end.
(** Line and column by counting newlines. *)
Fixpoint posList (l : list Z) (ln col : Z) : list (Z * option position) :=
  match l with
  | [] => []
  | c :: l' => (c, Some (ln, col)) :: (if c =? 10 then posList l' (ln + 1) 1 else posList l' ln (col + 1))
  end.
(** TestCharstreamNextString, TestCharstreamPositionString. *)
Example repo_cs_string : fst (drain (length csSample) (newStream csSample)) = posList csSample 1 1.
Proof. vm_compute. reflexivity. Qed.
(** TestCharstreamNextPrepend, TestCharstreamPositionPrepend. *)
Definition csHalf : stream :=
  let k := (length csSample / 2)%nat in
  prepend (snd (drain k (newStream csSample))) (firstn k csSample).
Example repo_cs_prepend : fst (drain (length csSample) csHalf) = posList csSample 1 1.
Proof. vm_compute. reflexivity. Qed.
(** TestCharstreamLookupString, TestCharstreamLookupPrepend. *)
Definition lookups : list Z := [-10; 0; 1; 2; 10; 50; Z.of_nat (length csSample) - 1; Z.of_nat (length csSample);
  Z.of_nat (length csSample) + 1; 1000].
Example repo_cs_lookup :
  let e := List.map (fun i => if i <? 0 then None else nth (Z.to_nat i) (List.map snd (posList csSample 1 1)) None) lookups in
  List.map (positionLookup (snd (drain (length csSample) (newStream csSample)))) lookups = e /\
  List.map (positionLookup (snd (drain (length csSample) csHalf))) lookups = e.
Proof. vm_compute. split; reflexivity. Qed.
(** TestCharstreamSkipSpaces. *)
Example repo_cs_skip :
  List.map (fun t => let '(sp, s) := skipSpaces (newStream t) in (length sp, peek s))
    [rs " is my name 'Kevin Xie'"; [9; 32; 10; 32] ++ rs "name"; rs "    This is my name"] =
  [(1%nat, 105); (4%nat, 110); (4%nat, 84)].
Proof. vm_compute. reflexivity. Qed.
