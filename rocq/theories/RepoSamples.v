(** The sample grammars shipped with the repository (main/samples) and the
    expectations of their tests, replayed on the model.  Each is a bounded check on
    fixed inputs: it is evidence that the model computes what the Go code computes,
    not a proof of a property. *)
From Verif Require Import Base Stream Node Rule Parse Grammar Print.
From Verif Require Import RepoTests.

Definition F2 : nat := 2000%nat.
(** [Eval] of a text at the given level, followed by the given pass and [Text]. *)
Definition evalSample (g : grammar) (level : Z) (f : ast -> ast) (sample expect : list Z) : bool :=
  match evalTop F2 F2 (rules_of g) (storedOrder g) (newStream sample) level with
  | Ok (RawOk a, _) => runes_eqb (astText (f a)) expect
  | _ => false
  end.
Definition evalWell (g : grammar) (level : Z) (sample : list Z) : bool :=
  match evalTop F2 F2 (rules_of g) (storedOrder g) (newStream sample) level with
  | Ok (RawOk _, _) => true
  | _ => false
  end.

(** arithmetic/arithmetic.xbnf. *)
Definition gArith_text : list Z := rs "// this xbnf defines the grammar to parse arithmetic expressions

exprs		    = expr { { ""\u000A"" | ""\u000D""}<1,> expr } // a newline between expr
expr		    = term { term_operator term } 
term_operator   = (""+"" | ""-"")
term		    = factor { factor_operator factor }
factor_operator = ( ""*"" | ""/"" )
factor		= literal | variable | ( ""("" expr "")"" )
literal		= integer | float
integer     = integer_dec | integer_oct | integer_hex | integer_bin
integer_dec = [ '-' ] digit_dec { digit_dec } 
integer_hex = '0x' digit_hex { digit_hex }
integer_oct = '0o' digit_oct { digit_oct }
integer_bin = '0b' digit_bin { digit_bin }
float       = [ '-' ] { digit_dec } '.' digit_dec { digit_dec }
digit_dec           = '0'-'9'
digit_hex           = '0'-'9' | 'A'-'F' | 'a'-'f'
digit_oct           = '0'-'7'
digit_bin           = '0'-'1'
variable    = letter { letter | digit_dec | '_' }
letter          = letter_lowercase | letter_uppercase
letter_uppercase    = 'A'-'Z'
letter_lowercase    = 'a'-'z'

//letter_uppercase    = 'A' | 'B' | 'C' | 'D' | 'E' | 'F' | 'G' | 'H' | 'I' | 'J' | 'K' | 'L' | 'M' | 'N' | 'O' | 'P' | 'Q' | 'R' | 'S' | 'T' | 'U' | 'V' | 'W' | 'X' | 'Y' | 'Z'
//letter_lowercase    = 'a' | 'b' | 'c' | 'd' | 'e' | 'f' | 'g' | 'h' | 'i' | 'j' | 'k' | 'l' | 'm' | 'n' | 'o' | 'p' | 'q' | 'r' | 's' | 't' | 'u' | 'v' | 'w' | 'x' | 'y' | 'z'
//digit_dec           = '0' | '1' | '2' | '3' | '4' | '5' | '6' | '7' | '8' | '9'
//digit_hex           = '0' | '1' | '2' | '3' | '4' | '5' | '6' | '7' | '8' | '9' | 'A' | 'B' | 'C' | 'D' | 'E' | 'F' | 'a' | 'b' | 'c' | 'd' | 'e' | 'f'
//digit_oct           = '0' | '1' | '2' | '3' | '4' | '5' | '6' | '7'
//digit_bin           = '0' | '1'

".
Definition gArith : grammar := Eval vm_compute in theGrammar gArith_text.
Example gArith_ok : newGrammarFromString gArith_text = inl gArith.
Proof. vm_compute. reflexivity. Qed.

(** TestMain, arithmetic_test.go:79-243. *)
Example sample_1 : evalText gArith (rs "variable") (rs "Age") (rs "Age") = true.
Proof. vm_compute. reflexivity. Qed.
Example sample_2 : evalText gArith (rs "factor") (rs "1
A") (rs "1") = true.
Proof. vm_compute. reflexivity. Qed.
Example sample_3 : evalText gArith (rs "factor") (rs " Age") (rs "Age") = true.
Proof. vm_compute. reflexivity. Qed.
Example sample_4 : evalText gArith (rs "literal") (rs "1
A") (rs "1") = true.
Proof. vm_compute. reflexivity. Qed.
Example sample_5 : evalText gArith (rs "float") (rs "1
A") (rs "") = true.
Proof. vm_compute. reflexivity. Qed.
Example sample_6 : evalText gArith (rs "float") (rs "1234.56") (rs "1234.56") = true.
Proof. vm_compute. reflexivity. Qed.
Example sample_7 : evalText gArith (rs "float") (rs ".56") (rs ".56") = true.
Proof. vm_compute. reflexivity. Qed.
Example sample_8 : evalText gArith (rs "float") (rs "-1234.56") (rs "-1234.56") = true.
Proof. vm_compute. reflexivity. Qed.
Example sample_9 : evalText gArith (rs "float") (rs "-.56") (rs "-.56") = true.
Proof. vm_compute. reflexivity. Qed.
Example sample_10 : evalText gArith (rs "term") (rs " Age") (rs "Age") = true.
Proof. vm_compute. reflexivity. Qed.
Example sample_11 : evalText gArith (rs "expr") (rs "123 + 456") (rs "123 + 456") = true.
Proof. vm_compute. reflexivity. Qed.
Example sample_12 : evalText gArith (rs "expr") (rs "123 + -456") (rs "123 + -456") = true.
Proof. vm_compute. reflexivity. Qed.
Example sample_13 : evalText gArith (rs "expr") (rs "123 + -456") (rs "123 + -456") = true.
Proof. vm_compute. reflexivity. Qed.
Example sample_14 : evalText gArith (rs "expr") (rs "A+123.45+456.78--34") (rs "A + 123.45 + 456.78 - -34") = true.
Proof. vm_compute. reflexivity. Qed.
Example sample_15 : evalText gArith (rs "expr") (rs "123") (rs "123") = true.
Proof. vm_compute. reflexivity. Qed.
Example sample_16 : evalText gArith (rs "expr") (rs "123 - Age*456") (rs "123 - Age * 456") = true.
Proof. vm_compute. reflexivity. Qed.
Example sample_17 : evalText gArith (rs "expr") (rs "(123 - Age)      *456") (rs "( 123 - Age ) * 456") = true.
Proof. vm_compute. reflexivity. Qed.
Example sample_18 : evalText gArith (rs "expr") (rs "123 - Age") (rs "123 - Age") = true.
Proof. vm_compute. reflexivity. Qed.
Example sample_19 : evalText gArith (rs "expr") (rs "1
A") (rs "1") = true.
Proof. vm_compute. reflexivity. Qed.
Example sample_20 : evalText gArith (rs "exprs") (rs "A+B
C+D") (rs "A + B
C + D") = true.
Proof. vm_compute. reflexivity. Qed.
Example sample_21 : evalText gArith (rs "exprs") (rs "A   

B") (rs "A
B") = true.
Proof. vm_compute. reflexivity. Qed.
Example sample_22 : evalText gArith (rs "exprs") (rs "A   

B
123") (rs "A
B
123") = true.
Proof. vm_compute. reflexivity. Qed.
Example sample_23 : evalText gArith (rs "exprs") (rs "(123-Age)*456
1+1") (rs "( 123 - Age ) * 456
1 + 1") = true.
Proof. vm_compute. reflexivity. Qed.
Example sample_24 : evalText gArith (rs "exprs") (rs "1
A") (rs "1
A") = true.
Proof. vm_compute. reflexivity. Qed.
Example sample_25 : evalText gArith (rs "exprs") (rs "1+1
A*B") (rs "1 + 1
A * B") = true.
Proof. vm_compute. reflexivity. Qed.
Example sample_26 : evalText gArith (rs "exprs") (rs "(123-Age)*456
1+1
A*B") (rs "( 123 - Age ) * 456
1 + 1
A * B") = true.
Proof. vm_compute. reflexivity. Qed.
Example sample_27 : evalText gArith (rs "exprs") (rs "123.45 + 456.78 - -34
1+1
A+3*B") (rs "123.45 + 456.78 - -34
1 + 1
A + 3 * B") = true.
Proof. vm_compute. reflexivity. Qed.
Example sample_28 : evalText gArith (rs "letter_lowercase") (rs "age") (rs "a") = true.
Proof. vm_compute. reflexivity. Qed.
Example sample_29 : evalText gArith (rs "letter") (rs "Age") (rs "A") = true.
Proof. vm_compute. reflexivity. Qed.
Example sample_30 : evalSample gArith 1 astRemoveVirtual (rs "1234 + 4567
A + 123.45 + 456.78 - -34") (rs "1234 + 4567
A + 123.45 + 456.78 - -34") = true.
Proof. vm_compute. reflexivity. Qed.
Example sample_31 : evalSample gArith 1 astRemoveVirtual (rs "1234 + 4567
0xFF * (0o77 - 0b1111)") (rs "1234 + 4567
0xFF * ( 0o77 - 0b1111 )") = true.
Proof. vm_compute. reflexivity. Qed.
Example sample_32 : evalSample gArith 1 astRemoveVirtual (rs "1234 + 4567 * 234.5 -34.67/000") (rs "1234 + 4567 * 234.5 - 34.67 / 000") = true.
Proof. vm_compute. reflexivity. Qed.
(** json/json.xbnf. *)
Definition gJson_text : list Z := rs "digit      = '0' | '1' | '2' | '3' | '4' | '5' | '6' | '7' | '8' | '9'
integer    = digit { digit }
float      = integer '.' digit { digit }
number     = """" [ '-' ] integer | float
string     = < #'""' '\\' ^\u000A #'""' >
bool       = ""true"" | ""false""
literal    = number | string | bool | ""null""
array      = #""["" [ value { #"","" value } ] #""]"" 
kv         = string #"":"" value 
object     = #""{"" [ kv { #"","" kv } ] #""}""
value      = literal | array | object
json       = value // root node


".
Definition gJson : grammar := Eval vm_compute in theGrammar gJson_text.
Example gJson_ok : newGrammarFromString gJson_text = inl gJson.
Proof. vm_compute. reflexivity. Qed.

(** TestJson, json_test.go:11-64. *)
Example sample_33 : evalSample gJson 0 (fun a => astRemoveRedundant (astRemoveVirtual (astMerge a))) (rs "{
    ""widget"": {
        ""debug"": ""on"",
        ""window"": {
            ""title"": ""Sample Konfabulator Widget"",
            ""name"": ""main_window"",
            ""width"": 500,
            ""height"": 500
        },
        ""image"": {
            ""src"": ""Images/Sun.png"",
            ""name"": ""sun1"",
            ""hOffset"": 250,
            ""vOffset"": 250,
            ""alignment"": ""center""
        },
        ""text"": {
            ""data"": ""Click Here"",
            ""size"": 36,
            ""style"": ""bold"",
            ""name"": ""text1"",
            ""hOffset"": 250,
            ""vOffset"": 100,
            ""alignment"": ""center"",
            ""onMouseUp"": ""sun1.opacity = (sun1.opacity / 100) * 90;""
        }
    }
}") (rs "{ ""widget"" : { ""debug"" : ""on"" , ""window"" : { ""title"" : ""Sample Konfabulator Widget"" , ""name"" : ""main_window"" , ""width"" : 500 , ""height"" : 500 } , ""image"" : { ""src"" : ""Images/Sun.png"" , ""name"" : ""sun1"" , ""hOffset"" : 250 , ""vOffset"" : 250 , ""alignment"" : ""center"" } , ""text"" : { ""data"" : ""Click Here"" , ""size"" : 36 , ""style"" : ""bold"" , ""name"" : ""text1"" , ""hOffset"" : 250 , ""vOffset"" : 100 , ""alignment"" : ""center"" , ""onMouseUp"" : ""sun1.opacity = (sun1.opacity / 100) * 90;"" } } }") = true.
Proof. vm_compute. reflexivity. Qed.
Example sample_34 : evalSample gJson 0 (fun a => astRemoveRedundant (astRemoveVirtual (astMerge a))) (rs "{""menu"": {
    ""header"": ""SVG Viewer"",
    ""items"": [
        {""id"": ""Open""},
        {""id"": ""OpenNew"", ""label"": ""Open New""},
        null,
        {""id"": ""ZoomIn"", ""label"": ""Zoom In""},
        {""id"": ""ZoomOut"", ""label"": ""Zoom Out""},
        {""id"": ""OriginalView"", ""label"": ""Original View""},
        null,
        {""id"": ""Quality""},
        {""id"": ""Pause""},
        {""id"": ""Mute""},
        null,
        {""id"": ""Find"", ""label"": ""Find...""},
        {""id"": ""FindAgain"", ""label"": ""Find Again""},
        {""id"": ""Copy""},
        {""id"": ""CopyAgain"", ""label"": ""Copy Again""},
        {""id"": ""CopySVG"", ""label"": ""Copy SVG""},
        {""id"": ""ViewSVG"", ""label"": ""View SVG""},
        {""id"": ""ViewSource"", ""label"": ""View Source""},
        {""id"": ""SaveAs"", ""label"": ""Save As""},
        null,
        {""id"": ""Help""},
        {""id"": ""About"", ""label"": ""About Adobe CVG Viewer...""}
    ]
}}") (rs "{ ""menu"" : { ""header"" : ""SVG Viewer"" , ""items"" : [ { ""id"" : ""Open"" } , { ""id"" : ""OpenNew"" , ""label"" : ""Open New"" } , null , { ""id"" : ""ZoomIn"" , ""label"" : ""Zoom In"" } , { ""id"" : ""ZoomOut"" , ""label"" : ""Zoom Out"" } , { ""id"" : ""OriginalView"" , ""label"" : ""Original View"" } , null , { ""id"" : ""Quality"" } , { ""id"" : ""Pause"" } , { ""id"" : ""Mute"" } , null , { ""id"" : ""Find"" , ""label"" : ""Find..."" } , { ""id"" : ""FindAgain"" , ""label"" : ""Find Again"" } , { ""id"" : ""Copy"" } , { ""id"" : ""CopyAgain"" , ""label"" : ""Copy Again"" } , { ""id"" : ""CopySVG"" , ""label"" : ""Copy SVG"" } , { ""id"" : ""ViewSVG"" , ""label"" : ""View SVG"" } , { ""id"" : ""ViewSource"" , ""label"" : ""View Source"" } , { ""id"" : ""SaveAs"" , ""label"" : ""Save As"" } , null , { ""id"" : ""Help"" } , { ""id"" : ""About"" , ""label"" : ""About Adobe CVG Viewer..."" } ] } }") = true.
Proof. vm_compute. reflexivity. Qed.
Example sample_35 : evalSample gJson 0 (fun a => astRemoveRedundant (astRemoveVirtual (astMerge a))) (rs "{ ""a"":
    [true, null, 1245.67, ""string\nhere""],
  ""a00002"": { },
  ""a00003"": true,
  ""a00004"": []
}") (rs "{ ""a"" : [ true , null , 1245.67 , ""string\\nhere"" ] , ""a00002"" : { } , ""a00003"" : true , ""a00004"" : [ ] }") = true.
Proof. vm_compute. reflexivity. Qed.
(** TestNondata, json_test.go:66-120. *)
Example sample_36 : evalSample gJson 0 (fun a => astRemoveRedundant (astMerge (astRemoveVirtual a))) (rs "{
    ""widget"": {
        ""debug"": ""on"",
        ""window"": {
            ""title"": ""Sample Konfabulator Widget"",
            ""name"": ""main_window"",
            ""width"": 500,
            ""height"": 500
        },
        ""image"": {
            ""src"": ""Images/Sun.png"",
            ""name"": ""sun1"",
            ""hOffset"": 250,
            ""vOffset"": 250,
            ""alignment"": ""center""
        },
        ""text"": {
            ""data"": ""Click Here"",
            ""size"": 36,
            ""style"": ""bold"",
            ""name"": ""text1"",
            ""hOffset"": 250,
            ""vOffset"": 100,
            ""alignment"": ""center"",
            ""onMouseUp"": ""sun1.opacity = (sun1.opacity / 100) * 90;""
        }
    }
}") (rs "{ ""widget"" : { ""debug"" : ""on"" , ""window"" : { ""title"" : ""Sample Konfabulator Widget"" , ""name"" : ""main_window"" , ""width"" : 500 , ""height"" : 500 } , ""image"" : { ""src"" : ""Images/Sun.png"" , ""name"" : ""sun1"" , ""hOffset"" : 250 , ""vOffset"" : 250 , ""alignment"" : ""center"" } , ""text"" : { ""data"" : ""Click Here"" , ""size"" : 36 , ""style"" : ""bold"" , ""name"" : ""text1"" , ""hOffset"" : 250 , ""vOffset"" : 100 , ""alignment"" : ""center"" , ""onMouseUp"" : ""sun1.opacity = (sun1.opacity / 100) * 90;"" } } }") = true.
Proof. vm_compute. reflexivity. Qed.
Example sample_37 : evalSample gJson 0 (fun a => astRemoveRedundant (astMerge (astRemoveVirtual a))) (rs "{""menu"": {
    ""header"": ""SVG Viewer"",
    ""items"": [
        {""id"": ""Open""},
        {""id"": ""OpenNew"", ""label"": ""Open New""},
        null,
        {""id"": ""ZoomIn"", ""label"": ""Zoom In""},
        {""id"": ""ZoomOut"", ""label"": ""Zoom Out""},
        {""id"": ""OriginalView"", ""label"": ""Original View""},
        null,
        {""id"": ""Quality""},
        {""id"": ""Pause""},
        {""id"": ""Mute""},
        null,
        {""id"": ""Find"", ""label"": ""Find...""},
        {""id"": ""FindAgain"", ""label"": ""Find Again""},
        {""id"": ""Copy""},
        {""id"": ""CopyAgain"", ""label"": ""Copy Again""},
        {""id"": ""CopySVG"", ""label"": ""Copy SVG""},
        {""id"": ""ViewSVG"", ""label"": ""View SVG""},
        {""id"": ""ViewSource"", ""label"": ""View Source""},
        {""id"": ""SaveAs"", ""label"": ""Save As""},
        null,
        {""id"": ""Help""},
        {""id"": ""About"", ""label"": ""About Adobe CVG Viewer...""}
    ]
}}") (rs "{ ""menu"" : { ""header"" : ""SVG Viewer"" , ""items"" : [ { ""id"" : ""Open"" } , { ""id"" : ""OpenNew"" , ""label"" : ""Open New"" } , null , { ""id"" : ""ZoomIn"" , ""label"" : ""Zoom In"" } , { ""id"" : ""ZoomOut"" , ""label"" : ""Zoom Out"" } , { ""id"" : ""OriginalView"" , ""label"" : ""Original View"" } , null , { ""id"" : ""Quality"" } , { ""id"" : ""Pause"" } , { ""id"" : ""Mute"" } , null , { ""id"" : ""Find"" , ""label"" : ""Find..."" } , { ""id"" : ""FindAgain"" , ""label"" : ""Find Again"" } , { ""id"" : ""Copy"" } , { ""id"" : ""CopyAgain"" , ""label"" : ""Copy Again"" } , { ""id"" : ""CopySVG"" , ""label"" : ""Copy SVG"" } , { ""id"" : ""ViewSVG"" , ""label"" : ""View SVG"" } , { ""id"" : ""ViewSource"" , ""label"" : ""View Source"" } , { ""id"" : ""SaveAs"" , ""label"" : ""Save As"" } , null , { ""id"" : ""Help"" } , { ""id"" : ""About"" , ""label"" : ""About Adobe CVG Viewer..."" } ] } }") = true.
Proof. vm_compute. reflexivity. Qed.
Example sample_38 : evalSample gJson 0 (fun a => astRemoveRedundant (astMerge (astRemoveVirtual a))) (rs "{ ""a"":
    [true, null, 1245.67, ""string\nhere""],
  ""a00002"": { },
  ""a00003"": true,
  ""a00004"": []
}") (rs "{ ""a"" : [ true , null , 1245.67 , ""string\\nhere"" ] , ""a00002"" : { } , ""a00003"" : true , ""a00004"" : [ ] }") = true.
Proof. vm_compute. reflexivity. Qed.
(** property/property.xbnf. *)
Definition gProp_text : list Z := rs "
SPACE   = \u0020  // space
TAB     = \u0009  // horizontal tab
NL      = \u000A  // new line
key = ~{SPACE|TAB|NL} < """" '\\' ^NL ~(""=""|"":"") >
value = ~{SPACE|TAB|NL} < """" '\\' ~( NL | EOF )>
emptykey = ~{SPACE|TAB|NL} < """" ^('='|':') ~( NL | EOF )> 
property = emptykey | ( key value ) ~{ SPACE|NL|TAB }".
Definition gProp : grammar := Eval vm_compute in theGrammar gProp_text.
Example gProp_ok : newGrammarFromString gProp_text = inl gProp.
Proof. vm_compute. reflexivity. Qed.

(** TestProperty, property_test.go:44-77. *)
Example sample_39 : evalWell gProp 1 (rs "123456") = true.
Proof. vm_compute. reflexivity. Qed.
Example sample_40 : evalWell gProp 1 (rs "colon_key:http://www.google.com") = true.
Proof. vm_compute. reflexivity. Qed.
Example sample_41 : evalWell gProp 1 (rs "empty key
		    abc    = 123456
	    	url		=    http://www.google.com") = true.
Proof. vm_compute. reflexivity. Qed.
Example sample_42 : evalWell gProp 1 (rs "
		empty key
		abc	= 123456
	    url	=    http://www.google.com
	    colon_Key	:    http://www.google.com
		multi_line = line1 \
continue second line \
3rd line
	") = true.
Proof. vm_compute. reflexivity. Qed.
Example sample_43 : evalWell gProp 1 (rs "
db.url=localhost
db.user=mkyong
db.password=password	
	") = true.
Proof. vm_compute. reflexivity. Qed.
